(** What was in the destination before. *)
From Coq Require Import List ZArith Bool Arith Lia.
From Verif Require Import Base CharSet Source Dst Pattern Parser Session SpecSession SpecType SpecGrow Keep TypeThms Grow.
Import ListNotations.

Lemma keeps_cells {S} (ops : source_ops S) env n t p st (w : world S) x w' :
  top_consume ops env n t p st w = Done (x, w') -> length (w_cells w') = length (w_cells w).
Proof. intros H. apply (keeps_consume ops (fun _ _ => True)) in H; tauto. Qed.
Lemma create_cells {S} (ops : source_ops S) t p (w : world S) x w' :
  top_create ops t p w = Done (x, w') -> length (w_cells w') = length (w_cells w).
Proof. intros H. apply (keeps_create ops (fun _ _ => True)) in H; tauto. Qed.

Section Both.
Context (env : nat -> option pat) (T : ty) (R : val -> val -> Prop) (excused : err -> Prop) (P : action -> Prop).
Context (Htuple : forall l, T <> TTuple l).
Context (Hassign : forall x, gcells R excused (fun c => assign c (DRef 0 [] T) x)).
Context (Hzero : gcells R excused (fun c => num_zero c (DRef 0 [] T))).
Context (Hop : forall f, gcells R excused (fun c => num_op f c (DRef 0 [] T))).
Context (Hact : forall a, P a -> ac_param a = true -> forall x v1 v2, R v1 v2 ->
  fst (ac_fun a x v1) = fst (ac_fun a x v2) /\
  has_ty T (snd (ac_fun a x v1)) = has_ty T (snd (ac_fun a x v2)) /\
  (has_ty T (snd (ac_fun a x v1)) = true -> R (snd (ac_fun a x v1)) (snd (ac_fun a x v2)))).
Context (Henv : every_action_in P env).
Context (p : pat) (Hp : every_action P p).

Definition alike {S} (w1 w2 : world S) : Prop :=
  w_src w1 = w_src w2 /\ w_trace w1 = w_trace w2 /\
  exists v1 v2, w_cells w1 = [v1] /\ w_cells w2 = [v2] /\ R v1 v2.

Lemma alike_of {S} (w1 w2 : world S) : length (w_cells w1) = 1 -> Gw R w1 w2 -> alike w1 w2.
Proof.
  intros HL (H1 & H2 & v1 & v2 & r & E1 & E2 & HR). rewrite E1 in HL. destruct r; [|discriminate]. repeat split; eauto.
Qed.
Lemma alike_Gw {S} (w1 w2 : world S) : alike w1 w2 -> Gw R w1 w2 /\ length (w_cells w1) = 1.
Proof. intros (H1 & H2 & v1 & v2 & E1 & E2 & HR). rewrite E1. repeat split; eauto 8. Qed.

Lemma both_parse n v1 v2 inp : R v1 v2 ->
  match parse env n T v1 p inp with
  | Done (r, w1) => exists w2, parse env n T v2 p inp = Done (r, w2) /\ alike w1 w2
  | Err e => excused e \/ parse env n T v2 p inp = Err e
  end.
Proof.
  intros HR. unfold parse, top_run, bind.
  pose proof (gsim_top_create sf_ops T R excused P Htuple Hassign Hzero Hop Hact p
                (World (sf_make inp) [v1] []) (World (sf_make inp) [v2] [])) as HC.
  match type of HC with ?L -> _ => assert L as HL end.
  { repeat split; cbn; eauto 8. }
  specialize (HC HL). destruct (top_create sf_ops T p (World (sf_make inp) [v1] [])) as [[st w1]|e] eqn:EC.
  - destruct HC as (w2 & -> & HW).
    pose proof (gsim_top_consume sf_ops env T R excused P Htuple Hassign Hzero Hop Hact Henv n p st Hp w1 w2 HW) as HS.
    destruct (top_consume sf_ops env n T p st w1) as [[[r st'] w1']|e] eqn:ES.
    + destruct HS as (w2' & -> & HW'). exists w2'. split; auto. apply alike_of; auto.
      rewrite (keeps_cells _ _ _ _ _ _ _ _ _ ES), (create_cells _ _ _ _ _ _ EC). reflexivity.
    + destruct HS as [| ->]; auto.
  - destruct HC as [| ->]; auto.
Qed.

Definition alike_s (s1 s2 : session cseq) : Prop :=
  s_res s1 = s_res s2 /\ s_st s1 = s_st s2 /\ alike (s_world s1) (s_world s2).

Lemma both_calls n l : forall s1 s2, alike_s s1 s2 ->
  match do_calls cs_ops cs_add env n T p l s1 with
  | Done s1' => exists s2', do_calls cs_ops cs_add env n T p l s2 = Done s2' /\ alike_s s1' s2'
  | Err e => excused e \/ do_calls cs_ops cs_add env n T p l s2 = Err e
  end.
Proof.
  induction l as [|k l IH]; intros s1 s2 HS; cbn [do_calls]; [eauto|].
  assert (match do_call cs_ops cs_add env n T p k s1 with
          | Done s1' => exists s2', do_call cs_ops cs_add env n T p k s2 = Done s2' /\ alike_s s1' s2'
          | Err e => excused e \/ do_call cs_ops cs_add env n T p k s2 = Err e
          end) as HK.
  { pose proof HS as (H1 & H2 & H3). unfold do_call. rewrite <- H1, <- H2. destruct (s_res s1); [eauto|].
    destruct k.
    - pose proof H3 as (F1 & F2 & F3). rewrite <- F1. destruct (cs_add b f _); cbn [obind]; [|auto].
      eexists. split; [reflexivity|]. split; [auto|]. split; [cbn; auto|]. split; [auto|]. split; [auto|exact F3].
    - destruct (alike_Gw _ _ H3) as [HW HL].
      pose proof (gsim_top_consume cs_ops env T R excused P Htuple Hassign Hzero Hop Hact Henv n p (s_st s1) Hp _ _ HW) as HG.
      destruct (top_consume cs_ops env n T p (s_st s1) (s_world s1)) as [[[r st'] w1']|e] eqn:ES.
      + destruct HG as (w2' & -> & HW').
        assert (alike w1' w2') by (apply alike_of; auto; now rewrite (keeps_cells _ _ _ _ _ _ _ _ _ ES)).
        destruct r; eexists; (split; [reflexivity|]); repeat (split; [reflexivity|]); auto.
      + destruct HG as [| ->]; auto. }
  destruct (do_call cs_ops cs_add env n T p k s1) as [s1'|e]; cbn [obind].
  - destruct HK as (s2' & -> & HS'). exact (IH _ _ HS').
  - destruct HK as [| ->]; auto.
Qed.

Lemma both_session n l v1 v2 : R v1 v2 ->
  match run_session env n T v1 p l with
  | Done s1 => exists s2, run_session env n T v2 p l = Done s2 /\ alike_s s1 s2
  | Err e => excused e \/ run_session env n T v2 p l = Err e
  end.
Proof.
  intros HR. unfold run_session.
  pose proof (gsim_top_create cs_ops T R excused P Htuple Hassign Hzero Hop Hact p
                (World cs_make [v1] []) (World cs_make [v2] [])) as HC.
  match type of HC with ?L -> _ => assert L as HL end.
  { repeat split; cbn; eauto 8. }
  specialize (HC HL). destruct (top_create cs_ops T p (World cs_make [v1] [])) as [[st w1]|e] eqn:EC.
  - destruct HC as (w2 & -> & HW). apply both_calls. repeat (split; [reflexivity|]). cbn. apply alike_of; auto.
    now rewrite (create_cells _ _ _ _ _ _ EC).
  - destruct HC as [| ->]; auto.
Qed.
End Both.

(** ** Collections *)

Definition Rfront (pre : list val) (v1 v2 : val) : Prop := exists l, v1 = VColl l /\ v2 = VColl (pre ++ l).

Section Front.
Context (e : ty) (pre : list val) (Hpre : forallb (has_ty e) pre = true).

Lemma front_assign x : gcells (Rfront pre) (fun _ => False) (fun c => assign c (DRef 0 [] (TColl e)) x).
Proof.
  intros v1 v2 r (l & -> & ->). cbn [assign]. destruct (conv e x) as [y|]; cbn; auto.
  do 3 eexists. split; [reflexivity|]. split; [reflexivity|]. exists (l ++ [y]). rewrite app_assoc. auto.
Qed.
Lemma front_act a : indifferent a -> ac_param a = true -> forall x v1 v2, Rfront pre v1 v2 ->
  fst (ac_fun a x v1) = fst (ac_fun a x v2) /\
  has_ty (TColl e) (snd (ac_fun a x v1)) = has_ty (TColl e) (snd (ac_fun a x v2)) /\
  (has_ty (TColl e) (snd (ac_fun a x v1)) = true -> Rfront pre (snd (ac_fun a x v1)) (snd (ac_fun a x v2))).
Proof.
  intros Ha Hp x v1 v2 (l & -> & ->). rewrite (Ha Hp). cbn [fst snd]. split; auto.
  destruct (snd (ac_fun a x (VColl l))) as [| | |m| |]; cbn; try (split; [auto|discriminate]).
  rewrite forallb_app, Hpre. split; auto. intros _. exists m. auto.
Qed.
End Front.

Theorem parse_grows env e p pre : forallb (has_ty e) pre = true ->
  every_action_in indifferent env -> every_action indifferent p ->
  forall n l inp, parse env n (TColl e) (VColl (pre ++ l)) p inp =
                  parse_front pre (parse env n (TColl e) (VColl l) p inp).
Proof.
  intros Hpre Henv Hp n l inp.
  pose proof (both_parse env (TColl e) (Rfront pre) (fun _ => False) indifferent) as H.
  specialize (H ltac:(discriminate) (front_assign e pre)).
  specialize (H ltac:(intros v1 v2 r _; right; reflexivity) ltac:(intros f v1 v2 r _; right; reflexivity) (front_act e pre Hpre) Henv p Hp n (VColl l) (VColl (pre ++ l)) inp).
  specialize (H ltac:(exists l; auto)).
  destruct (parse env n (TColl e) (VColl l) p inp) as [[r w1]|].
  - destruct H as (w2 & -> & H1 & H2 & v1 & v2 & E1 & E2 & m & -> & ->). cbn. do 2 f_equal.
    destruct w1, w2. cbn in *. now subst.
  - destruct H as [[]|H]. exact H.
Qed.

Theorem session_grows env e p pre : forallb (has_ty e) pre = true ->
  every_action_in indifferent env -> every_action indifferent p ->
  forall n l calls, run_session env n (TColl e) (VColl (pre ++ l)) p calls =
                    session_front pre (run_session env n (TColl e) (VColl l) p calls).
Proof.
  intros Hpre Henv Hp n l calls.
  pose proof (both_session env (TColl e) (Rfront pre) (fun _ => False) indifferent) as H.
  specialize (H ltac:(discriminate) (front_assign e pre)).
  specialize (H ltac:(intros v1 v2 r _; right; reflexivity) ltac:(intros f v1 v2 r _; right; reflexivity) (front_act e pre Hpre) Henv p Hp n calls (VColl l) (VColl (pre ++ l))).
  specialize (H ltac:(exists l; auto)).
  destruct (run_session env n (TColl e) (VColl l) p calls) as [s1|].
  - destruct H as (s2 & -> & HR & HT & H1 & H2 & v1 & v2 & E1 & E2 & m & -> & ->). cbn.
    destruct s1 as [? ? []], s2 as [? ? []]. cbn in *. subst. reflexivity.
  - destruct H as [[]|H]. exact H.
Qed.

(** ** Values *)

Definition Rvalue (t : ty) (v w v1 w1 : val) : Prop :=
  v1 = v /\ w1 = w \/ v1 = w1 /\ (is_num t = true -> v1 <> VUndef).

Section Value.
Context (T : ty) (v w : val).
Context (Hcoll : forall e, T <> TColl e) (Htup : forall l, T <> TTuple l) (Hnum : is_num T = true -> v = VUndef).
Definition excuse (e : err) : Prop := is_num T = true /\ e = EUb UbUninit.

Lemma conv_set x y : conv T x = Done y -> is_num T = true -> y <> VUndef.
Proof. intros H. destruct T; try discriminate. destruct x; cbn in H; try discriminate; injection H as <-; discriminate. Qed.

Lemma value_assign x : gcells (Rvalue T v w) excuse (fun c => assign c (DRef 0 [] T) x).
Proof.
  intros v1 v2 r HR. assert (forall c, assign c (DRef 0 [] T) x = obind (conv T x) (fun y => store c (DRef 0 [] T) y)) as E.
  { intros c. destruct T; try reflexivity. now destruct (Hcoll t). }
  rewrite !E. destruct (conv T x) as [y|] eqn:EY; cbn; [|auto].
  do 3 eexists; split; [reflexivity|split; [reflexivity|right]]. split; auto. now apply (conv_set x).
Qed.
Lemma value_zero : gcells (Rvalue T v w) excuse (fun c => num_zero c (DRef 0 [] T)).
Proof. intros v1 v2 r HR. destruct T; cbn; auto. do 3 eexists; split; [reflexivity|split; [reflexivity|right]]. split; [auto|discriminate]. Qed.
Lemma value_op f : gcells (Rvalue T v w) excuse (fun c => num_op f c (DRef 0 [] T)).
Proof.
  intros v1 v2 r HR. unfold excuse in *. destruct T eqn:ET; cbn; auto.
  destruct HR as [[-> ->]|[<- _]].
  - rewrite (Hnum eq_refl). auto.
  - destruct v1; cbn; auto. destruct (arith _ _ _); cbn; auto.
    do 3 eexists; split; [reflexivity|split; [reflexivity|right]]. split; [auto|discriminate].
Qed.
End Value.

Section Values.
Context (env : nat -> option pat) (t : ty) (p : pat).
Context (Hcoll : forall e, t <> TColl e) (Htup : forall l, t <> TTuple l).
Context (Henv : every_action_in unaware env) (Hp : every_action unaware p).

Lemma from_parse v w n inp : (is_num t = true -> v = VUndef) ->
  match parse env n t v p inp with
  | Done (r, w1) => exists w2, parse env n t w p inp = Done (r, w2) /\ alike (Rvalue t v w) w1 w2
  | Err e => excuse t e \/ parse env n t w p inp = Err e
  end.
Proof.
  intros Hn. pose proof (both_parse env t (Rvalue t v w) (excuse t) unaware Htup) as H.
  apply H; auto using value_assign, value_zero, value_op; [|now left]. unfold unaware. congruence.
Qed.
Lemma from_session v w n l : (is_num t = true -> v = VUndef) ->
  match run_session env n t v p l with
  | Done s1 => exists s2, run_session env n t w p l = Done s2 /\ alike_s (Rvalue t v w) s1 s2
  | Err e => excuse t e \/ run_session env n t w p l = Err e
  end.
Proof.
  intros Hn. pose proof (both_session env t (Rvalue t v w) (excuse t) unaware Htup) as H.
  apply H; auto using value_assign, value_zero, value_op; [|now left]. unfold unaware. congruence.
Qed.

Lemma left_both v w a b c : is_num t = true -> Rvalue t VUndef v a b -> Rvalue t VUndef w a c -> left_or_set v w b c.
Proof.
  unfold Rvalue, left_or_set. intros E [[-> ->]|[<- H1]] [[? ->]|[<- H2]]; auto.
  - now destruct (H2 E).
  - subst a. now destruct (H1 E).
Qed.

Context (Hnum : is_num t = true -> exists uses stores known, welltyped true false uses stores known env t p).

Theorem parse_writes v w n inp : parse_alike v w (parse env n t v p inp) (parse env n t w p inp).
Proof.
  destruct (is_num t) eqn:E.
  - destruct (Hnum eq_refl) as (uses & stores & known & HW).
    pose proof (parse_filled _ _ _ _ _ _ HW VUndef n inp (or_intror (conj E eq_refl))) as HU.
    pose proof (from_parse VUndef v n inp ltac:(auto)) as H1. pose proof (from_parse VUndef w n inp ltac:(auto)) as H2.
    destruct (parse env n t VUndef p inp) as [[r x]|e].
    + destruct H1 as (x1 & -> & A1 & B1 & a1 & b1 & C1 & D1 & F1). destruct H2 as (x2 & -> & A2 & B2 & a2 & b2 & C2 & D2 & F2). cbn.
      assert (a2 = a1) as -> by congruence.
      repeat split; try congruence. exists b1, b2. repeat split; auto. eapply left_both; eauto.
    + destruct H1 as [[_ ?]|H1]; [contradiction|]. destruct H2 as [[_ ?]|H2]; [contradiction|]. now rewrite H1, H2.
  - pose proof (from_parse v w n inp ltac:(congruence)) as H1. destruct (parse env n t v p inp) as [[r x]|e].
    + destruct H1 as (x1 & -> & A1 & B1 & a1 & b1 & C1 & D1 & F1). cbn. repeat split; auto. exists a1, b1. repeat split; auto.
      unfold Rvalue, left_or_set in *. tauto.
    + destruct H1 as [[? ?]|H1]; [congruence|]. now rewrite H1.
Qed.

Theorem session_writes v w n l : session_alike v w (run_session env n t v p l) (run_session env n t w p l).
Proof.
  destruct (is_num t) eqn:E.
  - destruct (Hnum eq_refl) as (uses & stores & known & HW).
    pose proof (session_filled _ _ _ _ _ _ HW VUndef n l (or_intror (conj E eq_refl))) as HU.
    pose proof (from_session VUndef v n l ltac:(auto)) as H1. pose proof (from_session VUndef w n l ltac:(auto)) as H2.
    destruct (run_session env n t VUndef p l) as [x|e].
    + destruct H1 as (x1 & -> & G1 & K1 & A1 & B1 & a1 & b1 & C1 & D1 & F1). destruct H2 as (x2 & -> & G2 & K2 & A2 & B2 & a2 & b2 & C2 & D2 & F2). cbn.
      assert (a2 = a1) as -> by congruence.
      repeat split; try congruence. exists b1, b2. repeat split; auto. eapply left_both; eauto.
    + destruct H1 as [[_ ?]|H1]; [contradiction|]. destruct H2 as [[_ ?]|H2]; [contradiction|]. now rewrite H1, H2.
  - pose proof (from_session v w n l ltac:(congruence)) as H1. destruct (run_session env n t v p l) as [x|e].
    + destruct H1 as (x1 & -> & G1 & K1 & A1 & B1 & a1 & b1 & C1 & D1 & F1). cbn. repeat split; auto. exists a1, b1. repeat split; auto.
      unfold Rvalue, left_or_set in *. tauto.
    + destruct H1 as [[? ?]|H1]; [congruence|]. now rewrite H1.
Qed.
End Values.
