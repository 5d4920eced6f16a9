(** Several parsers in one program do not disturb each other. *)
From Coq Require Import List ZArith Bool Arith Lia.
From Verif Require Import Base CharSet Source Dst Pattern Parser Session Rel Keep Local LocalAny Program SpecProgram.
Import ListNotations.

Lemma nth_upd_ne {A} (l : list A) i j x : i <> j -> nth_error (upd l i x) j = nth_error l j.
Proof. revert i j. induction l as [|a l IH]; intros [|i] [|j] H; cbn; auto; congruence. Qed.

Lemma nth_ext {A} (a b : list A) : (forall i, nth_error a i = nth_error b i) -> a = b.
Proof.
  revert b. induction a as [|x a IH]; intros [|y b] H; auto; try (specialize (H 0); discriminate).
  pose proof (H 0) as H0. injection H0 as ->. f_equal. apply IH. intros i. exact (H (S i)).
Qed.
Lemma makes_app a b : makes (a ++ b) = makes a ++ makes b.
Proof. apply flat_map_app. Qed.
Lemma calls_app i a b : calls_of i (a ++ b) = calls_of i a ++ calls_of i b.
Proof. apply flat_map_app. Qed.
Lemma targets_app a b : targets (a ++ b) = targets a ++ targets b.
Proof. apply flat_map_app. Qed.
Lemma written_app a b : written_to (a ++ b) = written_to a ++ written_to b.
Proof. apply flat_map_app. Qed.
Lemma deeds_app k a b : deeds k (a ++ b) = deeds k a ++ deeds k b.
Proof. apply flat_map_app. Qed.
Lemma answers_app k a b : answers k (a ++ b) = answers k a ++ answers k b.
Proof. apply flat_map_app. Qed.
Lemma deeds_none x a : ~ In x (written_to a) -> deeds (Some x) a = [].
Proof.
  induction a as [|[p [y|]|i c|y v|p [y|] inp] a IH]; intros H; cbn in *; auto;
    destruct (Nat.eqb_spec y x); try tauto; apply IH; tauto.
Qed.
Lemma deeds_sensible m x : m <= x -> forall a N, sensible m N a -> deeds (Some x) a = [].
Proof.
  intros Hx. induction a as [|[p [y|]|i c|y v|p [y|] inp] a IH]; intros N H; cbn in *; auto;
    try destruct H as [H1 H2]; eauto; destruct (Nat.eqb_spec y x); try lia; eauto.
Qed.
Lemma some_deeds_app env n t a b x :
  some_deeds env n t (a ++ b) x = obind (some_deeds env n t a x) (some_deeds env n t b).
Proof. revert x. induction a as [|d a IH]; intros x; cbn; auto. destruct (one_deed env n t d x); cbn; auto. Qed.
Lemma by_itself_app env n ts objs k a b : by_itself env n ts objs k (a ++ b) =
  obind (by_itself env n ts objs k a) (some_deeds env n (obj_ty ts k) b).
Proof. destruct k; apply some_deeds_app. Qed.
Lemma makes_targets l i p x : nth_error (makes l) i = Some (p, Some x) -> In x (targets l).
Proof.
  intros H. apply nth_error_In in H. unfold makes in H. apply in_flat_map in H as (s & H1 & H2).
  apply in_flat_map. exists s. split; auto. destruct s; cbn in H2; try tauto.
  destruct H2 as [[= -> ->]|[]]. now left.
Qed.
Lemma targets_makes l x : In x (targets l) -> exists i p, nth_error (makes l) i = Some (p, Some x).
Proof.
  intros H. unfold targets in H. apply in_flat_map in H as (s & H1 & H2). destruct s as [p [k|]| | |]; cbn in H2; try tauto.
  destruct H2 as [->|[]]. assert (In (p, Some x) (makes l)) as H.
  { apply in_flat_map. eexists. split; [exact H1|now left]. }
  apply In_nth_error in H as (i & H). eauto.
Qed.
Lemma targets_inj l i j p q x : NoDup (targets l) ->
  nth_error (makes l) i = Some (p, Some x) -> nth_error (makes l) j = Some (q, Some x) -> i = j.
Proof.
  revert i j. induction l as [|s l IH]; intros i j Hn Hi Hj; [now destruct i|].
  change (s :: l) with ([s] ++ l) in *. rewrite targets_app in Hn. rewrite makes_app in Hi, Hj.
  destruct s as [p' k| | |]; cbn in Hi, Hj, Hn; [|eauto|eauto|eauto].
  destruct i as [|i], j as [|j]; cbn in Hi, Hj; auto.
  - injection Hi as -> ->. cbn in Hn. inversion Hn; subst. apply makes_targets in Hj. tauto.
  - injection Hj as -> ->. cbn in Hn. inversion Hn; subst. apply makes_targets in Hi. tauto.
  - f_equal. destruct k; cbn in Hn; [inversion Hn; subst|]; eauto.
Qed.

Lemma log_app i a b : log_of i (a ++ b) = log_of i a ++ log_of i b.
Proof. unfold log_of. now rewrite filter_app, map_app. Qed.
Lemma log_own i t : log_of i (map (pair i) t) = t.
Proof. induction t as [|e t IH]; cbn; auto. unfold log_of in *. cbn. rewrite Nat.eqb_refl. cbn. now rewrite IH. Qed.
Lemma log_other i j t : j <> i -> log_of i (map (pair j) t) = [].
Proof.
  intros H. induction t as [|e t IH]; cbn; auto. unfold log_of in *. cbn.
  destruct (Nat.eqb_spec j i); [tauto|auto].
Qed.

Lemma do_calls_app {S} (ops : source_ops S) add env n t p a b s :
  do_calls ops add env n t p (a ++ b) s = obind (do_calls ops add env n t p a s) (do_calls ops add env n t p b).
Proof.
  revert s. induction a as [|c a IH]; intros s; cbn; auto.
  destruct (do_call ops add env n t p c s); cbn; auto.
Qed.
Lemma run_session_app env n t v p a b :
  run_session env n t v p (a ++ b) = obind (run_session env n t v p a) (do_calls cs_ops cs_add env n t p b).
Proof.
  unfold run_session. destruct (top_create _ _ _ _) as [[st w]|]; cbn; auto. apply do_calls_app.
Qed.

Local Arguments log_of : simpl never.
Section Thms.
Context (env : nat -> option pat) (n : nat) (ts : list ty) (objs : list val).
Notation aloneP := (alone env n ts objs).
Notation oty := (obj_ty ts).

Definition oval (k : option nat) : val := match k with Some x => nth x objs VNil | None => VNil end.
Lemma alone_eq p k c : aloneP p k c = run_session env n (oty k) (oval k) p c.
Proof. now destruct k. Qed.

(** The place of the object of a parser among the objects. *)
Definition hole_of (k : option nat) : option (nat * list nat) :=
  match k with Some x => Some (x, []) | None => None end.

Lemma dst_at C k : Dr C (hole_of k) (top_dst (oty k)) (obj_dst ts k).
Proof.
  unfold top_dst, obj_dst, obj_ty. destruct k as [x|]; [|constructor].
  unfold dst_cell. destruct (nth x ts TNil); try constructor; apply Dr_hole with (P := []); auto.
Qed.

Lemma world_at {U} k C (src : U) v tr : (forall x, k = Some x -> nth_error C x = Some v) ->
  Lw C (hole_of k) tr [] (World src [v] tr) (World src C []).
Proof.
  intros H. unfold Lw. cbn. split; auto. split.
  - exists v, []. split; auto. destruct k as [x|]; cbn.
    + exists v, v. rewrite app_nil_r. rewrite upd_same; auto.
    + now rewrite app_nil_r.
  - exists []. auto.
Qed.

(** What a world of the parser alone says of the world of the program. *)
Lemma world_back {U} k C (w1 w2 : world U) tr : Lw C (hole_of k) tr [] w1 w2 -> length (w_cells w1) = 1 ->
  w_src w1 = w_src w2 /\ w_trace w1 = w_trace w2 ++ tr /\ exists v, w_cells w1 = [v] /\
  match k with
  | Some x => nth_error C x <> None /\ w_cells w2 = upd C x v
  | None => w_cells w2 = C
  end.
Proof.
  intros (H1 & (v & bufs & H2 & H3) & (t & H4 & H5)) Hl. split; auto.
  rewrite H4, H5, app_nil_r. split; auto. exists v. rewrite H2 in Hl. destruct bufs; [|discriminate].
  split; auto. destruct k as [x|]; cbn in H3.
  - destruct H3 as (r & r' & E1 & E2 & E3). injection E2 as <-. rewrite app_nil_r in E3. split; auto. congruence.
  - now rewrite app_nil_r in H3.
Qed.

(** Parser [i] of the program and its session alone. *)
Definition agrees (g : prog) (i : nat) (p : pat) (k : option nat) (s : session cseq) : Prop :=
  exists q v, nth_error (g_parsers g) i = Some q /\ q_pat q = p /\ q_dst q = k /\ q_res q = s_res s /\
  q_st q = s_st s /\ q_src q = w_src (s_world s) /\ log_of i (g_log g) = w_trace (s_world s) /\
  w_cells (s_world s) = [v] /\ forall x, k = Some x -> nth_error (g_objs g) x = Some v.

Definition Inv (done : list stmt) (g : prog) : Prop :=
  length (g_parsers g) = length (makes done) /\ length (g_objs g) = length objs /\
  (forall i, length (makes done) <= i -> calls_of i done = [] /\ log_of i (g_log g) = []) /\
  (forall i p k, nth_error (makes done) i = Some (p, k) ->
     exists s, aloneP p k (calls_of i done) = Done s /\ agrees g i p k s) /\
  (forall k, (forall x, k = Some x -> ~ In x (targets done) /\ x < length objs) ->
     exists v, by_itself env n ts objs k (deeds k done) = Done (v, answers k (g_parsed g)) /\
     forall x, k = Some x -> nth_error (g_objs g) x = Some v) /\
  (forall k, deeds k done = [] -> answers k (g_parsed g) = []).

Lemma nth_some x : x < length objs -> nth_error objs x = Some (nth x objs VNil).
Proof. intros. now apply nth_error_nth'. Qed.

Lemma Inv0 : Inv [] (Prog objs [] [] []).
Proof.
  repeat split; auto.
  - intros i p k H. now destruct i.
  - intros [x|] H; (eexists; split; [reflexivity|]); [|discriminate].
    intros y [= <-]. apply nth_some. now apply (H x).
Qed.

(** A statement that is not about parser [i], its object included, leaves it alone. *)
Lemma agrees_frame g g' i p k s : agrees g i p k s ->
  nth_error (g_parsers g') i = nth_error (g_parsers g) i ->
  log_of i (g_log g') = log_of i (g_log g) ->
  (forall x, k = Some x -> nth_error (g_objs g') x = nth_error (g_objs g) x) -> agrees g' i p k s.
Proof.
  intros (q & v & H1 & H2 & H3 & H4 & H5 & H6 & H7 & H8 & H9) E1 E2 E3.
  exists q, v. rewrite E1, E2. repeat split; auto. intros. rewrite E3; auto.
Qed.

Definition bad_session (l : list stmt) (e : err) : Prop :=
  (exists i p k, nth_error (makes l) i = Some (p, k) /\ aloneP p k (calls_of i l) = Err e) \/
  exists k, by_itself env n ts objs k (deeds k l) = Err e.

Definition stmt_ok (done : list stmt) (s : stmt) : Prop := sensible (length objs) (length (makes done)) [s].

Lemma xsim_at {U A} k v tr C src (m1 m2 : M U A) :
  xsim C (hole_of k) tr [] m1 m2 -> (forall x, k = Some x -> nth_error C x = Some v) ->
  match m1 (World src [v] tr) with
  | Done (a, w1) => exists w2, m2 (World src C []) = Done (a, w2) /\ Lw C (hole_of k) tr [] w1 w2
  | Err e => m2 (World src C []) = Err e
  end.
Proof. intros H Hv. apply H, world_at, Hv. Qed.

Lemma top_cells {U A} (m : M U A) w a w' : keeps (fun _ _ => True) m -> m w = Done (a, w') ->
  length (w_cells w') = length (w_cells w).
Proof. intros H E. now apply H in E. Qed.

Lemma keep_create {U} (ops : source_ops U) c rq d p : keeps (fun _ _ => True) (create ops c rq d p).
Proof. apply keeps_create; auto. Qed.
Lemma keep_consume {U} (ops : source_ops U) c rq d p st : keeps (fun _ _ => True) (consume ops env n c rq d p st).
Proof. apply keeps_consume; auto. Qed.


Lemma makes_one done s i : nth_error (makes (done ++ [s])) i =
  if i <? length (makes done) then nth_error (makes done) i
  else match s with SMake p k => if i =? length (makes done) then Some (p, k) else None | _ => None end.
Proof.
  rewrite makes_app. destruct (Nat.ltb_spec i (length (makes done))) as [H|H]; [now apply nth_error_app1|].
  rewrite nth_error_app2 by auto.
  destruct s; cbn; try (now destruct (i - _)).
  destruct (Nat.eqb_spec i (length (makes done))) as [->|E].
  - now rewrite Nat.sub_diag.
  - destruct (i - length (makes done)) eqn:F; [lia|now destruct n0].
Qed.

Lemma step_make done p k g : apart (done ++ [SMake p k]) -> Inv done g ->
  match do_stmt env n ts (SMake p k) g with
  | Done g' => Inv (done ++ [SMake p k]) g' /\ stmt_ok done (SMake p k)
  | Err e => stmt_ok done (SMake p k) -> bad_session (done ++ [SMake p k]) e
  end.
Proof.
  intros [Hn Hw] (I1 & I2 & I3 & I4 & I5 & I6). cbn [do_stmt].
  assert (stmt_ok done (SMake p k) <-> match k with Some x => x <? length (g_objs g) | None => true end = true) as Hok.
  { unfold stmt_ok. cbn [sensible]. destruct k; [rewrite Nat.ltb_lt, I2|]; tauto. }
  destruct (match k with Some x => x <? length (g_objs g) | None => true end) eqn:Ek;
    [|intros H; apply Hok in H; discriminate].
  assert (forall x, k = Some x -> ~ In x (targets done) /\ nth_error (g_objs g) x = Some (oval k)) as Hk.
  { intros x ->. apply Nat.ltb_lt in Ek. rewrite I2 in Ek.
    assert (~ In x (targets done)) as H.
    { intros H. rewrite targets_app in Hn. cbn in Hn. apply NoDup_remove_2 in Hn. rewrite app_nil_r in Hn. auto. }
    split; auto. assert (deeds (Some x) done = []) as ED.
    { apply deeds_none. intros H'. apply (Hw x); rewrite ?targets_app, ?written_app, in_app_iff; cbn; auto. }
    destruct (I5 (Some x)) as (v & E1 & E2); [intros y [= <-]; auto|]. rewrite ED in E1. cbn in E1.
    injection E1 as <- _. now apply E2. }
  pose proof (xsim_at k (oval k) [] (g_objs g) cs_make _ _
    (xsim_create cs_ops (g_objs g) (hole_of k) [] [] (top_ctx (oty k)) (obj_ctx ts k) default_req _ _ p eq_refl (dst_at _ k))
    (fun x E => proj2 (Hk x E))) as HX.
  set (N := length (makes done)) in *.
  assert (nth_error (makes (done ++ [SMake p k])) N = Some (p, k)) as HN.
  { rewrite makes_one. fold N. now rewrite Nat.ltb_irrefl, Nat.eqb_refl. }
  assert (calls_of N (done ++ [SMake p k]) = []) as HC.
  { rewrite calls_app. cbn. rewrite app_nil_r. now apply I3. }
  destruct (create cs_ops (top_ctx (oty k)) default_req (top_dst (oty k)) p (World cs_make [oval k] [])) as [[st w1]|e] eqn:E1.
  2:{ rewrite HX. intros _. left. exists N, p, k. split; auto. rewrite HC, alone_eq. unfold run_session, top_create. now rewrite E1. }
  destruct HX as (w2 & -> & HL).
  apply world_back in HL as (L1 & L2 & v & L3 & L4); [|exact (top_cells _ _ _ _ (keep_create _ _ _ _ _) E1)].
  rewrite app_nil_r in L2. split; [|tauto].
  assert (length (w_cells w2) = length (g_objs g)) as Hlen.
  { destruct k; [destruct L4 as [_ ->]; apply upd_len|now rewrite L4]. }
  assert (forall x, k <> Some x -> nth_error (w_cells w2) x = nth_error (g_objs g) x) as Hoth.
  { intros x Hx. destruct k as [y|]; [destruct L4 as [_ ->]; apply nth_upd_ne; congruence|now rewrite L4]. }
  rewrite I1. fold N. unfold Inv. cbn [g_parsers g_objs g_log g_parsed].
  split; [rewrite makes_app, !app_length; cbn; lia|]. split; [lia|].
  split; [|split; [|split]].
  - intros i Hi. rewrite makes_app, app_length in Hi. cbn in Hi. fold N in Hi.
    destruct (I3 i) as [A B]; [lia|]. rewrite calls_app, A, log_app, B, log_other by lia. auto.
  - intros i p' k' Hi. pose proof Hi as Hi0. rewrite makes_one in Hi. fold N in Hi.
    destruct (Nat.ltb_spec i N) as [Hlt|Hge].
    + destruct (I4 i p' k' Hi) as (s & S1 & S2). exists s. rewrite calls_app. cbn. rewrite app_nil_r. split; auto.
      eapply agrees_frame; [exact S2| | |]; cbn.
      * apply nth_error_app1. lia.
      * rewrite log_app, log_other by lia. auto.
      * intros x ->. apply Hoth. intros ->. destruct (Hk x eq_refl) as [Hx _]. apply Hx.
        eapply makes_targets. exact Hi.
    + destruct (Nat.eqb_spec i N) as [->|]; [|discriminate]. injection Hi as <- <-.
      rewrite HC, alone_eq. unfold run_session, top_create. rewrite E1. eexists. split; [reflexivity|].
      exists (PObj p k None st (w_src w2)), v. cbn. repeat split; auto.
      * rewrite nth_error_app2 by lia. now rewrite I1, Nat.sub_diag.
      * rewrite log_app, log_own. destruct (I3 N) as [_ ->]; [lia|]. now rewrite app_nil_r.
      * intros x ->. destruct L4 as [L4 ->]. destruct (nth_error (g_objs g) x) eqn:F; [|tauto]. eapply nth_upd; eauto.
  - intros k' Hk'. rewrite deeds_app. cbn [deeds flat_map app]. rewrite app_nil_r.
    destruct (I5 k') as (u & E1' & E2').
    { intros x ->. destruct (Hk' x eq_refl) as [Hx Hl]. rewrite targets_app, in_app_iff in Hx. tauto. }
    exists u. split; auto. intros x ->. rewrite Hoth; auto. intros ->. destruct (Hk' x eq_refl) as [Hx Hl].
    apply Hx. rewrite targets_app, in_app_iff. right. now left.
  - intros k' H. apply I6. rewrite deeds_app in H. now apply app_eq_nil in H.
Qed.

Lemma step_set done x v g : apart (done ++ [SSet x v]) -> Inv done g ->
  match do_stmt env n ts (SSet x v) g with
  | Done g' => Inv (done ++ [SSet x v]) g' /\ stmt_ok done (SSet x v)
  | Err e => stmt_ok done (SSet x v) -> bad_session (done ++ [SSet x v]) e
  end.
Proof.
  intros [Hn Hw] (I1 & I2 & I3 & I4 & I5 & I6). cbn [do_stmt].
  destruct (Nat.ltb_spec x (length (g_objs g))) as [Hx|Hx].
  2:{ intros [H _]. lia. }
  split; [|split; [lia|exact I]].
  assert (makes (done ++ [SSet x v]) = makes done) as EM by (rewrite makes_app; apply app_nil_r).
  assert (forall i, calls_of i (done ++ [SSet x v]) = calls_of i done) as EC
    by (intros; rewrite calls_app; apply app_nil_r).
  assert (targets (done ++ [SSet x v]) = targets done) as ET by (rewrite targets_app; apply app_nil_r).
  unfold Inv. cbn. rewrite EM, ET. split; auto. split; [now rewrite upd_len|].
  split; [intros; rewrite EC; auto|]. split; [|split].
  - intros i p k Hi. rewrite EC. destruct (I4 i p k Hi) as (s & S1 & S2). exists s. split; auto.
    eapply agrees_frame; [exact S2|auto|auto|]. cbn. intros y ->. apply nth_upd_ne. intros ->.
    apply (Hw y); [rewrite ET; eapply makes_targets; eauto|]. rewrite written_app, in_app_iff. cbn. auto.
  - intros k Hk. destruct (I5 k Hk) as (u & E1 & E2). rewrite deeds_app, by_itself_app, E1. cbn [obind].
    destruct k as [y|]; cbn [deeds flat_map app].
    2:{ exists u. split; [reflexivity|discriminate]. }
    destruct (Nat.eqb_spec x y) as [->|Hne].
    + exists v. split; [reflexivity|]. intros z [= <-].
      destruct (nth_error (g_objs g) y) eqn:F; [eapply nth_upd; eauto|]. apply nth_error_None in F. lia.
    + exists u. split; [reflexivity|]. intros z [= <-]. rewrite nth_upd_ne by auto. auto.
  - intros k H. apply I6. rewrite deeds_app in H. now apply app_eq_nil in H.
Qed.

Definition same (k k' : option nat) : bool :=
  match k, k' with Some a, Some b => a =? b | None, None => true | _, _ => false end.
Lemma same_spec k k' : same k k' = true <-> k = k'.
Proof.
  destruct k as [a|], k' as [b|]; cbn; try (split; congruence). rewrite Nat.eqb_eq. split; congruence.
Qed.
Lemma deeds_parse k p k' inp : deeds k [SParse p k' inp] = if same k' k then [Parse p inp] else [].
Proof. destruct k as [a|], k' as [b|]; cbn; auto. now destruct (b =? a). Qed.
Lemma answers_one k k' a : answers k [(k', a)] = if same k' k then [a] else [].
Proof. destruct k as [x|], k' as [y|]; cbn; auto. now destruct (y =? x). Qed.

Lemma step_parse done p k inp g : apart (done ++ [SParse p k inp]) -> Inv done g ->
  match do_stmt env n ts (SParse p k inp) g with
  | Done g' => Inv (done ++ [SParse p k inp]) g' /\ stmt_ok done (SParse p k inp)
  | Err e => stmt_ok done (SParse p k inp) -> bad_session (done ++ [SParse p k inp]) e
  end.
Proof.
  intros [Hn Hw] (I1 & I2 & I3 & I4 & I5 & I6). cbn [do_stmt].
  assert (stmt_ok done (SParse p k inp) <-> match k with Some x => x <? length (g_objs g) | None => true end = true) as Hok.
  { unfold stmt_ok. cbn [sensible]. destruct k; [rewrite Nat.ltb_lt, I2|]; tauto. }
  destruct (match k with Some x => x <? length (g_objs g) | None => true end) eqn:Ek;
    [|intros H; apply Hok in H; discriminate].
  assert (targets (done ++ [SParse p k inp]) = targets done) as ET by (rewrite targets_app; apply app_nil_r).
  assert (forall x, k = Some x -> ~ In x (targets done) /\ x < length objs) as Hk.
  { intros x ->. apply Nat.ltb_lt in Ek. split; [|lia]. intros H. apply (Hw x); [now rewrite ET|].
    rewrite written_app, in_app_iff. cbn. auto. }
  destruct (I5 k Hk) as (v & V1 & V2).
  pose proof (xsim_at k v [] (g_objs g) (sf_make inp) _ _
    (xsim_run sf_ops (g_objs g) (hole_of k) [] [] env true ltac:(discriminate) n (top_ctx (oty k)) (obj_ctx ts k)
       default_req _ _ p (conj eq_refl (or_intror (dst_at _ k))) (dst_at _ k)) V2) as HX.
  assert (by_itself env n ts objs k (deeds k (done ++ [SParse p k inp])) =
          obind (parse env n (oty k) v p inp) (fun y =>
            Done (nth 0 (w_cells (snd y)) VNil,
                  answers k (g_parsed g) ++ [(fst y, w_src (snd y), w_trace (snd y))]))) as HB.
  { rewrite deeds_app, by_itself_app, V1, deeds_parse, (proj2 (same_spec k k) eq_refl). cbn [obind some_deeds one_deed fst snd].
    destruct (parse env n (oty k) v p inp); reflexivity. }
  unfold parse, top_run, top_create, top_consume in HB.
  destruct ((st <- create sf_ops (top_ctx (oty k)) default_req (top_dst (oty k)) p ;;
             consume sf_ops env n (top_ctx (oty k)) default_req (top_dst (oty k)) p st)
              (World (sf_make inp) [v] [])) as [[[r st] w1]|e] eqn:E1.
  2:{ rewrite HX. intros _. right. exists k. rewrite HB. reflexivity. }
  destruct HX as (w2 & -> & HL).
  apply world_back in HL as (L1 & L2 & v' & L3 & L4).
  2:{ eapply (top_cells (st <- create sf_ops (top_ctx (oty k)) default_req (top_dst (oty k)) p ;;
        consume sf_ops env n (top_ctx (oty k)) default_req (top_dst (oty k)) p st)) in E1; [exact E1|].
      apply keeps_bind; auto using keep_create, keep_consume. }
  rewrite app_nil_r in L2. split; [|tauto].
  assert (length (w_cells w2) = length (g_objs g)) as Hlen.
  { destruct k; [destruct L4 as [_ ->]; apply upd_len|now rewrite L4]. }
  assert (forall x, k <> Some x -> nth_error (w_cells w2) x = nth_error (g_objs g) x) as Hoth.
  { intros x Hx. destruct k as [y|]; [destruct L4 as [_ ->]; apply nth_upd_ne; congruence|now rewrite L4]. }
  assert (makes (done ++ [SParse p k inp]) = makes done) as EM by (rewrite makes_app; apply app_nil_r).
  assert (forall i, calls_of i (done ++ [SParse p k inp]) = calls_of i done) as EC
    by (intros; rewrite calls_app; apply app_nil_r).
  unfold Inv. rewrite EM, ET. cbn [g_parsers g_objs g_log g_parsed].
  split; auto. split; [lia|]. split; [intros; rewrite EC; auto|]. split; [|split].
  - intros i p' k' Hi. rewrite EC. destruct (I4 i p' k' Hi) as (s & S1 & S2). exists s. split; auto.
    eapply agrees_frame; [exact S2|auto|auto|]. cbn. intros x ->. apply Hoth. intros ->.
    apply (proj1 (Hk x eq_refl)). eapply makes_targets. exact Hi.
  - intros k' Hk'. destruct (same k k') eqn:Es.
    + apply same_spec in Es as <-. rewrite HB. cbn [obind fst snd]. rewrite answers_app, answers_one, (proj2 (same_spec k k) eq_refl), L1, L2, L3.
      exists v'. split; [reflexivity|]. intros x ->. destruct L4 as [L4 ->].
      destruct (nth_error (g_objs g) x) eqn:F; [|tauto]. eapply nth_upd; eauto.
    + destruct (I5 k' Hk') as (u & U1 & U2). exists u.
      rewrite deeds_app, deeds_parse, answers_app, answers_one, Es, !app_nil_r. split; auto.
      intros x ->. rewrite Hoth; auto. intros ->. cbn in Es. rewrite Nat.eqb_refl in Es. discriminate.
  - intros k' H. rewrite deeds_app, deeds_parse in H. apply app_eq_nil in H as [H1 H2].
    rewrite answers_app, answers_one, I6 by auto. now destruct (same k k').
Qed.

Lemma step_call done i c g : apart (done ++ [SCall i c]) -> Inv done g ->
  match do_stmt env n ts (SCall i c) g with
  | Done g' => Inv (done ++ [SCall i c]) g' /\ stmt_ok done (SCall i c)
  | Err e => stmt_ok done (SCall i c) -> bad_session (done ++ [SCall i c]) e
  end.
Proof.
  intros [Hn Hw] (I1 & I2 & I3 & I4 & I5 & I6). cbn [do_stmt].
  assert (makes (done ++ [SCall i c]) = makes done) as EM by (rewrite makes_app; apply app_nil_r).
  assert (targets (done ++ [SCall i c]) = targets done) as ET by (rewrite targets_app; apply app_nil_r).
  assert (forall j, j <> i -> calls_of j (done ++ [SCall i c]) = calls_of j done) as EC.
  { intros j Hj. rewrite calls_app. cbn. destruct (Nat.eqb_spec i j); [congruence|]. apply app_nil_r. }
  assert (calls_of i (done ++ [SCall i c]) = calls_of i done ++ [c]) as EI.
  { rewrite calls_app. cbn. now rewrite Nat.eqb_refl. }
  rewrite ET in Hn.
  destruct (nth_error (g_parsers g) i) as [q|] eqn:Eq.
  2:{ intros [H _]. apply nth_error_None in Eq. lia. }
  assert (i < length (makes done)) as Hi by (rewrite <- I1; apply nth_error_Some; congruence).
  assert (stmt_ok done (SCall i c)) as Hok by (split; [exact Hi|exact I]).
  destruct (nth_error (makes done) i) as [[p k]|] eqn:Ei; [|apply nth_error_None in Ei; lia].
  destruct (I4 i p k Ei) as (s & S1 & S2).
  destruct S2 as (q' & v & Q0 & Q1 & Q2 & Q3 & Q4 & Q5 & Q6 & Q7 & Q8).
  assert (q' = q) as -> by congruence. clear Q0.
  assert (forall s', do_call cs_ops cs_add env n (oty k) p c s = Done s' ->
            aloneP p k (calls_of i (done ++ [SCall i c])) = Done s') as HD.
  { intros s' E. rewrite alone_eq in S1 |- *. rewrite EI, run_session_app, S1. cbn. now rewrite E. }
  assert (forall e, do_call cs_ops cs_add env n (oty k) p c s = Err e ->
            bad_session (done ++ [SCall i c]) e) as HE.
  { intros e E. left. exists i, p, k. rewrite EM. split; auto. rewrite alone_eq in S1 |- *.
    rewrite EI, run_session_app, S1. cbn. now rewrite E. }
  (* what the next state has to satisfy *)
  assert (forall g' s', length (g_parsers g') = length (g_parsers g) -> length (g_objs g') = length (g_objs g) ->
    (forall j, j <> i -> nth_error (g_parsers g') j = nth_error (g_parsers g) j) ->
    (forall j, j <> i -> log_of j (g_log g') = log_of j (g_log g)) ->
    (forall x, k <> Some x -> nth_error (g_objs g') x = nth_error (g_objs g) x) ->
    g_parsed g' = g_parsed g ->
    do_call cs_ops cs_add env n (oty k) p c s = Done s' -> agrees g' i p k s' ->
    Inv (done ++ [SCall i c]) g' /\ stmt_ok done (SCall i c)) as HI.
  { intros g' s' G1 G2 G3 G4 G5 G0 G6 G7. split; auto. unfold Inv. rewrite EM, ET, G0.
    split; [congruence|]. split; [congruence|]. split; [|split; [|split]].
    - intros j Hj. rewrite EC, G4 by lia. auto.
    - intros j p' k' Hj. destruct (Nat.eq_dec j i) as [->|Hne].
      + assert ((p', k') = (p, k)) as [= -> ->] by congruence. exists s'. auto.
      + rewrite EC by auto. destruct (I4 j p' k' Hj) as (sj & J1 & J2). exists sj. split; auto.
        eapply agrees_frame; [exact J2|auto|auto|]. intros x ->. apply G5. intros ->.
        apply Hne. eapply targets_inj; eauto.
    - intros k' Hk'. destruct (I5 k' Hk') as (u & U1 & U2). exists u. rewrite deeds_app. cbn [deeds flat_map app].
      rewrite app_nil_r. split; auto. intros x ->. rewrite G5; auto. intros ->. apply (proj1 (Hk' x eq_refl)).
      eapply makes_targets; eauto.
    - intros k' H. apply I6. rewrite deeds_app in H. now apply app_eq_nil in H. }
  unfold do_call in HD, HE, HI. rewrite <- Q3 in HD, HE, HI.
  destruct (q_res q) as [r|] eqn:Er.
  { apply (HI g s); auto. exists q, v. repeat split; auto. congruence. }
  destruct c as [b f|].
  - rewrite Q5. destruct (cs_add b f (w_src (s_world s))) as [src|e]; cbn [obind] in *; [|intros _; now apply HE].
    eapply HI; [cbn; apply upd_len|reflexivity|intros j Hj; cbn; apply nth_upd_ne; congruence|auto|auto|reflexivity|reflexivity|].
    exists (PObj (q_pat q) (q_dst q) None (q_st q) src), v. cbn. repeat split; auto. eapply nth_upd; eauto.
  - unfold top_consume in *.
    assert (World (w_src (s_world s)) [v] (w_trace (s_world s)) = s_world s) as EW by (rewrite <- Q7; now destruct (s_world s)).
    assert (xself (g_objs g) (hole_of k) (w_trace (s_world s)) [] true (consume cs_ops env n) (consume cs_ops env n)) as HS.
    { apply xsim_consume. discriminate. }
    pose proof (xsim_at k v (w_trace (s_world s)) (g_objs g) (w_src (s_world s)) _ _
      (HS (top_ctx (oty k)) (obj_ctx ts k) default_req _ _ p (s_st s)
         (conj eq_refl (or_intror (dst_at _ k))) (dst_at _ k)) Q8) as HX.
    rewrite EW in HX. rewrite Q1, Q2, Q4, Q5.
    destruct (consume cs_ops env n (top_ctx (oty k)) default_req (top_dst (oty k)) p (s_st s) (s_world s)) as [[[r st] w1]|e] eqn:E1.
    2:{ rewrite HX. intros _. now apply HE. }
    destruct HX as (w2 & -> & HL).
    apply world_back in HL as (L1 & L2 & v' & L3 & L4);
      [|rewrite (top_cells _ _ _ _ (keep_consume _ _ _ _ _ _) E1), Q7; reflexivity].
    apply HI with (s' := Session_ (match r with PARTIAL => None | _ => Some r end) st w1);
      [cbn; apply upd_len| |intros j Hj; cbn; apply nth_upd_ne; congruence| | |reflexivity|now destruct r|].
    + cbn. destruct k; [destruct L4 as [_ ->]; apply upd_len|now rewrite L4].
    + intros j Hj. cbn. rewrite log_app, log_other by congruence. reflexivity.
    + intros x Hx. cbn. destruct k as [y|]; [destruct L4 as [_ ->]; apply nth_upd_ne; congruence|now rewrite L4].
    + exists (PObj p k (match r with PARTIAL => None | _ => Some r end) st (w_src w2)), v'. cbn.
      split; [eapply nth_upd; eauto|]. repeat (split; [auto; fail|]).
      split; [rewrite log_app, log_own, Q6; congruence|]. split; auto. intros x ->. destruct L4 as [L4 ->].
      destruct (nth_error (g_objs g) x) eqn:F; [|tauto]. eapply nth_upd; eauto.
Qed.

Lemma step_inv done s g : apart (done ++ [s]) -> Inv done g ->
  match do_stmt env n ts s g with
  | Done g' => Inv (done ++ [s]) g' /\ stmt_ok done s
  | Err e => stmt_ok done s -> bad_session (done ++ [s]) e
  end.
Proof. destruct s; [apply step_make|apply step_call|apply step_set|apply step_parse]. Qed.

Lemma apart_pre a b : apart (a ++ b) -> apart a.
Proof.
  intros [H1 H2]. rewrite targets_app in *. split.
  - revert H1. clear. induction (targets a) as [|x u IH]; [constructor|]. cbn. intros H. inversion H; subst.
    constructor; auto. rewrite in_app_iff in *. tauto.
  - intros k Hk Hk'. apply (H2 k); rewrite ?written_app, in_app_iff; auto.
Qed.

Lemma bad_more a b e : bad_session a e -> bad_session (a ++ b) e.
Proof.
  intros [(i & p & k & H1 & H2)|(k & H)]; [left|right; exists k; now rewrite deeds_app, by_itself_app, H].
  exists i, p, k. split.
  - rewrite makes_app, nth_error_app1; auto. apply nth_error_Some. congruence.
  - rewrite alone_eq in *. rewrite calls_app, run_session_app, H2. reflexivity.
Qed.

Lemma sensible_cons N s b : sensible (length objs) N (s :: b) <->
  sensible (length objs) N [s] /\ sensible (length objs) (N + length (makes [s])) b.
Proof. destruct s as [p [k|]| | |p [k|] inp]; cbn; rewrite ?Nat.add_0_r, ?Nat.add_1_r; tauto. Qed.

Lemma stmts_inv rest : forall done g, apart (done ++ rest) -> Inv done g ->
  match do_stmts env n ts rest g with
  | Done g' => Inv (done ++ rest) g' /\ sensible (length objs) (length (makes done)) rest
  | Err e => sensible (length objs) (length (makes done)) rest -> bad_session (done ++ rest) e
  end.
Proof.
  induction rest as [|s rest IH]; intros done g Ha Hi; cbn [do_stmts].
  - rewrite app_nil_r. split; auto. exact I.
  - replace (done ++ s :: rest) with ((done ++ [s]) ++ rest) in * by (now rewrite <- app_assoc).
    pose proof (step_inv done s g (apart_pre _ _ Ha) Hi) as HS.
    assert (length (makes (done ++ [s])) = length (makes done) + length (makes [s])) as EL
      by (now rewrite makes_app, app_length).
    destruct (do_stmt env n ts s g) as [g'|e]; cbn [obind].
    + destruct HS as [HS HO]. specialize (IH _ _ Ha HS). rewrite EL in IH.
      destruct (do_stmts env n ts rest g') as [g''|e].
      * destruct IH as [IH1 IH2]. split; auto. now apply sensible_cons.
      * intros Hs. apply sensible_cons in Hs as [_ Hs]; auto.
    + intros Hs. apply bad_more, HS. apply sensible_cons in Hs as [Hs _]; auto.
Qed.

(** ** The theorems *)

Theorem parsers_apart l g : apart l -> run_prog env n ts objs l = Done g ->
  (forall i p k, nth_error (makes l) i = Some (p, k) ->
     exists s, aloneP p k (calls_of i l) = Done s /\ sees g i k s) /\
  (forall k, (forall x, k = Some x -> x < length objs /\ ~ In x (targets l)) ->
     exists v, by_itself env n ts objs k (deeds k l) = Done (v, answers k (g_parsed g)) /\
     forall x, k = Some x -> nth_error (g_objs g) x = Some v) /\
  length (g_parsers g) = length (makes l) /\ length (g_objs g) = length objs.
Proof.
  intros Ha E. pose proof (stmts_inv l [] _ Ha Inv0) as H. unfold run_prog in E. rewrite E in H.
  destruct H as [(H1 & H2 & H3 & H4 & H5 & _) _]. split; [|split; [|auto]].
  - intros i p k Hi. destruct (H4 i p k Hi) as (s & S1 & S2). exists s. split; auto.
    destruct S2 as (q & v & Q0 & Q1 & Q2 & Q3 & Q4 & Q5 & Q6 & Q7 & Q8).
    split; [eauto|]. split; auto. intros x Hx. eauto.
  - intros k Hk. apply H5. intros x Hx. destruct (Hk x Hx); auto.
Qed.

Theorem program_runs l : apart l -> sensible (length objs) 0 l ->
  (forall i p k, nth_error (makes l) i = Some (p, k) -> exists s, aloneP p k (calls_of i l) = Done s) ->
  (forall k, exists r, by_itself env n ts objs k (deeds k l) = Done r) ->
  exists g, run_prog env n ts objs l = Done g.
Proof.
  intros Ha Hs H H'. pose proof (stmts_inv l [] _ Ha Inv0) as HS. unfold run_prog.
  destruct (do_stmts env n ts l (Prog objs [] [] [])) as [g|e]; [eauto|].
  cbn [app] in HS. destruct (HS Hs) as [(i & p & k & H1 & H2)|(k & H1)].
  - destruct (H i p k H1) as [s E]. congruence.
  - destruct (H' k) as [r E]. congruence.
Qed.

Theorem order_irrelevant l l' g : apart l -> apart l' -> sensible (length objs) 0 l' ->
  makes l' = makes l -> (forall i, calls_of i l' = calls_of i l) -> (forall k, deeds k l' = deeds k l) ->
  run_prog env n ts objs l = Done g ->
  exists g', run_prog env n ts objs l' = Done g' /\ g_objs g' = g_objs g /\
    map q_res (g_parsers g') = map q_res (g_parsers g) /\
    map q_src (g_parsers g') = map q_src (g_parsers g) /\
    (forall i, log_of i (g_log g') = log_of i (g_log g)) /\
    forall k, answers k (g_parsed g') = answers k (g_parsed g).
Proof.
  intros Ha Ha' Hs EM EC ES E. destruct (parsers_apart l g Ha E) as (P1 & P2 & P3 & P4).
  pose proof (stmts_inv l [] _ Ha Inv0) as IV. unfold run_prog in E. rewrite E in IV. cbn [app] in IV.
  destruct IV as [(_ & _ & J3 & _ & _ & J6) _].
  assert (forall x, In x (targets l) -> deeds (Some x) l = []) as ED.
  { intros x Hx. apply deeds_none. now apply Ha. }
  assert (forall x, length objs <= x -> deeds (Some x) l = []) as EB.
  { intros x Hx. rewrite <- ES. eapply deeds_sensible; eauto. }
  assert (exists g', run_prog env n ts objs l' = Done g') as (g' & E').
  { apply program_runs; auto.
    - intros i p k Hi. rewrite EM in Hi. rewrite EC. destruct (P1 i p k Hi) as (s & Hs' & _). eauto.
    - intros k. rewrite ES. destruct k as [x|].
      + destruct (in_dec Nat.eq_dec x (targets l)) as [Ht|Ht]; [rewrite ED by auto; eexists; reflexivity|].
        destruct (Nat.lt_ge_cases x (length objs)) as [Hx|Hx]; [|rewrite EB by auto; eexists; reflexivity].
        destruct (P2 (Some x)) as (v & -> & _); [intros y [= <-]; auto|]. eauto.
      + destruct (P2 None) as (v & -> & _); [discriminate|]. eauto. }
  exists g'. split; auto. destruct (parsers_apart l' g' Ha' E') as (P1' & P2' & P3' & P4'). rewrite EM in P3'.
  pose proof (stmts_inv l' [] _ Ha' Inv0) as IV. unfold run_prog in E'. rewrite E' in IV. cbn [app] in IV.
  destruct IV as [(_ & _ & J3' & _ & _ & J6') _].
  assert (forall x, In x (targets l') <-> In x (targets l)) as ET.
  { intros x. split; intros H; apply targets_makes in H as (i & p & H); [rewrite EM in H|rewrite <- EM in H];
      eapply makes_targets; eauto. }
  assert (forall i p k, nth_error (makes l) i = Some (p, k) -> exists s, sees g i k s /\ sees g' i k s) as HB.
  { intros i p k Hi. destruct (P1 i p k Hi) as (s & S1 & S2). exists s. split; auto.
    rewrite <- EM in Hi. destruct (P1' i p k Hi) as (s' & S1' & S2'). rewrite EC, S1 in S1'.
    injection S1' as <-. auto. }
  assert (forall i q, nth_error (g_parsers g) i = Some q -> exists p k, nth_error (makes l) i = Some (p, k)) as HM.
  { intros i q H. assert (i < length (makes l)) as Hl by (rewrite <- P3; apply nth_error_Some; congruence).
    destruct (nth_error (makes l) i) as [[p k]|] eqn:F; [eauto|]. apply nth_error_None in F. lia. }
  assert (forall i q, nth_error (g_parsers g) i = Some q ->
            exists q', nth_error (g_parsers g') i = Some q' /\ q_res q' = q_res q /\ q_src q' = q_src q) as HQ.
  { intros i q H. destruct (HM i q H) as (p & k & Hi). destruct (HB i p k Hi) as (s & (S1 & _) & (S2 & _)).
    destruct S1 as (q1 & A1 & A2 & A3), S2 as (q2 & B1 & B2 & B3). exists q2. rewrite H in A1. injection A1 as <-.
    split; auto. split; congruence. }
  assert (forall {A} (f : pobj -> A), (forall i q, nth_error (g_parsers g) i = Some q ->
            exists q', nth_error (g_parsers g') i = Some q' /\ f q' = f q) ->
          map f (g_parsers g') = map f (g_parsers g)) as HF.
  { intros A f Hf. apply nth_ext. intros i. rewrite !nth_error_map.
    destruct (nth_error (g_parsers g) i) as [q|] eqn:F.
    - destruct (Hf i q F) as (q' & -> & H). cbn. now f_equal.
    - apply nth_error_None in F. destruct (nth_error (g_parsers g') i) eqn:F'; auto.
      assert (i < length (g_parsers g')) by (apply nth_error_Some; congruence). lia. }
  split; [|split; [|split; [|split]]].
  - apply nth_ext. intros x. destruct (Nat.lt_ge_cases x (length objs)) as [Hx|Hx].
    + destruct (in_dec Nat.eq_dec x (targets l)) as [Ht|Ht].
      * destruct (targets_makes l x Ht) as (i & p & Hi). destruct (HB i p _ Hi) as (s & (_ & _ & S1) & (_ & _ & S2)).
        destruct (S1 x eq_refl) as (v & A1 & A2), (S2 x eq_refl) as (v' & B1 & B2). congruence.
      * destruct (P2 (Some x)) as (u & U1 & U2); [intros y [= <-]; auto|].
        destruct (P2' (Some x)) as (u' & U1' & U2'); [intros y [= <-]; rewrite ET; auto|].
        rewrite ES, U1 in U1'. injection U1' as -> _. rewrite U2, U2' by auto. reflexivity.
    + rewrite (proj2 (nth_error_None _ _)) by lia. symmetry. apply nth_error_None. lia.
  - apply HF. intros i q H. destruct (HQ i q H) as (q' & H1 & H2 & _). eauto.
  - apply HF. intros i q H. destruct (HQ i q H) as (q' & H1 & _ & H2). eauto.
  - intros i. destruct (Nat.lt_ge_cases i (length (makes l))) as [Hi|Hi].
    + destruct (nth_error (makes l) i) as [[p k]|] eqn:F; [|apply nth_error_None in F; lia].
      destruct (HB i p k F) as (s & (_ & S1 & _) & (_ & S2 & _)). congruence.
    + rewrite (proj2 (J3 i Hi)), (proj2 (J3' i ltac:(rewrite EM; lia))). reflexivity.
  - intros k. destruct k as [x|].
    + destruct (in_dec Nat.eq_dec x (targets l)) as [Ht|Ht]; [rewrite J6, J6' by (rewrite ?ES; auto); reflexivity|].
      destruct (Nat.lt_ge_cases x (length objs)) as [Hx|Hx]; [|rewrite J6, J6' by (rewrite ?ES; auto); reflexivity].
      destruct (P2 (Some x)) as (u & U1 & U2); [intros y [= <-]; auto|].
      destruct (P2' (Some x)) as (u' & U1' & U2'); [intros y [= <-]; rewrite ET; auto|].
      rewrite ES, U1 in U1'. congruence.
    + destruct (P2 None) as (u & U1 & U2); [discriminate|].
      destruct (P2' None) as (u' & U1' & U2'); [discriminate|].
      rewrite ES, U1 in U1'. congruence.
Qed.
End Thms.
