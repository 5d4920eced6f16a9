(** Resuming re-reads nothing (C70). *)
From Coq Require Import List ZArith Bool Arith Lia.
From Verif Require Import Base CharSet Source Dst Pattern Parser Session SourceProofs SpecSource.
From Verif Require Import SpecSession Rel Safety Keep Limit Chunk SessionProofs SessionThms SpecSteps SpecTerm StepsThms SpecResume.
From Verif Require Resume.
Import ListNotations.

(** ** Two sources *)
Section Two.
Context {S1 S2 : Type} (o1 : source_ops S1) (o2 : source_ops S2) (R : S1 -> S2 -> Prop).
Context (add1 : list Z -> bool -> S1 -> outcome S1) (add2 : list Z -> bool -> S2 -> outcome S2).
Hypothesis Hops : ops_rel o1 o2 R.
Hypothesis Hres : so_resumable o1 = so_resumable o2.
Hypothesis Hadd : forall b f x y, R x y -> rel_out R (add1 b f x) (add2 b f y).
Context (env : nat -> option pat) (t : ty) (v : val) (p : pat).

Definition R2 (s : session S1) (s' : session S2) : Prop :=
  s_res s = s_res s' /\ s_st s = s_st s' /\ Rw R (s_world s) (s_world s').

Lemma two_call n k s s' : R2 s s' -> rel_out R2 (do_call o1 add1 env n t p k s) (do_call o2 add2 env n t p k s').
Proof.
  intros (H1 & H2 & H3). unfold do_call. rewrite H1. destruct (s_res s') eqn:Er.
  - repeat split; cbn; auto; try apply H3. congruence.
  - destruct k as [b f|].
    + destruct H3 as (Hr & Hc & Ht). pose proof (Hadd b f _ _ Hr) as HA.
      destruct (add1 b f _), (add2 b f _); cbn; try contradiction; auto.
      repeat split; cbn; auto.
    + unfold top_consume. rewrite H2.
      pose proof (lsim_consume_same o1 o2 R never Hops (or_introl Hres) env n
                    (top_ctx t) default_req (top_dst t) p (s_st s') _ _ H3) as HL.
      destruct (consume o1 env n _ _ _ _ _ _) as [[[r st] w]|e].
      * destruct HL as (w' & -> & Hw). destruct r; repeat split; cbn; auto; apply Hw.
      * destruct HL as [[]| ->]. reflexivity.
Qed.

Lemma two_calls n l : forall s s', R2 s s' -> rel_out R2 (do_calls o1 add1 env n t p l s) (do_calls o2 add2 env n t p l s').
Proof.
  induction l as [|k l IH]; intros s s' H; cbn [do_calls].
  - exact H.
  - pose proof (two_call n k s s' H) as HC. destruct (do_call o1 _ _ _ _ _ _ _), (do_call o2 _ _ _ _ _ _ _);
      cbn in HC |- *; try contradiction; auto.
Qed.

Lemma two_sessions n l x y : R x y ->
  rel_out R2
    (match top_create o1 t p (World x [v] []) with Err e => Err e | Done (st, w) => do_calls o1 add1 env n t p l (Session_ None st w) end)
    (match top_create o2 t p (World y [v] []) with Err e => Err e | Done (st, w) => do_calls o2 add2 env n t p l (Session_ None st w) end).
Proof.
  intros HR. unfold top_create.
  pose proof (lsim_create o1 o2 R never Hops (top_ctx t) default_req (top_dst t) p (World x [v] []) (World y [v] [])) as HL.
  destruct (create o1 _ _ _ _ _) as [[st w]|e].
  - destruct HL as (w' & -> & Hw); [repeat split; auto|]. apply two_calls. repeat split; apply Hw.
  - destruct HL as [[]| ->]; [repeat split; auto|]. reflexivity.
Qed.
End Two.

(** ** Counting over the cursor *)
Definition c_ops : source_ops (cursor * nat) := counted (a_ops true).
Definition c_add := counted_add a_add.
Definition cext more f (w : world (cursor * nat)) : world (cursor * nat) :=
  Resume.ext (fun s => (ext_src more f (fst s), snd s)) w.

Lemma counted_extends more f : Resume.extends c_ops (fun s => (ext_src more f (fst s), snd s)) (fun s => a_fin (fst s) = false).
Proof.
  destruct (cursor_extends more f). constructor; cbn [c_ops counted so_resumable so_final so_empty so_next so_advance so_prepare so_commit so_cancel fst snd]; auto.
  - intros [s k] H E. cbn [fst snd] in *. specialize (ex_advance s H E). destruct (so_advance _ s); cbn [obind].
    + destruct ex_advance as [A B]. rewrite B. split; auto.
    + now rewrite ex_advance.
  - intros [s k] H. cbn [fst snd] in *. specialize (ex_commit s H). destruct (so_commit _ s); cbn [obind].
    + destruct ex_commit as [A B]. rewrite B. split; auto.
    + now rewrite ex_commit.
  - intros [s k] H. cbn [fst snd] in *. specialize (ex_cancel s H). destruct (so_cancel _ s); cbn [obind].
    + destruct ex_cancel as [A B]. rewrite B. split; auto.
    + now rewrite ex_cancel.
Qed.

Section Counted.
Context (env : nat -> option pat) (t : ty) (v : val) (p : pat).

Definition c_run (n : nat) (inp : list Z) (fin : bool) : outcome ((result * pst) * world (cursor * nat)) :=
  top_run c_ops env n t p (World (Cursor inp fin 0 [], 0) [v] []).

Definition unc (s : session (cursor * nat)) : session cursor :=
  Session_ (s_res s) (s_st s) (World (fst (w_src (s_world s))) (w_cells (s_world s)) (w_trace (s_world s))).

Lemma add_uncounted {S} (add : list Z -> bool -> S -> outcome S) b f x y :
  x = fst y -> rel_out (fun x y => x = fst y) (add b f x) (counted_add add b f y).
Proof. intros ->. unfold counted_add. destruct (add b f (fst y)); cbn; auto. Qed.

Lemma unc_calls n l s :
  match do_calls c_ops c_add env n t p l s with
  | Done s' => a_calls env t p n l (unc s) = Done (unc s')
  | Err e => a_calls env t p n l (unc s) = Err e
  end.
Proof.
  pose proof (two_calls (a_ops true) c_ops (fun x y => x = fst y) a_add c_add (ops_rel_uncounted _) eq_refl (add_uncounted a_add) env t p n l (unc s) s) as H.
  unfold a_calls. destruct (do_calls c_ops _ _ _ _ _ _ _) as [s'|], (do_calls (a_ops true) _ _ _ _ _ _ _) as [s2|]; cbn in H;
    try (destruct H; repeat split; fail).
  - destruct H as (A & B & C & D & E); [repeat split|]. f_equal. unfold unc. destruct s2 as [? ? [? ? ?]]. cbn in *. congruence.
Qed.

Lemma unc_call n k s :
  match do_call c_ops c_add env n t p k s with
  | Done s' => do_call (a_ops true) a_add env n t p k (unc s) = Done (unc s')
  | Err e => do_call (a_ops true) a_add env n t p k (unc s) = Err e
  end.
Proof.
  pose proof (unc_calls n [k] s) as H. rewrite a_calls_one in H. cbn in H. destruct (do_call c_ops _ _ _ _ _ _ _); exact H.
Qed.

Definition CC (s : session (cursor * nat)) : Prop :=
  let w := s_world s in
  forall more f, may (fst (w_src w)) more f ->
  match s_res s with
  | None => EQ (fun m => c_run m (a_inp (fst (w_src w)) ++ more) f)
               (fun m => top_consume c_ops env m t p (s_st s) (cext more f w))
  | Some r => lim (fun m => c_run m (a_inp (fst (w_src w)) ++ more) f) (Done ((r, s_st s), cext more f w))
  end.

Lemma cext_self w : a_fin (fst (w_src w)) = true -> cext [] true w = w.
Proof.
  intros H. destruct w as [[[i f q k] c] ? ?]. cbn in *. unfold cext, Resume.ext, ext_src. cbn. now rewrite app_nil_r, H.
Qed.

Lemma CC_init st w : top_create c_ops t p (World (cursor0, 0) [v] []) = Done (st, w) -> SI env p true (unc (Session_ None st w)) ->
  a_inp (fst (w_src w)) = [] -> CC (Session_ None st w).
Proof.
  intros E _ Hi more f _. cbn. rewrite Hi. cbn [app].
  pose proof (Resume.neu_create c_ops _ _ (counted_extends more f) (top_ctx t) default_req (top_dst t) p (World (cursor0, 0) [v] []) eq_refl) as HN.
  unfold Resume.neu_at in HN. unfold top_create in E. rewrite E in HN. destruct HN as [_ HN].
  apply EQ_pt. intros k. unfold c_run, top_run, bind, top_create.
  change (World (Cursor more f 0 [], 0) [v] []) with (Resume.ext (fun s => (ext_src more f (fst s), snd s)) (World (cursor0, 0) [v] [])).
  rewrite HN. reflexivity.
Qed.

Lemma CC_consume n s s' : CC s -> SI env p true (unc s) -> s_res s = None ->
  do_call c_ops c_add env n t p Consume s = Done s' -> CC s'.
Proof.
  intros HC HS Hr E0. pose proof (SI_consume env t p true (fun _ q _ => fits_leak q) (fits_leak p) n (unc s) HS Hr) as HI.
  pose proof (unc_call n Consume s) as HU. rewrite E0 in HU. rewrite HU in HI. clear HU.
  unfold CC in HC. rewrite Hr in HC.
  unfold do_call in E0. rewrite Hr in *. unfold top_consume in *. cbn in HI.
  destruct (a_fin (fst (w_src (s_world s)))) eqn:Ef.
  - specialize (HC [] true (fun _ => conj eq_refl eq_refl)). rewrite (cext_self _ Ef) in HC.
    destruct (consume _ _ _ _ _ _ _ _ _) as [[[r st'] w']|e] eqn:E; [|discriminate].
    destruct r; inversion E0; subst; clear E0; cbn in HI; destruct HI as (_ & Hi & Hf & HI);
      try (destruct (HI eq_refl); discriminate);
      intros more f HM; cbn in HM |- *; destruct (HM Hf) as [-> ->]; rewrite (cext_self _ Hf), Hi; apply HC;
      (split; [discriminate|eauto]).
  - pose proof (fun more f => Resume.chk_all c_ops _ _ (counted_extends more f) env n (top_ctx t) default_req (top_dst t) p (s_st s) (s_world s) Ef) as HK.
    unfold Resume.CHK in HK.
    destruct (consume _ _ _ _ _ _ _ _ (s_world s)) as [[[r st'] w']|e] eqn:E; [|discriminate].
    destruct r; inversion E0; subst; clear E0; cbn in HI; destruct HI as (_ & Hi & Hf & _); intros more f HM; cbn in HM |- *; rewrite Hi;
      (assert (may (fst (w_src (s_world s))) more f) as HM' by (unfold may; rewrite Ef; discriminate));
      destruct (HK more f) as [HK1 HK2].
    + apply (HC more f HM'). split; [discriminate|eauto].
    + apply (HC more f HM'). split; [discriminate|eauto].
    + eapply EQ_trans; [apply (HC more f HM')|]. exact HK2.
Qed.

Lemma CC_feed n b f0 s s' : CC s -> SI env p true (unc s) -> s_res s = None ->
  do_call c_ops c_add env n t p (Feed b f0) s = Done s' -> CC s'.
Proof.
  intros HC HS Hr E. unfold CC in HC. rewrite Hr in HC.
  unfold do_call in E. rewrite Hr in E. destruct s as [rs st [[a k] cs tr]]. cbn in *. unfold c_add, counted_add, a_add in E. cbn in E.
  destruct (a_fin a) eqn:Ef; [discriminate|]. cbn in E. inversion E; subst; clear E.
  intros more f HM. cbn in HM |- *. rewrite <- app_assoc.
  specialize (HC (b ++ more) f). unfold cext, Resume.ext, ext_src in *. cbn in *. rewrite <- app_assoc.
  apply HC. intros HH. congruence.
Qed.

Lemma CC_calls n l : forall s s', CC s -> SI env p true (unc s) -> do_calls c_ops c_add env n t p l s = Done s' -> CC s'.
Proof.
  induction l as [|k l IH]; intros s s' HC HS E; [inversion E; now subst|].
  cbn [do_calls] in E. destruct (do_call _ _ _ _ _ _ _ _) as [s1|] eqn:E1; [|discriminate]. cbn [obind] in E.
  pose proof (unc_call n k s) as HU. rewrite E1 in HU.
  apply (IH s1); auto.
  - destruct (s_res s) as [r|] eqn:Er; [unfold do_call in E1; rewrite Er in E1; inversion E1; now subst|].
    destruct k as [b f|]; [eapply CC_feed|eapply CC_consume]; eauto.
  - apply (fun H => proj1 (SI_calls env t p true (fun _ q _ => fits_leak q) (fits_leak p) n [k] (unc s) (unc s1) HS H)).
    rewrite a_calls_one. exact HU.
Qed.

Lemma counted_complete n l s :
  complete l ->
  (match top_create c_ops t p (World (cursor0, 0) [v] []) with
   | Err e => Err e | Done (st, w) => do_calls c_ops c_add env n t p l (Session_ None st w) end) = Done s ->
  exists r w, s_res s = Some r /\ lim (fun m => c_run m (fed l) true) (Done ((r, s_st s), w)) /\ snd (w_src w) = steps s.
Proof.
  intros Hc E. destruct (top_create c_ops t p _) as [[st w]|] eqn:E0; [|discriminate].
  assert (U0 : a_session0 t v p = Done (unc (Session_ None st w))).
  { pose proof (lsim_create (a_ops true) c_ops (fun x y => x = fst y) never (ops_rel_uncounted _) (top_ctx t) default_req (top_dst t) p
      (World cursor0 [v] []) (World (cursor0, 0) [v] [])) as HL. unfold a_session0, top_create in *. rewrite E0 in HL.
    destruct (create (a_ops true) _ _ _ _ _) as [[st' w']|e].
    - destruct HL as (w2 & HL & A & B & C); [repeat split|]. inversion HL; subst. unfold unc. destruct w'; cbn in *. congruence.
    - destruct HL as [[]|HL]; [repeat split|discriminate]. }
  destruct (SI_init env t v p true _ U0) as (HS & Hn & Hi & Hf).
  pose proof (unc_calls n l (Session_ None st w)) as HU. rewrite E in HU.
  assert (EA : a_session env t v p n l = Done (unc s)) by (unfold a_session; rewrite U0; exact HU).
  destruct (complete_answers _ _ _ _ _ _ _ Hc EA) as [r Hr]. cbn in Hr.
  assert (HCC : CC s) by (eapply CC_calls; [|exact HS|exact E]; apply CC_init; auto).
  unfold CC in HCC. rewrite Hr in HCC.
  destruct Hc as (l' & -> & Hl & He).
  destruct (calls_rest env t p n (l' ++ [Consume]) _ (unc s) HS) as (rest & H1 & H2); auto.
  - rewrite Hf. cbn. clear -Hl. induction l' as [|[b []|] l' IH]; cbn in *; auto.
    rewrite forallb_app, Hl. reflexivity.
  - rewrite Hf. unfold ended. rewrite existsb_app. fold (ended l'). now rewrite He.
  - rewrite Hi in H1. cbn [app] in H1. rewrite H1. exists r. eexists. split; [exact Hr|]. split; [apply HCC; exact H2|]. reflexivity.
Qed.

(** ** Back to the buffers and the range *)
Lemma session_counted_c n l :
  rel_out (R2 (Rc R_cs)) (session_counted env n t v p l)
    (match top_create c_ops t p (World (cursor0, 0) [v] []) with
     | Err e => Err e | Done (st, w) => do_calls c_ops c_add env n t p l (Session_ None st w) end).
Proof.
  apply (two_sessions (counted cs_ops) c_ops (Rc R_cs)).
  - apply ops_rel_counted, ops_rel_cs.
  - reflexivity.
  - intros b f [x k] [y k'] [H E]. cbn in *. subst. unfold counted_add, c_add. cbn. pose proof (R_cs_add b f _ _ H) as HA.
    unfold counted_add. cbn. destruct (cs_add b f x), (a_add b f y); cbn in *; auto. split; auto.
  - split; auto. apply R_cs_init.
Qed.

Lemma parse_counted_c n inp r st w :
  c_run n inp true = Done ((r, st), w) -> parse_counted env n t v p inp = Done (r, snd (w_src w)).
Proof.
  intros E. pose proof (parse_counted_parse env n t v p inp) as HP.
  assert (HR : Rw (Rc R_sf) (World (sf_make inp, 0) [v] []) (World (Cursor inp true 0 [], 0) [v] [])) by (repeat split; apply R_sf_init).
  pose proof (lsim_top_run env t p (counted sf_ops) c_ops (Rc R_sf) (fun e => e = EShape) n (ops_rel_counted _ _ _ (ops_rel_sf true))
               (or_intror (conj eq_refl eq_refl)) _ _ HR) as HT.
  unfold c_run in E. rewrite E in HT. unfold parse_counted in *.
  destruct (top_run (counted sf_ops) _ _ _ _ _) as [[[r' st'] w']|e].
  - destruct HT as (w2 & HT & (_ & Hk) & _). inversion HT; subst. now rewrite Hk.
  - destruct HT as [->|HT]; [|discriminate]. exfalso.
    pose proof (parse_sim env t v p n inp) as HS. destruct (parse env n t v p inp) as [[r' w']|e]; [destruct HP; discriminate|].
    inversion HP; subst. 
    pose proof (lsim_top_run env t p (a_ops true) c_ops (fun x y => x = fst y) never n (ops_rel_uncounted _) (or_introl eq_refl)
       (World (Cursor inp true 0 []) [v] []) (World (Cursor inp true 0 [], 0) [v] [])) as HU.
    unfold a_run in HS. destruct (top_run (a_ops true) _ _ _ _ _) as [?|e'].
    + destruct HS.
    + cbn in HS. subst. destruct HU as [[]|HU]; [repeat split|]. congruence.
Qed.

Lemma resume_steps n l s : complete l -> session_counted env n t v p l = Done s ->
  exists r m, s_res s = Some r /\ parse_counted env m t v p (fed l) = Done (r, steps s).
Proof.
  intros Hc E. pose proof (session_counted_c n l) as H. rewrite E in H.
  destruct (match top_create c_ops t p _ with Err e => _ | Done _ => _ end) as [s'|e] eqn:E'; cbn in H; [|contradiction].
  destruct (counted_complete n l s' Hc E') as (r & w & Hr & [_ [m Hm]] & Hk).
  destruct H as (A & B & (_ & C) & _). exists r, m. split; [congruence|].
  rewrite (parse_counted_c _ _ _ _ _ Hm), Hk. unfold steps. now rewrite C.
Qed.

(** Counting only counts. *)
Lemma session_uncounted n l :
  match session_counted env n t v p l with
  | Done s => exists s', run_session env n t v p l = Done s' /\ s_res s' = s_res s /\ s_st s' = s_st s /\
                         w_src (s_world s') = fst (w_src (s_world s)) /\ w_cells (s_world s') = w_cells (s_world s) /\ w_trace (s_world s') = w_trace (s_world s)
  | Err e => run_session env n t v p l = Err e
  end.
Proof.
  pose proof (two_sessions cs_ops (counted cs_ops) (fun x y => x = fst y) cs_add (counted_add cs_add) (ops_rel_uncounted _) eq_refl
    (add_uncounted cs_add) env t v p n l cs_make (cs_make, 0) eq_refl) as H.
  fold (session_counted env n t v p l) in H. fold (run_session env n t v p l) in H.
  destruct (run_session env n t v p l) as [s'|e], (session_counted env n t v p l) as [s|e']; cbn in H; try contradiction.
  - exists s'. destruct H as (A & B & C & D & E). auto 10.
  - congruence.
Qed.

(** The count only grows. *)
Lemma ops_rel_grow {S} (o : source_ops S) k : ops_rel (counted o) (counted o) (fun x y => x = y /\ k <= snd x).
Proof.
  constructor; intros [a i] b [<- H]; cbn in *; auto.
  - destruct (so_advance o a); cbn; auto.
  - destruct (so_commit o a); cbn; auto.
  - destruct (so_cancel o a); cbn; auto.
Qed.

Lemma steps_grow n l1 l2 s1 s2 : session_counted env n t v p l1 = Done s1 -> session_counted env n t v p (l1 ++ l2) = Done s2 -> steps s1 <= steps s2.
Proof.
  unfold session_counted. destruct (top_create _ _ _ _) as [[st w]|]; [|discriminate]. rewrite do_calls_app. intros ->. cbn [obind]. intros E.
  pose proof (two_calls (counted cs_ops) (counted cs_ops) _ (counted_add cs_add) (counted_add cs_add) (ops_rel_grow cs_ops (steps s1)) eq_refl) as H.
  assert (HA : forall b f (x y : cseq * nat), x = y /\ steps s1 <= snd x -> rel_out (fun x y => x = y /\ steps s1 <= snd x) (counted_add cs_add b f x) (counted_add cs_add b f y)).
  { intros b f [x i] y [<- Hy]. unfold counted_add. destruct (cs_add b f _); cbn in *; auto. }
  specialize (H HA env t p n l2 s1 s1). rewrite E in H. destruct H as (_ & _ & (_ & Hk) & _); [repeat split; auto|exact Hk].
Qed.
(** ** Fuel *)
Lemma parse_counted_mono inp : mono (fun m => parse_counted env m t v p inp).
Proof.
  unfold parse_counted. apply (mono_map (fun m => top_run (counted sf_ops) env m t p (World (sf_make inp, 0) [v] []))
    (fun o => match o with Done ((r, _), w) => Done (r, snd (w_src w)) | Err e => Err e end)); auto.
  apply (Mono_mono (fun m => top_run (counted sf_ops) env m t p)).
  unfold top_run. apply Mono_bind; [apply Mono_const|]. intros st. apply Mono_consume.
Qed.

Lemma call_mono {S} (o : source_ops S) add k s : mono (fun n => do_call o add env n t p k s).
Proof.
  intros n m H. unfold do_call. destruct (s_res s); auto. destruct k as [b f|]; auto.
  destruct (Mono_mono _ (s_world s) (Mono_consume o env (top_ctx t) default_req (top_dst t) p (s_st s)) n m H) as [E|E]; unfold top_consume; cbn in E; rewrite E; auto.
Qed.

Lemma calls_mono {S} (o : source_ops S) add l : forall s, mono (fun n => do_calls o add env n t p l s).
Proof.
  induction l as [|k l IH]; intros s n m H; cbn [do_calls]; auto.
  destruct (call_mono o add k s n m H) as [E|E]; cbn in E; rewrite E; auto.
  destruct (do_call _ _ _ m _ _ _ _) as [a|]; cbn; auto. apply (IH a n m H).
Qed.

Lemma session_bill_mono l : mono (fun n => session_bill (session_counted env n t v p l)).
Proof.
  apply mono_map; auto. unfold session_counted. destruct (top_create _ _ _ _) as [[st w]|]; [apply calls_mono|intros n m H; auto].
Qed.

Lemma rereads_nothing l : complete l -> forall r k,
  reaches (fun n => session_bill (session_counted env n t v p l)) (Done (Some r, k)) <->
  reaches (fun m => parse_counted env m t v p (fed l)) (Done (r, k)).
Proof.
  intros Hc r k. rewrite !reaches_lim by auto using session_bill_mono, parse_counted_mono.
  assert (F : forall n r k, session_bill (session_counted env n t v p l) = Done (Some r, k) -> lim (fun m => parse_counted env m t v p (fed l)) (Done (r, k))).
  { intros n r0 k0 E. destruct (session_counted env n t v p l) as [s|] eqn:Es; [|discriminate]. cbn in E.
    destruct (resume_steps n l s Hc Es) as (r1 & m & Hr & Hm). inversion E; subst. split; [discriminate|]. exists m. congruence. }
  split; intros [Ho [n Hn]]; [eauto|].
  pose proof (parse_counted_parse env n t v p (fed l)) as HP. destruct (parse env n t v p (fed l)) as [[r' w]|e] eqn:Ep; [|congruence].
  destruct HP as [k' HP]. rewrite Hn in HP. inversion HP; subst r' k'. clear HP.
  destruct (proj2 (cutting env t v p l Hc (Done (r, w_cells w, w_trace w)))) as [_ [j Hj]].
  { split; [discriminate|]. exists n. intros m H. pose proof (parse_seen_a env t v p) as PA.
    assert (M3 : mono (fun m => parse_seen (parse env m t v p (fed l)))).
    { eapply mono_ext; [intros i; apply parse_seen_a|]. apply mono_map; auto. apply mono_a_run. }
    apply (mono_lim _ n _ M3); auto; [|discriminate]. cbn. now rewrite Ep. }
  specialize (Hj j (le_n j)). pose proof (session_uncounted j l) as HU.
  destruct (session_counted env j t v p l) as [s|e] eqn:Es; [|rewrite HU in Hj; discriminate].
  destruct HU as (s' & HU & Hr & _). rewrite HU in Hj. cbn in Hj. rewrite Hr in Hj.
  destruct (s_res s) as [r2|] eqn:Er; [|discriminate]. cbn in Hj. inversion Hj; subst r2.
  assert (L : session_bill (session_counted env j t v p l) = Done (Some r, steps s)) by (rewrite Es; cbn; now rewrite Er).
  pose proof (lim_unique _ _ _ (parse_counted_mono (fed l)) (F _ _ _ L) (conj Ho (ex_intro _ n Hn))) as Q. inversion Q; subst.
  split; [discriminate|]. exists j. exact L.
Qed.

(** The steps so far are no more than those of parse() over everything. *)
Lemma so_far n l1 l2 s1 s2 : complete (l1 ++ l2) ->
  session_counted env n t v p l1 = Done s1 -> session_counted env n t v p (l1 ++ l2) = Done s2 ->
  exists r m k, parse_counted env m t v p (fed (l1 ++ l2)) = Done (r, k) /\ steps s1 <= k.
Proof.
  intros Hc E1 E2. destruct (resume_steps _ _ _ Hc E2) as (r & m & _ & Hm). exists r, m, (steps s2). split; auto. eapply steps_grow; eauto.
Qed.
End Counted.

Lemma session_order rank p : plain p = true -> guarded (fun _ => false) rank None p = true ->
  exists c, forall env n t v l1 l2 s1 s2, complete (l1 ++ l2) ->
  session_counted env n t v p l1 = Done s1 -> session_counted env n t v p (l1 ++ l2) = Done s2 ->
  steps s1 <= c * (length (fed (l1 ++ l2)) + 1) ^ order p.
Proof.
  intros Hp Hg. destruct (parse_order rank p Hp Hg) as [c H]. exists c. intros env n t v l1 l2 s1 s2 Hc E1 E2.
  destruct (so_far env t v p n l1 l2 s1 s2 Hc E1 E2) as (r & m & k & Hm & Hk). etransitivity; [exact Hk|]. apply H. eauto 10.
Qed.
