(** What holds between sessions and parse(), and of every run of either (C04 to C10). *)
From Coq Require Import List ZArith Bool Arith Lia.
From Verif Require Import Base CharSet Source Dst Pattern Parser Session SourceProofs SpecSource.
From Verif Require Import SpecSession Rel Safety Keep Limit Chunk SessionProofs.
Import ListNotations.

Lemma reaches_lim {A} (f : nat -> outcome A) o : mono f -> reaches f o <-> lim f o.
Proof.
  intros Hm. split.
  - intros [Ho [n Hn]]. split; eauto.
  - intros [Ho [n Hn]]. split; auto. exists n. intros m H. now apply (mono_lim f n).
Qed.

Section Thms.
Context (env : nat -> option pat) (t : ty) (v : val) (p : pat).

Let anyp : forall id q, env id = Some q -> fits true q := fun _ q _ => fits_leak q.

(** parse_seen and session_seen through the cursor. *)
Definition a_seen (o : outcome ((result * pst) * world cursor)) : outcome seen :=
  match o with Done ((r, _), w) => Done (r, w_cells w, w_trace w) | Err e => Err e end.

Lemma parse_seen_a m inp : parse_seen (parse env m t v p inp) = a_seen (a_run env t v p m inp true).
Proof.
  pose proof (parse_sim env t v p m inp) as H.
  destruct (parse _ _ _ _ _ _) as [[r w]|e], (a_run _ _ _ _ _ _ _) as [[[r' st] w']|e']; cbn in *;
    try contradiction; try congruence.
  destruct H as (H1 & H2 & H3 & H4). cbn in *. congruence.
Qed.

Definition as_seen (o : outcome (session cursor)) : outcome (option seen) :=
  match o with
  | Done s => Done (option_map (fun r => (r, w_cells (s_world s), w_trace (s_world s))) (s_res s))
  | Err e => Err e
  end.

Lemma session_seen_a n l : session_seen (run_session env n t v p l) = as_seen (a_session env t v p n l).
Proof.
  pose proof (session_sim env t v p n l) as H.
  destruct (run_session _ _ _ _ _ _) as [s|e], (a_session _ _ _ _ _ _) as [s'|e']; cbn in *;
    try contradiction; try congruence.
  destruct H as (H1 & H2 & H3 & H4 & H5). rewrite H1, H4, H5. reflexivity.
Qed.

Lemma mono_map {A B} (f : nat -> outcome A) (g : outcome A -> outcome B) :
  mono f -> g (Err EFuel) = Err EFuel -> mono (fun n => g (f n)).
Proof. intros Hf Hg n m H. destruct (Hf n m H) as [-> | ->]; auto. Qed.

Lemma mono_ext {A} (f g : nat -> outcome A) : (forall n, f n = g n) -> mono g -> mono f.
Proof. intros E H n m L. rewrite !E. auto. Qed.

Lemma lim_ext {A} (f g : nat -> outcome A) o : (forall n, f n = g n) -> lim g o -> lim f o.
Proof. intros E [Ho [n Hn]]. split; auto. exists n. now rewrite E. Qed.

Definition some_seen (o : outcome seen) : outcome (option seen) :=
  match o with Done x => Done (Some x) | Err e => Err e end.

(** From session to run. *)
Lemma complete_run n l o :
  complete l -> a_session env t v p n l = o -> o <> Err EFuel ->
  exists o', lim (fun m => a_run env t v p m (fed l) true) o' /\ some_seen (a_seen o') = as_seen o.
Proof.
  intros Hc E Ho. destruct o as [s|e].
  - destruct (complete_answers _ _ _ _ _ _ _ Hc E) as [r Hr].
    destruct Hc as (l' & -> & Hl & He).
    pose proof (CI_session _ _ _ _ _ _ _ E) as HC. unfold CI in HC. rewrite Hr in HC.
    unfold a_session in E. destruct (a_session0 t v p) as [s0|] eqn:E0; [|discriminate]. cbn [obind] in E.
    destruct (SI_init env t v p true s0 E0) as (HS & Hn & Hi & Hf).
    destruct (calls_rest env t p n (l' ++ [Consume]) s0 s HS) as (rest & H1 & H2); auto.
    + rewrite Hf. cbn. clear -Hl. induction l' as [|[b []|] l' IH]; cbn in *; auto.
      rewrite forallb_app, Hl. reflexivity.
    + rewrite Hf. unfold ended. rewrite existsb_app. fold (ended l'). now rewrite He.
    + rewrite Hi in H1. cbn in H1. rewrite H1. eexists. split; [apply HC; exact H2|].
      cbn. now rewrite Hr.
  - assert (HL : lim (fun m => a_run env t v p m (fed l) true) (Err e)).
    { unfold a_session in E. destruct (a_session0 t v p) as [s0|] eqn:E0; cbn [obind] in E.
      - destruct (SI_init env t v p true s0 E0) as (HS & Hn & Hi & Hf).
        destruct Hc as (l' & -> & Hl & He).
        pose proof (calls_err env t v p n (l' ++ [Consume]) s0 e (CI_init _ _ _ _ _ E0) HS) as HE.
        rewrite Hi, Hf in HE. apply HE; auto.
        + cbn. clear -Hl. induction l' as [|[b []|] l' IH]; cbn in *; auto.
          rewrite forallb_app, Hl. reflexivity.
        + unfold ended. rewrite existsb_app. fold (ended l'). now rewrite He.
        + congruence.
      - inversion E; subst. split; [congruence|]. exists 0. now apply CI_err. }
    eexists. split; [exact HL|]. reflexivity.
Qed.

Lemma complete_ends l o :
  complete l -> lim (fun m => a_run env t v p m (fed l) true) o ->
  exists n, a_session env t v p n l <> Err EFuel.
Proof.
  intros (l' & -> & Hl & He) HL. unfold a_session.
  destruct (a_session0 t v p) as [s0|] eqn:E0; cbn [obind].
  - destruct (SI_init env t v p true s0 E0) as (HS & Hn & Hi & Hf).
    eapply (calls_fuel env t v p _ o s0 (CI_init _ _ _ _ _ E0) HS Hn).
    + rewrite Hf. cbn. clear -Hl. induction l' as [|[b []|] l' IH]; cbn in *; auto.
      rewrite forallb_app, Hl. reflexivity.
    + rewrite Hf. unfold ended. rewrite existsb_app. fold (ended l'). now rewrite He.
    + now rewrite Hi.
  - exists 0. pose proof (a_session0_err env t v p true e E0) as HE. intros HH. inversion HH; subst.
    destruct HL as [Ho [m Hm]]. rewrite (CI_err env t v p m EFuel E0) in Hm. congruence.
Qed.

Theorem cutting l : complete l -> forall o : outcome seen,
  reaches (fun n => session_seen (run_session env n t v p l)) (some_seen o) <->
  reaches (fun m => parse_seen (parse env m t v p (fed l))) o.
Proof.
  intros Hc o.
  assert (M1 : mono (fun n => session_seen (run_session env n t v p l))).
  { eapply mono_ext; [intros n; apply session_seen_a|]. apply mono_map; auto. apply a_session_mono. }
  assert (M2 : mono (fun m => a_run env t v p m (fed l) true)) by apply mono_a_run.
  assert (M3 : mono (fun m => parse_seen (parse env m t v p (fed l)))).
  { eapply mono_ext; [intros n; apply parse_seen_a|]. apply mono_map; auto. }
  rewrite !reaches_lim by assumption. split; intros [Ho [n Hn]].
  - rewrite session_seen_a in Hn.
    destruct (complete_run n l _ Hc eq_refl) as (o' & HL & HE).
    { intros E. rewrite E in Hn. cbn in Hn. congruence. }
    destruct HL as [Ho' [m Hm]]. split.
    { intros ->. apply Ho. reflexivity. }
    exists m. rewrite parse_seen_a, Hm. rewrite Hn in HE.
    destruct (a_seen o'), o; cbn in HE; congruence.
  - rewrite parse_seen_a in Hn.
    assert (HL : lim (fun m => a_run env t v p m (fed l) true) (a_run env t v p n (fed l) true)).
    { split; eauto. intros E. rewrite E in Hn. cbn in Hn. congruence. }
    destruct (complete_ends l _ Hc HL) as [k Hk].
    destruct (complete_run k l _ Hc eq_refl Hk) as (o' & HL' & HE).
    rewrite (lim_unique _ _ _ M2 HL' HL), Hn in HE. split.
    { destruct o; cbn; congruence. }
    exists k. now rewrite session_seen_a, HE.
Qed.

(** The answer given on a prefix. *)
Theorem early n pre s0 s r rest :
  run_session env n t v p pre = Done s0 -> s_res s0 = None ->
  run_session env n t v p (pre ++ [Consume]) = Done s -> s_res s = Some r ->
  (ended pre = true -> rest = []) ->
  exists m w, parse env m t v p (fed pre ++ rest) = Done (r, w)
              /\ w_cells w = w_cells (s_world s) /\ w_trace w = w_trace (s_world s)
              /\ sf_cur (w_src w) = cs_unread (w_src (s_world s)) ++ rest.
Proof.
  intros E0 Hn0 E Hr Hrest.
  pose proof (session_sim env t v p n pre) as S0. rewrite E0 in S0.
  pose proof (session_sim env t v p n (pre ++ [Consume])) as S1. rewrite E in S1.
  rewrite a_session_app in S1.
  destruct (a_session env t v p n pre) as [a0|] eqn:A0; [|destruct S0]. cbn [obind] in S1.
  destruct (a_calls env t p n [Consume] a0) as [a|] eqn:A; [|destruct S1].
  destruct S0 as (R0 & _ & _). rewrite Hn0 in R0. symmetry in R0.
  destruct (SI_session env t v p true anyp (fits_leak p) n pre a0 A0) as [HS HN].
  destruct (HN R0) as [Hi Hf].
  assert (AA : a_session env t v p n (pre ++ [Consume]) = Done a).
  { rewrite a_session_app, A0. exact A. }
  pose proof (CI_session _ _ _ _ _ _ _ AA) as HC. unfold CI in HC.
  rewrite a_calls_one in A.
  pose proof (SI_consume env t p true anyp (fits_leak p) n a0 HS R0) as HI. rewrite A in HI.
  destruct HI as (HSa & Hi' & Hf' & _).
  destruct S1 as (R1 & _ & Rw1). rewrite Hr in R1. rewrite <- R1 in HC.
  destruct (HC rest true) as [_ [m Hm]].
  { intros HH. rewrite Hf', Hf in HH. auto. }
  rewrite Hi', Hi in Hm.
  pose proof (parse_sim env t v p m (fed pre ++ rest)) as HP. rewrite Hm in HP.
  destruct (parse env m t v p (fed pre ++ rest)) as [[r' w]|] eqn:EP; [|destruct HP].
  destruct HP as (P1 & P2 & P3 & P4). cbn in P1, P2, P3, P4. subst r'.
  exists m, w. split; [exact EP|]. destruct Rw1 as (Q1 & Q2 & Q3). split; [now rewrite P3, Q2|split; [now rewrite P4, Q3|]].
  destruct P2 as (_ & Hpos & P2 & _). rewrite P2, (cs_unread_spec _ _ Q1). cbn in Hpos |- *.
  rewrite skipn_app. f_equal.
  (* the cursor is within the data *)
  assert (Hle : a_pos (w_src (s_world a)) <= length (a_inp (w_src (s_world a)))).
  { destruct Q1 as [dr [rc1 rc2 rc3 rc4 rc5 rc6 _ _ _]]. destruct (cs_cur (w_src (s_world s))) as [[id off]|].
    - destruct (loc_split _ _ _ _ _ rc6) as (pr & b & po & Eb & _ & Hoff & Hpp).
      rewrite rc1, Eb, Hpp, contents_app, contents_cons, !app_length. lia.
    - lia. }
  replace (a_pos (w_src (s_world a)) - length (a_inp (w_src (s_world a)))) with 0 by lia. reflexivity.
Qed.

(** No PARTIAL after the end, and only when starved. *)
Theorem starving n l s :
  run_session env n t v p (l ++ [Consume]) = Done s -> s_res s = None ->
  ended l = false /\ cs_empty (w_src (s_world s)) = true /\ cs_final (w_src (s_world s)) = false.
Proof.
  intros E Hn. pose proof (session_sim env t v p n (l ++ [Consume])) as S1. rewrite E in S1.
  rewrite a_session_app in S1.
  destruct (a_session env t v p n l) as [a0|] eqn:A0; [|destruct S1]. cbn [obind] in S1.
  destruct (a_calls env t p n [Consume] a0) as [a|] eqn:A; [|destruct S1].
  destruct S1 as (R1 & _ & Rw1). rewrite Hn in R1. symmetry in R1.
  destruct (SI_session env t v p true anyp (fits_leak p) n l a0 A0) as [HS HN].
  destruct (s_res a0) as [r|] eqn:R0.
  { rewrite (a_calls_some _ _ _ _ _ _ _ R0) in A. inversion A; subst. congruence. }
  destruct (HN eq_refl) as [Hi Hf].
  rewrite a_calls_one in A.
  pose proof (SI_consume env t p true anyp (fits_leak p) n a0 HS R0) as HI. rewrite A in HI.
  destruct HI as (HSa & Hi' & Hf' & He). destruct (He R1) as [He1 He2].
  destruct Rw1 as (Q1 & _). rewrite (R_cs_empty _ _ Q1), (R_cs_final _ _ Q1). repeat split; congruence.
Qed.

Theorem parse_answers n inp r w : parse env n t v p inp = Done (r, w) -> r <> PARTIAL.
Proof.
  intros E. pose proof (parse_sim env t v p n inp) as HP. rewrite E in HP.
  pose proof (run_safe env t v p true anyp (fits_leak p) true n inp true (or_introl eq_refl)) as HR.
  fold (a_run env t v p n inp true) in HR.
  destruct (a_run env t v p n inp true) as [[[r' st] w']|]; [|destruct HP].
  destruct HP as [HP _]. cbn in HP. subst r'. intros ->. destruct HR as (_ & _ & _ & HR). discriminate.
Qed.

(** What can go wrong. *)
Theorem session_errors n l e :
  legal l = true -> run_session env n t v p l = Err e -> okerr e.
Proof.
  intros Hl E. pose proof (session_sim env t v p n l) as S1. rewrite E in S1.
  destruct (a_session env t v p n l) as [|e'] eqn:A; [destruct S1|]. cbn in S1. subst e'.
  eapply (session_err env t v p true anyp (fits_leak p)); eauto.
Qed.

Theorem parse_errors n inp e : parse env n t v p inp = Err e -> okerr e.
Proof.
  intros E. pose proof (parse_sim env t v p n inp) as HP. rewrite E in HP.
  pose proof (run_safe env t v p true anyp (fits_leak p) true n inp true (or_introl eq_refl)) as HR.
  fold (a_run env t v p n inp true) in HR.
  destruct (a_run env t v p n inp true) as [|e']; [destruct HP|]. cbn in HP. now subst.
Qed.

(** Marks. *)
Section Marks.
Hypothesis Henv : forall id q, env id = Some q -> optfree q = true.
Hypothesis Hp : optfree p = true.

Let Henv' : forall id q, env id = Some q -> fits false q := fun id q H => or_intror (Henv id q H).
Let Hp' : fits false p := or_intror Hp.

Lemma no_marks inp fin w : St false inp fin 1 [] 0 w -> a_stk (w_src w) = [].
Proof.
  intros [_ (m & Hm & Hl) _ _]. rewrite Hm, app_nil_r. cbn in Hl. destruct m; auto; discriminate.
Qed.

Theorem parse_marks n inp r w : parse env n t v p inp = Done (r, w) -> sf_stack (w_src w) = [].
Proof.
  intros E. pose proof (parse_sim env t v p n inp) as HP. rewrite E in HP.
  pose proof (parse_answers _ _ _ _ E) as Hr.
  pose proof (run_safe env t v p false Henv' Hp' true n inp true (or_introl eq_refl)) as HR.
  fold (a_run env t v p n inp true) in HR.
  destruct (a_run env t v p n inp true) as [[[r' st] w']|]; [|destruct HP].
  destruct HP as [HP1 [HP2 _]]. cbn in HP1, HP2. subst r'. destruct HP2 as (_ & _ & _ & HP2 & _).
  rewrite HP2. assert (a_stk (w_src w') = []) as ->; auto.
  destruct r; [eapply no_marks; exact HR|eapply no_marks; exact HR|congruence].
Qed.

Theorem session_marks n l s r :
  run_session env n t v p l = Done s -> s_res s = Some r ->
  let src := w_src (s_world s) in
  cs_marks src = [] /\ cs_starved src = 0 /\
  match cs_bufs src with
  | [] => cs_unread src = []
  | (_, b) :: tl => exists k, k < length b /\ cs_unread src = skipn k b ++ concat (map snd tl)
  end.
Proof.
  intros E Hr src. pose proof (session_sim env t v p n l) as S1. rewrite E in S1.
  destruct (a_session env t v p n l) as [a|] eqn:A; [|destruct S1].
  destruct S1 as (R1 & _ & Rw1). rewrite Hr in R1.
  destruct (SI_session env t v p false Henv' Hp' n l a A) as [HS _]. unfold SI in HS. rewrite <- R1 in HS.
  destruct HS as [HS _]. apply no_marks in HS. destruct Rw1 as ([d [rc1 rc2 rc3 rc4 rc5 rc6 rc7 rc8 rc9]] & _).
  fold src in rc1, rc2, rc3, rc4, rc5, rc6, rc7, rc8, rc9.
  destruct rc7 as (ps & Hps & Hst). rewrite HS in Hst. symmetry in Hst. apply app_eq_nil in Hst as [Hs1 Hs2].
  subst ps. inversion Hps as [Hm|]; subst. split; auto.
  assert (cs_starved src = 0) as Hz by (destruct (cs_starved src); [reflexivity|discriminate]). split; auto.
  rewrite <- Hm in rc9. cbn in rc9. unfold cs_unread.
  destruct (cs_cur src) as [[id off]|]; cbn in rc9.
  - destruct (cs_bufs src) as [|[i b] tl]; cbn in rc9; [discriminate|]. inversion rc9; subst i.
    destruct (loc_split _ _ _ _ _ rc6) as (pre & b' & post & Eb & Hn & Ho & Hpp).
    destruct pre as [|[j ?] pre].
    + cbn in Eb. inversion Eb; subst. exists off. cbn. now rewrite Nat.eqb_refl.
    + cbn in Eb. inversion Eb; subst. cbn in Hn. tauto.
  - destruct (cs_bufs src) as [|[i b] tl]; cbn in rc9; [reflexivity|discriminate].
Qed.
End Marks.

End Thms.

(** In the form of the properties. *)
Lemma position env t v p n l s0 s r :
  run_session env n t v p l = Done s0 -> s_res s0 = None -> ended l = true ->
  run_session env n t v p (l ++ [Consume]) = Done s -> s_res s = Some r ->
  exists m w, parse env m t v p (fed l) = Done (r, w)
              /\ w_cells w = w_cells (s_world s) /\ w_trace w = w_trace (s_world s)
              /\ sf_cur (w_src w) = cs_unread (w_src (s_world s)).
Proof.
  intros E0 Hn He E Hr. destruct (early env t v p n l s0 s r [] E0 Hn E Hr (fun _ => eq_refl)) as (m & w & H).
  rewrite !app_nil_r in H. eauto.
Qed.

Lemma early_answer env t v p n l s0 s r :
  run_session env n t v p l = Done s0 -> s_res s0 = None -> ended l = false ->
  run_session env n t v p (l ++ [Consume]) = Done s -> s_res s = Some r ->
  forall rest,
  exists m w, parse env m t v p (fed l ++ rest) = Done (r, w)
              /\ w_cells w = w_cells (s_world s) /\ w_trace w = w_trace (s_world s)
              /\ sf_cur (w_src w) = cs_unread (w_src (s_world s)) ++ rest.
Proof. intros E0 Hn He E Hr rest. eapply early; eauto. congruence. Qed.

Lemma no_partial_after_final env t v p n l s :
  ended l = true -> run_session env n t v p (l ++ [Consume]) = Done s ->
  s_res s = Some SUCCESS \/ s_res s = Some FAILURE.
Proof.
  intros He E. destruct (s_res s) as [r|] eqn:Er.
  - destruct r; auto. exfalso. pose proof (session_sim env t v p n (l ++ [Consume])) as S1. rewrite E in S1.
    destruct (a_session env t v p n _) as [a|] eqn:A; [|destruct S1].
    destruct (SI_session env t v p true (fun _ q _ => fits_leak q) (fits_leak p) n _ a A) as [HS _].
    destruct S1 as [R1 _]. unfold SI in HS. rewrite <- R1, Er in HS. destruct HS. congruence.
  - destruct (starving env t v p n l s E Er). congruence.
Qed.

Lemma parse_never_partial env t v p n inp r w :
  parse env n t v p inp = Done (r, w) -> r = SUCCESS \/ r = FAILURE.
Proof. intros E. apply parse_answers in E. destruct r; auto. congruence. Qed.

Lemma okerr_misuse e :
  okerr e -> ~ In e [EUb UbRead; EUb UbAdvance; EUb UbMark; EUb UbRelease; EUb UbFinal].
Proof. unfold okerr. cbn. intuition congruence. Qed.

Lemma no_misuse env t v p n :
  (forall inp e, parse env n t v p inp = Err e -> ~ In e [EUb UbRead; EUb UbAdvance; EUb UbMark; EUb UbRelease; EUb UbFinal]) /\
  (forall l e, legal l = true -> run_session env n t v p l = Err e -> ~ In e [EUb UbRead; EUb UbAdvance; EUb UbMark; EUb UbRelease; EUb UbFinal]).
Proof.
  split; intros; apply okerr_misuse; [eapply parse_errors|eapply session_errors]; eauto.
Qed.

Lemma no_shape env t v p n :
  (forall inp, parse env n t v p inp <> Err EShape) /\
  (forall l, legal l = true -> run_session env n t v p l <> Err EShape).
Proof.
  split; intros; intros E; [apply parse_errors in E|apply session_errors in E; auto];
  unfold okerr in E; intuition congruence.
Qed.

Lemma no_mark_left env t v p :
  (forall id q, env id = Some q -> optfree q = true) -> optfree p = true ->
  (forall n inp r w, parse env n t v p inp = Done (r, w) -> sf_stack (w_src w) = []) /\
  (forall n l s r, run_session env n t v p l = Done s -> s_res s = Some r ->
     let src := w_src (s_world s) in
     cs_marks src = [] /\ cs_starved src = 0 /\
     match cs_bufs src with
     | [] => cs_unread src = []
     | (_, b) :: tl => exists k, k < length b /\ cs_unread src = skipn k b ++ concat (map snd tl)
     end).
Proof.
  intros He Hp. split; intros.
  - eapply parse_marks; eauto.
  - eapply session_marks; eauto.
Qed.
