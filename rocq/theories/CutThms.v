(** Bounds that are not reached make no difference (C56). *)
From Coq Require Import List ZArith Bool Arith Lia.
From Verif Require Import Base CharSet Source Dst Pattern Parser Session SpecSource SpecSession SpecRun SpecTerm SpecCut.
From Verif Require Import SourceProofs Rel Safety Limit Chunk SessionProofs SessionThms Run Term TermThms.
Import ListNotations.

Section Cut.
Context (eager : nat -> bool) (rank : nat -> nat) (env : nat -> option pat).
Context (Henv : all_guarded eager rank env).
Context (N : nat) (HN : 2 <= N).
Let env' := cut_env N env.

Lemma env_cut : envf env N = env'.
Proof. unfold envf, env'. destruct N; [lia|reflexivity]. Qed.

Lemma runs_cut t v p inp fin : guarded eager rank None p = true -> length inp < N ->
  exists n o, o <> Err EFuel /\ forall m, n <= m -> a_run env t v p m inp fin = o /\ a_run env' t v (cut N p) m inp fin = o.
Proof.
  intros Hp Hl. destruct (a_run_cut eager rank env Henv t v p inp fin Hp) as (n & o & Ho & H). exists n, o. split; auto. intros m Hm. split.
  - rewrite <- (H 0 m); auto; [now rewrite cut_none|now left].
  - rewrite <- env_cut. apply H; auto. right. auto.
Qed.

Lemma parse_cut t v p inp : guarded eager rank None p = true -> length inp < N ->
  exists o1 o2, reaches (fun n => parse env n t v p inp) o1 /\ reaches (fun n => parse env' n t v (cut N p) inp) o2 /\ parse_alike o1 o2.
Proof.
  intros Hp Hl. destruct (runs_cut t v p inp true Hp Hl) as (n & o & Ho & H). destruct (H n (le_n n)) as [H1 H2].
  pose proof (parse_sim env t v p n inp) as S1. pose proof (parse_sim env' t v (cut N p) n inp) as S2. rewrite H1 in S1. rewrite H2 in S2.
  exists (parse env n t v p inp), (parse env' n t v (cut N p) inp). split; [|split].
  - apply reaches_lim; [apply mono_parse|]. split; [|now exists n]. intros E. rewrite E in S1. destruct o as [x|e]; [destruct S1|]. cbn in S1. congruence.
  - apply reaches_lim; [apply mono_parse|]. split; [|now exists n]. intros E. rewrite E in S2. destruct o as [x|e]; [destruct S2|]. cbn in S2. congruence.
  - destruct (parse env n t v p inp) as [[r1 w1]|e1], (parse env' n t v (cut N p) inp) as [[r2 w2]|e2], o as [[[r a] w]|e]; cbn in S1, S2 |- *; try contradiction; try congruence.
    destruct S1 as (E1 & (_ & _ & S1 & _) & S1c & S1t). destruct S2 as (E2 & (_ & _ & S2 & _) & S2c & S2t). cbn in *. unfold left_at.
    repeat split; congruence.
Qed.

(** ** Sessions *)
Lemma ext_same w : ext [] (a_fin (w_src w)) w = w.
Proof. destruct w as [[i f q k] c tr]. unfold ext, ext_src. cbn. now rewrite app_nil_r. Qed.

Lemma calls_cut t v p : guarded eager rank None p = true -> forall l s,
  CI env t v p s -> CI env' t v (cut N p) s -> SI env p true s -> SI env' (cut N p) true s ->
  length (a_inp (w_src (s_world s))) + length (fed l) < N ->
  exists n o, o <> Err EFuel /\ forall m, n <= m -> a_calls env t p m l s = o /\ a_calls env' t (cut N p) m l s = o.
Proof.
  intros Hp. induction l as [|k l IH]; intros s C1 C2 S1 S2 HL; [exists 0, (Done s); split; [discriminate|auto]|].
  destruct (s_res s) as [r|] eqn:Er.
  { exists 0, (Done s). split; [discriminate|]. intros m _. now rewrite !(fun e t p => a_calls_some e t p m _ _ _ Er). }
  assert (Step : exists n o, o <> Err EFuel /\ (forall m, n <= m -> do_call (a_ops true) a_add env m t p k s = o /\ do_call (a_ops true) a_add env' m t (cut N p) k s = o) /\
    match o with
    | Done s' => CI env t v p s' /\ CI env' t v (cut N p) s' /\ SI env p true s' /\ SI env' (cut N p) true s' /\ length (a_inp (w_src (s_world s'))) + length (fed l) < N
    | Err _ => True
    end).
  { destruct k as [b f|].
    - pose proof (CI_feed env t v p 0 b f s C1 S1 Er) as F1. pose proof (CI_feed env' t v (cut N p) 0 b f s C2 S2 Er) as F2.
      pose proof (SI_feed env t p true 0 b f s S1 Er) as G1. pose proof (SI_feed env' t (cut N p) true 0 b f s S2 Er) as G2.
      exists 0, (do_call (a_ops true) a_add env 0 t p (Feed b f) s). unfold do_call in *. rewrite Er in *. cbn [a_add] in *.
      destruct (a_add b f (w_src (s_world s))) as [src|e]; cbn [obind] in *; (split; [try discriminate|split; [auto|]]).
      + destruct G1 as (G1 & _ & _ & _ & Ew). destruct G2 as (G2 & _). split; [exact F1|split; [exact F2|split; [exact G1|split; [exact G2|]]]].
        cbn [s_world w_src] in Ew |- *. injection Ew as ->. cbn [a_inp]. rewrite app_length. cbn [fed] in HL. rewrite app_length in HL. lia.
      + destruct G1 as [-> _]. discriminate.
      + exact I.
    - cbn [fed] in HL.
      assert (R1 : forall env p, CI env t v p s -> EQ (fun m => a_run env t v p m (a_inp (w_src (s_world s))) (a_fin (w_src (s_world s))))
                (fun m => top_consume (a_ops true) env m t p (s_st s) (s_world s))).
      { intros e q C. specialize (C [] (a_fin (w_src (s_world s))) (fun h => conj eq_refl h)). rewrite Er, app_nil_r, ext_same in C. exact C. }
      destruct (runs_cut t v p (a_inp (w_src (s_world s))) (a_fin (w_src (s_world s))) Hp ltac:(lia)) as (n & o & Ho & HO).
      destruct (HO n (le_n n)) as [O1 O2].
      destruct (proj1 (R1 env p C1 o) (conj Ho (ex_intro _ n O1))) as [_ [n1 T1]].
      destruct (proj1 (R1 env' (cut N p) C2 o) (conj Ho (ex_intro _ n O2))) as [_ [n2 T2]].
      set (n0 := Nat.max n1 n2).
      assert (U1 : forall m, n0 <= m -> top_consume (a_ops true) env m t p (s_st s) (s_world s) = o).
      { intros m Hm. destruct (Mono_mono _ (s_world s) (Mono_top env t p (s_st s)) n1 m ltac:(lia)) as [E|E]; cbn in E; congruence. }
      assert (U2 : forall m, n0 <= m -> top_consume (a_ops true) env' m t (cut N p) (s_st s) (s_world s) = o).
      { intros m Hm. destruct (Mono_mono _ (s_world s) (Mono_top env' t (cut N p) (s_st s)) n2 m ltac:(lia)) as [E|E]; cbn in E; congruence. }
      pose proof (CI_consume env t v p n0 s C1 S1 Er) as F1. pose proof (CI_consume env' t v (cut N p) n0 s C2 S2 Er) as F2.
      pose proof (SI_consume env t p true (fun _ q _ => fits_leak q) (fits_leak p) n0 s S1 Er) as G1.
      pose proof (SI_consume env' t (cut N p) true (fun _ q _ => fits_leak q) (fits_leak (cut N p)) n0 s S2 Er) as G2.
      exists n0, (do_call (a_ops true) a_add env n0 t p Consume s).
      assert (V : forall m, n0 <= m -> do_call (a_ops true) a_add env m t p Consume s = do_call (a_ops true) a_add env n0 t p Consume s /\
                                  do_call (a_ops true) a_add env' m t (cut N p) Consume s = do_call (a_ops true) a_add env n0 t p Consume s).
      { intros m Hm. unfold do_call. rewrite Er, (U1 m Hm), (U2 m Hm), (U1 n0 (le_n n0)). auto. }
      split; [|split; [exact V|]].
      + unfold do_call. rewrite Er, (U1 n0 (le_n n0)). destruct o as [[[[] ?] ?]|]; congruence.
      + destruct (V n0 (le_n n0)) as [_ V2]. rewrite V2 in F2, G2. destruct (do_call _ _ env _ _ _ _ _) as [s'|]; [|exact I].
        destruct G1 as (G1 & Ei & _). destruct G2 as (G2 & _).
        split; [exact F1|split; [exact F2|split; [exact G1|split; [exact G2|]]]]. rewrite Ei. lia. }
  destruct Step as (n & o & Ho & HO & HP). destruct o as [s'|e].
  - destruct HP as (P1 & P2 & P3 & P4 & P5). destruct (IH s' P1 P2 P3 P4 P5) as (n' & o' & Ho' & HO'). exists (Nat.max n n'), o'. split; auto.
    intros m Hm. change (k :: l) with ([k] ++ l). rewrite !a_calls_app, !a_calls_one. destruct (HO m ltac:(lia)) as [-> ->]. cbn [obind]. apply HO'. lia.
  - exists n, (Err e). split; auto. intros m Hm. change (k :: l) with ([k] ++ l). rewrite !a_calls_app, !a_calls_one. destruct (HO m Hm) as [-> ->]. auto.
Qed.

Lemma session0_cut t v p : a_session0 t v (cut N p) = a_session0 t v p.
Proof.
  unfold a_session0. assert (E : top_create (a_ops true) t (cut N p) (World cursor0 [v] []) = top_create (a_ops true) t p (World cursor0 [v] [])).
  { apply (same_create [] N Fail (c_bound (top_ctx t)) default_req (top_dst t) p). right. cbn. lia. }
  now rewrite E.
Qed.

Lemma a_session_cut t v p l : guarded eager rank None p = true -> length (fed l) < N ->
  exists n o, o <> Err EFuel /\ forall m, n <= m -> a_session env t v p m l = o /\ a_session env' t v (cut N p) m l = o.
Proof.
  intros Hp Hl. unfold a_session. rewrite session0_cut. destruct (a_session0 t v p) as [s0|e] eqn:E0.
  - cbn [obind]. pose proof E0 as E0'. rewrite <- session0_cut in E0'.
    destruct (SI_init env t v p true s0 E0) as (I1 & _ & Ei & _). destruct (SI_init env' t v (cut N p) true s0 E0') as (I2 & _).
    apply (calls_cut t v p Hp l s0); auto using CI_init. rewrite Ei. exact Hl.
  - exists 0, (Err e). split; [|auto]. destruct (runs_cut t v p [] false Hp ltac:(cbn; lia)) as (n & o & Ho & H). destruct (H n (le_n n)) as [H1 _].
    unfold a_session0 in E0. unfold a_run, top_run, bind in H1. change (Cursor [] false 0 []) with cursor0 in H1.
    destruct (top_create _ _ _ _) as [[st w]|]; congruence.
Qed.

Lemma mono_session e t v p l : mono (fun n => run_session e n t v p l).
Proof.
  assert (M1 : forall k s, mono (fun n => do_call cs_ops cs_add e n t p k s)).
  { intros k s n1 n2 H. unfold do_call. destruct (s_res s); auto. destruct k as [b f|]; auto.
    destruct (Mono_mono _ (s_world s) (Mono_consume cs_ops e (top_ctx t) default_req (top_dst t) p (s_st s)) n1 n2 H) as [E|E]; unfold top_consume; cbn in E; rewrite E; auto. }
  assert (M2 : forall l s, mono (fun n => do_calls cs_ops cs_add e n t p l s)).
  { clear l. induction l as [|k l IH]; intros s n1 n2 H; cbn [do_calls]; auto.
    destruct (M1 k s n1 n2 H) as [E|E]; cbn in E; rewrite E; auto.
    destruct (do_call _ _ _ n2 _ _ _ _) as [a|]; cbn; auto. apply (IH a n1 n2 H). }
  intros n1 n2 H. unfold run_session. destruct (top_create _ _ _ _) as [[st w]|]; auto. now apply M2.
Qed.

Lemma session_cut t v p l : guarded eager rank None p = true -> length (fed l) < N ->
  exists o1 o2, reaches (fun n => run_session env n t v p l) o1 /\ reaches (fun n => run_session env' n t v (cut N p) l) o2 /\ session_alike o1 o2.
Proof.
  intros Hp Hl. destruct (a_session_cut t v p l Hp Hl) as (n & o & Ho & H). destruct (H n (le_n n)) as [H1 H2].
  pose proof (session_sim env t v p n l) as S1. pose proof (session_sim env' t v (cut N p) n l) as S2. rewrite H1 in S1. rewrite H2 in S2.
  exists (run_session env n t v p l), (run_session env' n t v (cut N p) l). split; [|split].
  - apply reaches_lim; [apply mono_session|]. split; [|now exists n]. intros E. rewrite E in S1. destruct o as [x|e]; [destruct S1|]. cbn in S1. congruence.
  - apply reaches_lim; [apply mono_session|]. split; [|now exists n]. intros E. rewrite E in S2. destruct o as [x|e]; [destruct S2|]. cbn in S2. congruence.
  - destruct (run_session env n t v p l) as [s1|e1], (run_session env' n t v (cut N p) l) as [s2|e2], o as [s|e]; cbn in S1, S2 |- *; try contradiction; try congruence.
    destruct S1 as (E1 & _ & S1 & S1c & S1t). destruct S2 as (E2 & _ & S2 & S2c & S2t).
    rewrite (cs_unread_spec _ _ S1), (cs_unread_spec _ _ S2). repeat split; congruence.
Qed.
End Cut.
