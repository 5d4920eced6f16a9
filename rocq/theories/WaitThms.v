(** What can be seen between the calls depends on the text provided only, and what has been
    done is not undone. *)
From Coq Require Import List ZArith Bool Arith Lia.
From Verif Require Import Base CharSet Source Dst Pattern Parser Session SourceProofs SpecSource.
From Verif Require Import SpecSession Rel Shift Safety Keep Limit Chunk SessionProofs SessionThms SpecGrow Grow GrowThms CutThms SpecWait.
Import ListNotations.

Section Wait.
Context (env : nat -> option pat) (t : ty) (v : val) (p : pat).

Let anyp : forall id q, env id = Some q -> fits true q := fun _ q _ => fits_leak q.
Local Notation a_session := (a_session env t v p).
Local Notation a_session0 := (a_session0 t v p).
Local Notation a_calls := (a_calls env t p).
Local Notation a_run := (a_run env t v p).
Local Notation SI := (SI env p).
Local Notation CI := (CI env t v p).
Local Notation SI_feed := (SI_feed env t p true).
Local Notation SI_consume := (SI_consume env t p true anyp (fits_leak p)).

Definition a_shows (o : outcome (session cursor)) : outcome sight :=
  match o with
  | Done s => Done (s_res s, w_cells (s_world s), w_trace (s_world s))
  | Err e => Err e
  end.

Lemma session_shows_a n l : session_shows (run_session env n t v p l) = a_shows (a_session n l).
Proof.
  pose proof (session_sim env t v p n l) as H.
  destruct (run_session _ _ _ _ _ _) as [s|e], (a_session _ _) as [s'|e']; cbn in *;
    try contradiction; try congruence.
  destruct H as (H1 & H2 & H3 & H4 & H5). rewrite H1, H4, H5. reflexivity.
Qed.

(** What a run over the cursor shows. *)
Definition r_shows (o : outcome ((result * pst) * world cursor)) : outcome sight :=
  match o with
  | Done ((r, _), w) => Done (match r with PARTIAL => None | _ => Some r end, w_cells w, w_trace w)
  | Err e => Err e
  end.

Lemma may_feed' l a : legal_from (a_fin a) l = true -> may a (fed l) (a_fin a || ended l).
Proof.
  intros Hl Hf. rewrite Hf. split; auto. rewrite Hf in Hl. cbn in Hl.
  induction l as [|[b f|] l IH]; cbn in *; auto. discriminate.
Qed.

Lemma ext_nothing w : ext [] (a_fin (w_src w)) w = w.
Proof. destruct w as [[i f q k] c tr]. unfold ext, ext_src. cbn. now rewrite app_nil_r. Qed.

Lemma CI_err' m e f : a_session0 = Err e -> forall inp, a_run m inp f = Err e.
Proof.
  unfold a_session0. intros E inp.
  pose proof (neu_create inp f (top_ctx t) default_req (top_dst t) p (World cursor0 [v] []) eq_refl) as HN.
  unfold neu_at in HN. unfold top_create in E.
  destruct (create _ _ _ _ _ _) as [[st w]|e'] eqn:Ec; inversion E; subst; clear E.
  unfold SessionProofs.a_run, top_run, bind, top_create.
  change (World (Cursor inp f 0 []) [v] []) with (ext inp f (World cursor0 [v] [])).
  now rewrite HN.
Qed.

Lemma calls_rest' n l : forall s s',
  SI true s -> legal_from (a_fin (w_src (s_world s))) l = true ->
  s_res s = None -> a_calls n l s = Done s' ->
  exists rest, a_inp (w_src (s_world s)) ++ fed l = a_inp (w_src (s_world s')) ++ rest
               /\ may (w_src (s_world s')) rest (a_fin (w_src (s_world s)) || ended l).
Proof.
  induction l as [|k l IH]; intros s s' HS Hl Er E.
  - inversion E; subst. exists []. cbn. split; auto. intros ->. auto.
  - pose proof (may_feed' _ _ Hl) as HM. apply legal_from_step in Hl.
    change (k :: l) with ([k] ++ l) in E. rewrite a_calls_app, a_calls_one in E.
    destruct k as [b f|].
    + destruct Hl as [Hf0 Hl]. pose proof (SI_feed n b f s HS Er) as H2.
      destruct (do_call _ _ _ _ _ _ _ _) as [s1|]; [|discriminate].
      destruct H2 as (HS1 & Hf & Hr1 & Hst & Hw). cbn [obind] in E.
      specialize (IH s1 s' HS1). rewrite Hw in IH. cbn in IH. cbn [fed]. rewrite app_assoc, Hf0. apply IH; auto.
    + pose proof (SI_consume n s HS Er) as H2.
      destruct (do_call _ _ _ _ _ _ _ _) as [s1|]; [|discriminate].
      destruct H2 as (HS1 & Hi & Hf & _). cbn [obind] in E. destruct (s_res s1) as [r|] eqn:Er1.
      * rewrite (a_calls_some _ _ _ _ _ _ _ Er1) in E. inversion E; subst. exists (fed (Consume :: l)).
        rewrite Hi. split; auto. unfold may in *. rewrite Hf. auto.
      * specialize (IH s1 s' HS1). rewrite Hi, Hf in IH. cbn [fed]. apply IH; auto.
Qed.

Lemma calls_err' n l : forall s e,
  CI s -> SI true s -> legal_from (a_fin (w_src (s_world s))) l = true ->
  a_calls n l s = Err e -> e <> EFuel ->
  lim (fun m => a_run m (a_inp (w_src (s_world s)) ++ fed l) (a_fin (w_src (s_world s)) || ended l)) (Err e).
Proof.
  induction l as [|k l IH]; intros s e HC HS Hl E Hne; [discriminate|].
  destruct (s_res s) as [r|] eqn:Er.
  { rewrite (a_calls_some _ _ _ _ _ _ _ Er) in E. discriminate. }
  pose proof (may_feed' _ _ Hl) as HM.
  apply legal_from_step in Hl.
  change (k :: l) with ([k] ++ l) in E. rewrite a_calls_app, a_calls_one in E.
  destruct k as [b f|].
  - destruct Hl as [Hf0 Hl].
    pose proof (CI_feed env t v p n b f s HC HS Er) as H1. pose proof (SI_feed n b f s HS Er) as H2.
    destruct (do_call _ _ _ _ _ _ _ _) as [s1|].
    + destruct H2 as (HS1 & Hf & Hr1 & Hst & Hw). cbn in E.
      specialize (IH s1 e H1 HS1). rewrite Hw in IH. cbn in IH. cbn [fed]. rewrite app_assoc, Hf0. apply IH; auto.
    + destruct H2 as [_ H2]. congruence.
  - pose proof (CI_consume env t v p n s HC HS Er) as H1.
    pose proof (SI_consume n s HS Er) as H2.
    destruct (do_call _ _ _ _ _ _ _ _) as [s1|].
    + destruct H2 as (HS1 & Hi & Hf & _). cbn in E. specialize (IH s1 e H1 HS1). rewrite Hi, Hf in IH.
      cbn [fed]. apply IH; auto.
    + cbn in E. inversion E; subst. destruct H1 as [->|H1]; [congruence|]. apply H1. exact HM.
Qed.

Lemma calls_fuel' l o : forall s,
  CI s -> SI true s -> s_res s = None -> legal_from (a_fin (w_src (s_world s))) l = true ->
  lim (fun m => a_run m (a_inp (w_src (s_world s)) ++ fed l) (a_fin (w_src (s_world s)) || ended l)) o ->
  exists n, a_calls n l s <> Err EFuel.
Proof.
  induction l as [|k l IH]; intros s HC HS Er Hl HL; [exists 0; discriminate|].
  pose proof (may_feed' _ _ Hl) as HM.
  apply legal_from_step in Hl.
  assert (HN : forall n k s1, do_call (a_ops true) a_add env n t p k s = Done s1 ->
     (exists n', a_calls n' l s1 <> Err EFuel) -> exists n', a_calls n' (k :: l) s <> Err EFuel).
  { intros n k0 s1 E1 [n' Hn']. exists (max n n'). unfold SessionProofs.a_calls. cbn [do_calls].
    rewrite (mono_lim _ _ _ (do_call_mono env t p k0 s) E1) by (try discriminate; lia). cbn [obind].
    change (a_calls (max n n') l s1 <> Err EFuel). intros HH. destruct (a_calls n' l s1) as [s2|e] eqn:E2.
    - rewrite (mono_lim (fun n => a_calls n l s1) n' (Done s2) (a_calls_mono env t p l s1) E2) in HH by (try discriminate; lia). discriminate.
    - rewrite (mono_lim (fun n => a_calls n l s1) n' (Err e) (a_calls_mono env t p l s1) E2) in HH by (try congruence; lia). congruence. }
  destruct k as [b f|].
  - destruct Hl as [Hf0 Hl].
    pose proof (CI_feed env t v p 0 b f s HC HS Er) as H1. pose proof (SI_feed 0 b f s HS Er) as H2.
    destruct (do_call _ _ _ _ _ _ _ _) as [s1|] eqn:E.
    + destruct H2 as (HS1 & Hf & Hr1 & Hst & Hw). apply (HN 0 _ s1 E).
      specialize (IH s1 H1 HS1 Hr1). rewrite Hw in IH. cbn in IH. cbn [fed] in HL. rewrite app_assoc, Hf0 in HL.
      apply IH; auto.
    + destruct H2 as [_ H2]. congruence.
  - assert (exists n, do_call (a_ops true) a_add env n t p Consume s <> Err EFuel) as [n Hn].
    { unfold SessionProofs.CI in HC. rewrite Er in HC. apply (HC _ _ HM) in HL. destruct HL as [Ho [n Hn]]. exists n.
      unfold do_call. rewrite Er. unfold top_consume in *.
      destruct (a_fin (w_src (s_world s))) eqn:Ef.
      - destruct (HM Ef) as [HM1 HM2]. cbn [fed] in *. rewrite HM1, HM2, (ext_self _ Ef) in Hn. rewrite Hn.
        destruct o as [[[[] ?] ?]|]; congruence.
      - pose proof (chk_all env (fed (Consume :: l)) (false || ended (Consume :: l)) n (top_ctx t) default_req (top_dst t) p (s_st s) (s_world s) Ef) as HK.
        unfold CHK in HK.
        destruct (consume _ _ _ _ _ _ _ _ (s_world s)) as [[[r st'] w']|e] eqn:E.
        + destruct r; discriminate.
        + intros HH. inversion HH; subst e. congruence. }
    pose proof (CI_consume env t v p n s HC HS Er) as H1.
    pose proof (SI_consume n s HS Er) as H2.
    destruct (do_call _ _ _ _ _ _ _ _) as [s1|e] eqn:E.
    + apply (HN n _ s1 E). destruct H2 as (HS1 & Hi & Hf & _).
      destruct (s_res s1) eqn:Er1.
      * exists 0. rewrite (a_calls_some _ _ _ _ _ _ _ Er1). discriminate.
      * apply (IH s1 H1 HS1 Er1); rewrite ?Hi, ?Hf; auto.
    + exists n. unfold SessionProofs.a_calls. cbn [do_calls]. rewrite E. exact Hn.
Qed.

Lemma legal_consume l f : legal_from f (l ++ [Consume]) = legal_from f l.
Proof.
  assert (forall l, forallb (fun k => match k with Feed _ _ => false | Consume => true end) (l ++ [Consume]) =
                    forallb (fun k => match k with Feed _ _ => false | Consume => true end) l) as H.
  { intros m. rewrite forallb_app. cbn. apply andb_true_r. }
  destruct f; cbn; [apply H|]. induction l as [|[b []|] l IH]; cbn; auto.
Qed.
Lemma fed_app l l' : fed (l ++ l') = fed l ++ fed l'.
Proof. induction l as [|[]]; cbn; auto. now rewrite IHl, app_assoc. Qed.
Lemma ended_app l l' : ended (l ++ l') = ended l || ended l'.
Proof. unfold ended. apply existsb_app. Qed.

(** From a session to the run over the text it was given. *)
Lemma shown_run n l o : legal l = true -> a_session n (l ++ [Consume]) = o -> o <> Err EFuel ->
  exists o', lim (fun m => a_run m (fed l) (ended l)) o' /\ r_shows o' = a_shows o.
Proof.
  intros Hl E Ho. destruct o as [s|e].
  - pose proof (CI_session _ _ _ _ _ _ _ E) as HC.
    destruct (s_res s) as [r|] eqn:Hr.
    + unfold SessionProofs.CI in HC. rewrite Hr in HC.
      unfold SessionProofs.a_session in E. destruct a_session0 as [s0|] eqn:E0; [|discriminate]. cbn [obind] in E.
      destruct (SI_init env t v p true s0 E0) as (HS & Hn & Hi & Hf).
      destruct (calls_rest' n (l ++ [Consume]) s0 s HS) as (rest & H1 & H2); auto.
      { now rewrite Hf, legal_consume. }
      rewrite Hi, fed_app in H1. cbn in H1. rewrite app_nil_r in H1. rewrite H1.
      rewrite Hf, ended_app in H2. cbn in H2. rewrite orb_false_r in H2.
      eexists. split; [apply HC; exact H2|]. cbn. rewrite Hr.
      destruct (SI_calls env t p true anyp (fits_leak p) n _ s0 s HS E) as [HS' _].
      unfold SessionProofs.SI in HS'. rewrite Hr in HS'. destruct HS' as [_ HP]. destruct r; congruence.
    + rewrite a_session_app in E. destruct (a_session n l) as [a|] eqn:A; [|discriminate]. cbn [obind] in E.
      destruct (s_res a) as [r|] eqn:Ra.
      { rewrite (a_calls_some _ _ _ _ _ _ _ Ra) in E. injection E as <-. congruence. }
      destruct (SI_session env t v p true anyp (fits_leak p) n l a A) as [HS HN]. destruct (HN Ra) as [Hi Hf].
      pose proof (CI_session _ _ _ _ _ _ _ A) as HA. unfold SessionProofs.CI in HA. rewrite Ra in HA.
      assert (may (w_src (s_world a)) [] (a_fin (w_src (s_world a)))) as HM by (intros ->; auto).
      specialize (HA _ _ HM). rewrite ext_nothing, app_nil_r, Hi, Hf in HA.
      rewrite a_calls_one in E. unfold do_call in E. rewrite Ra in E.
      destruct (top_consume _ _ _ _ _ _ _) as [[[r st'] w']|] eqn:T; [|discriminate].
      destruct r; injection E as <-; try discriminate.
      exists (Done ((PARTIAL, st'), w')). split; [apply HA; split; [discriminate|eauto]|reflexivity].
  - assert (HL : lim (fun m => a_run m (fed l) (ended l)) (Err e)); [|eexists; split; [exact HL|reflexivity]].
    unfold SessionProofs.a_session in E. destruct a_session0 as [s0|] eqn:E0; cbn [obind] in E.
    + destruct (SI_init env t v p true s0 E0) as (HS & Hn & Hi & Hf).
      pose proof (calls_err' n (l ++ [Consume]) s0 e (CI_init _ _ _ _ _ E0) HS) as HE.
      rewrite Hi, Hf, legal_consume, fed_app, ended_app in HE. cbn in HE.
      rewrite app_nil_r, orb_false_r in HE. apply HE; auto. congruence.
    + inversion E; subst. split; [congruence|]. exists 0. now apply CI_err'.
Qed.

Lemma shown_ends l o : legal l = true -> lim (fun m => a_run m (fed l) (ended l)) o ->
  exists n, a_session n (l ++ [Consume]) <> Err EFuel.
Proof.
  intros Hl HL. unfold SessionProofs.a_session.
  destruct a_session0 as [s0|] eqn:E0; cbn [obind].
  - destruct (SI_init env t v p true s0 E0) as (HS & Hn & Hi & Hf).
    apply (calls_fuel' _ o s0 (CI_init _ _ _ _ _ E0) HS Hn).
    + now rewrite Hf, legal_consume.
    + rewrite Hi, Hf, fed_app, ended_app. cbn. now rewrite app_nil_r, orb_false_r.
  - exists 0. intros HH. inversion HH; subst.
    destruct HL as [Ho [m Hm]]. rewrite (CI_err' m EFuel _ E0) in Hm. congruence.
Qed.

Lemma shown_iff l o : legal l = true ->
  reaches (fun n => session_shows (run_session env n t v p (l ++ [Consume]))) o <->
  lim (fun m => r_shows (a_run m (fed l) (ended l))) o.
Proof.
  intros Hl.
  assert (M1 : mono (fun n => session_shows (run_session env n t v p (l ++ [Consume])))).
  { eapply mono_ext; [intros n; apply session_shows_a|]. apply mono_map; auto. apply a_session_mono. }
  assert (M2 : mono (fun m => a_run m (fed l) (ended l))) by apply mono_a_run.
  rewrite reaches_lim by assumption. split; intros [Ho [n Hn]].
  - rewrite session_shows_a in Hn.
    destruct (shown_run n l _ Hl eq_refl) as (o' & [Ho' [m Hm]] & HE).
    { intros E. rewrite E in Hn. cbn in Hn. congruence. }
    split; auto. exists m. rewrite Hm. congruence.
  - assert (HL : lim (fun m => a_run m (fed l) (ended l)) (a_run n (fed l) (ended l))).
    { split; eauto. intros E. rewrite E in Hn. cbn in Hn. congruence. }
    destruct (shown_ends l _ Hl HL) as [k Hk].
    destruct (shown_run k l _ Hl eq_refl Hk) as (o' & HL' & HE).
    rewrite (lim_unique _ _ _ M2 HL' HL), Hn in HE. split; auto.
    exists k. now rewrite session_shows_a.
Qed.

Theorem only_text l l' : legal l = true -> legal l' = true -> fed l = fed l' -> ended l = ended l' ->
  forall o, reaches (fun n => session_shows (run_session env n t v p (l ++ [Consume]))) o <->
            reaches (fun n => session_shows (run_session env n t v p (l' ++ [Consume]))) o.
Proof. intros H1 H2 H3 H4 o. rewrite !shown_iff by assumption. now rewrite H3, H4. Qed.

Theorem one_buffer l : legal l = true ->
  forall o, reaches (fun n => session_shows (run_session env n t v p (l ++ [Consume]))) o <->
            reaches (fun n => session_shows (run_session env n t v p [Feed (fed l) (ended l); Consume])) o.
Proof.
  intros H. apply (only_text l [Feed (fed l) (ended l)]); auto.
  - cbn. now destruct (ended l).
  - cbn. now rewrite app_nil_r.
  - cbn. now rewrite orb_false_r.
Qed.

Theorem asking_again l : legal l = true ->
  forall o, reaches (fun n => session_shows (run_session env n t v p (l ++ [Consume; Consume]))) o <->
            reaches (fun n => session_shows (run_session env n t v p (l ++ [Consume]))) o.
Proof.
  intros H o. change [Consume; Consume] with ([Consume] ++ [Consume]). rewrite app_assoc. apply only_text; auto.
  - exact (eq_trans (legal_consume l false) H).
  - rewrite fed_app. apply app_nil_r.
  - rewrite ended_app. apply orb_false_r.
Qed.

(** ** Nothing is undone *)

Lemma consume_calls_more n st w r st' w' :
  top_consume cs_ops env n t p st w = Done ((r, st'), w') -> exists k, w_trace w' = k ++ w_trace w.
Proof.
  intros E.
  pose proof (tlsim_consume_same cs_ops cs_ops eq (w_trace w) (fun e => e = EFuel) (ops_rel_eq _) (or_introl eq_refl) env n
    (top_ctx t) default_req (top_dst t) p st w (World (w_src w) (w_cells w) [])) as H.
  unfold top_consume in E. rewrite E in H. destruct H as (w2 & _ & _ & _ & H).
  - repeat split; reflexivity.
  - eauto.
Qed.

Lemma calls_call_more n l : forall s s', do_calls cs_ops cs_add env n t p l s = Done s' ->
  exists k, w_trace (s_world s') = k ++ w_trace (s_world s).
Proof.
  induction l as [|c l IH]; intros s s' E; cbn in E.
  - injection E as <-. now exists [].
  - destruct (do_call cs_ops cs_add env n t p c s) as [s1|] eqn:E1; [|discriminate]. cbn in E.
    destruct (IH _ _ E) as [k Hk]. assert (exists k, w_trace (s_world s1) = k ++ w_trace (s_world s)) as [k1 Hk1].
    { unfold do_call in E1. destruct (s_res s); [injection E1 as <-; now exists []|]. destruct c.
      - destruct (cs_add _ _ _); [|discriminate]. injection E1 as <-. now exists [].
      - destruct (top_consume _ _ _ _ _ _ _) as [[[r st'] w']|] eqn:T; [|discriminate].
        apply consume_calls_more in T. destruct r; injection E1 as <-; exact T. }
    exists (k ++ k1). rewrite Hk, Hk1. apply app_assoc.
Qed.

Lemma session_app n l1 l2 :
  run_session env n t v p (l1 ++ l2) = obind (run_session env n t v p l1) (do_calls cs_ops cs_add env n t p l2).
Proof.
  unfold run_session. destruct (top_create _ _ _ _) as [[st w]|]; [|reflexivity]. apply do_calls_app.
Qed.

Theorem calls_first n l l2 s s' :
  run_session env n t v p l = Done s -> run_session env n t v p (l ++ l2) = Done s' ->
  exists k, w_trace (s_world s') = k ++ w_trace (s_world s).
Proof. intros E E'. rewrite session_app, E in E'. exact (calls_call_more _ _ _ _ E'). Qed.

(** parse() over the text so far and anything more. *)
Lemma goes_on n l s rest m r w :
  run_session env n t v p l = Done s -> ended l = false -> parse env m t v p (fed l ++ rest) = Done (r, w) ->
  exists n' s', n <= n' /\ run_session env n' t v p l = Done s /\
    run_session env n' t v p (l ++ [Feed rest true; Consume]) = Done s' /\ s_res s' = Some r /\
    w_cells (s_world s') = w_cells w /\ w_trace (s_world s') = w_trace w.
Proof.
  intros E He P.
  assert (complete (l ++ [Feed rest true; Consume])) as Hc.
  { exists (l ++ [Feed rest true]). split; [now rewrite <- app_assoc|]. split.
    - clear -He. induction l as [|[b []|] l IH]; cbn in *; auto. discriminate.
    - rewrite ended_app. apply orb_true_r. }
  assert (reaches (fun m => parse_seen (parse env m t v p (fed l ++ rest))) (Done (r, w_cells w, w_trace w))) as HR.
  { apply reaches_lim.
    - eapply mono_ext; [intros k; apply parse_seen_a|]. apply mono_map; auto. apply mono_a_run.
    - split; [discriminate|]. exists m. now rewrite P. }
  assert (fed (l ++ [Feed rest true; Consume]) = fed l ++ rest) as HF by (rewrite fed_app; cbn; now rewrite app_nil_r).
  rewrite <- HF in HR. apply (cutting env t v p _ Hc (Done _)) in HR. destruct HR as [_ [n1 H1]].
  exists (max n n1).
  specialize (H1 (max n n1) ltac:(lia)). unfold session_seen in H1.
  destruct (run_session env (max n n1) t v p (l ++ _)) as [s'|] eqn:E2; [|discriminate].
  exists s'. destruct (s_res s') as [r'|] eqn:R; [|discriminate]. cbn in H1. injection H1 as -> H1 H2.
  repeat split; auto; try lia.
  apply (mono_lim _ n (Done s) (mono_session env t v p l)); auto; [discriminate|lia].
Qed.

Theorem parse_calls_first n l s rest m r w :
  run_session env n t v p l = Done s -> ended l = false -> parse env m t v p (fed l ++ rest) = Done (r, w) ->
  exists k, w_trace w = k ++ w_trace (s_world s).
Proof.
  intros E He P. destruct (goes_on _ _ _ _ _ _ _ E He P) as (n' & s' & _ & E1 & E2 & _ & _ & <-).
  exact (calls_first _ _ _ _ _ E1 E2).
Qed.

End Wait.

(** ** Collections only grow *)

Section Collection.
Context (env : nat -> option pat) (e : ty) (p : pat).
Context (Henv : every_action_in appends env) (Hp : every_action appends p).

Definition Rpast (xs : list val) (v1 v2 : val) : Prop := v1 = v2 /\ exists l, v1 = VColl (xs ++ l).

Lemma past_assign xs x : gcells (Rpast xs) (fun _ => False) (fun c => assign c (DRef 0 [] (TColl e)) x).
Proof.
  intros v1 v2 r (<- & l & ->). cbn [assign]. destruct (conv e x) as [y|]; cbn; auto.
  do 3 eexists. split; [reflexivity|]. split; [reflexivity|]. split; auto. exists (l ++ [y]). now rewrite app_assoc.
Qed.
Lemma past_act xs a : appends a -> ac_param a = true -> forall x v1 v2, Rpast xs v1 v2 ->
  fst (ac_fun a x v1) = fst (ac_fun a x v2) /\
  has_ty (TColl e) (snd (ac_fun a x v1)) = has_ty (TColl e) (snd (ac_fun a x v2)) /\
  (has_ty (TColl e) (snd (ac_fun a x v1)) = true -> Rpast xs (snd (ac_fun a x v1)) (snd (ac_fun a x v2))).
Proof.
  intros Ha Hb x v1 v2 (<- & l & ->). split; auto. split; auto. intros _. destruct (Ha Hb x (xs ++ l)) as [m Hm].
  split; auto. exists (l ++ m). now rewrite Hm, app_assoc.
Qed.

Lemma calls_grow n l s s' xs : do_calls cs_ops cs_add env n (TColl e) p l s = Done s' ->
  w_cells (s_world s) = [VColl xs] -> exists ys, w_cells (s_world s') = [VColl (xs ++ ys)].
Proof.
  intros E Hc.
  pose proof (both_calls env (TColl e) (Rpast xs) (fun _ => False) appends ltac:(discriminate) (past_assign xs)
    ltac:(intros v1 v2 r _; right; reflexivity) ltac:(intros f v1 v2 r _; right; reflexivity) (past_act xs) Henv p Hp n l s s) as H.
  rewrite E in H. destruct H as (s2 & E2 & _ & _ & _ & _ & v1 & v2 & H1 & H2 & <- & m & ->).
  - split; auto. split; auto. split; auto. split; auto. exists (VColl xs), (VColl xs). repeat split; auto.
    exists []. now rewrite app_nil_r.
  - eauto.
Qed.

Lemma session_collection n l s xs : run_session env n (TColl e) (VColl xs) p l = Done s ->
  exists ys, w_cells (s_world s) = [VColl (xs ++ ys)].
Proof.
  intros E.
  pose proof (both_session env (TColl e) (Rpast xs) (fun _ => False) appends ltac:(discriminate) (past_assign xs)
    ltac:(intros v1 v2 r _; right; reflexivity) ltac:(intros f v1 v2 r _; right; reflexivity) (past_act xs) Henv p Hp n l (VColl xs) (VColl xs)) as H.
  rewrite E in H. destruct H as (s2 & E2 & _ & _ & _ & _ & v1 & v2 & H1 & H2 & <- & m & ->).
  - split; auto. exists []. now rewrite app_nil_r.
  - eauto.
Qed.

Theorem elements_first n l l2 xs s s' :
  run_session env n (TColl e) (VColl xs) p l = Done s -> run_session env n (TColl e) (VColl xs) p (l ++ l2) = Done s' ->
  exists v v', w_cells (s_world s) = [v] /\ w_cells (s_world s') = [v'] /\ starts_with v v'.
Proof.
  intros E E'. destruct (session_collection _ _ _ _ E) as [ys H].
  rewrite session_app, E in E'. destruct (calls_grow _ _ _ _ _ E' H) as [zs H'].
  do 2 eexists. split; [exact H|]. split; [exact H'|]. do 2 eexists. split; reflexivity.
Qed.

Theorem parse_elements_first n l xs s rest m r w :
  run_session env n (TColl e) (VColl xs) p l = Done s -> ended l = false ->
  parse env m (TColl e) (VColl xs) p (fed l ++ rest) = Done (r, w) ->
  exists v v', w_cells (s_world s) = [v] /\ w_cells w = [v'] /\ starts_with v v'.
Proof.
  intros E He P. destruct (goes_on _ _ _ _ _ _ _ _ _ _ _ E He P) as (n' & s' & _ & E1 & E2 & _ & <- & _).
  exact (elements_first _ _ _ _ _ _ E1 E2).
Qed.
End Collection.
