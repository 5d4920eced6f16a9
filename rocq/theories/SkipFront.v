(** Skipping in front of a repetition, a list or something discarded makes no difference: the
    first thing in it skips as well. *)
From Coq Require Import List ZArith Bool Arith Lia.
From Verif Require Import Base CharSet Source Dst Pattern Parser Session Rel Big BigMk SpecCollect SpecPeg Limit Chunk SessionProofs PegSound Safety Keep Stream.
Import ListNotations.

Fixpoint takes1 (skp : pat) (z : Z) : bool :=
  match skp with
  | Char cs => is_valid cs z
  | Discard q | Lexeme q => takes1 q z
  | Alt l => existsb (fun q => takes1 q z) l
  | _ => false
  end.

Local Notation ops := (a_ops true).

Section Front.
Context (T : char_ty) (env : nat -> option pat).

Lemma skip_create skp : skipper1 T skp = true -> forall rq w, create_in ops None rq DNil skp w = Done (skip_st skp, w).
Proof.
  induction skp using pat_ind'; cbn [skipper1]; try discriminate; intros Hs rq w; cbn [create_in skip_st]; unfold adapt; cbn [f_clean f_atomic negb];
  rewrite ?andb_false_r; destruct (r_recur rq); auto.
  all: try (destruct l as [|q l]; [discriminate|]; cbn [forallb] in Hs; apply andb_prop in Hs as [Hq _]; inversion H; subst;
    unfold bind, ret; rewrite (H2 Hq); reflexivity).
  all: unfold bind, ret; rewrite (IHskp Hs); auto.
Qed.

Definition step (w : world cursor) : world cursor :=
  World (Cursor (a_inp (w_src w)) (a_fin (w_src w)) (S (a_pos (w_src w))) (a_stk (w_src w))) (w_cells w) (w_trace w).

(** What it does with the next character, if there is one. *)
Definition reads (skp : pat) (w : world cursor) (o : outcome ((result * pst) * world cursor)) : Prop :=
  if a_empty (w_src w) then o = Done ((PARTIAL, skip_st skp), w)
  else exists st, match a_next (w_src w) with
    | Done z => o = if takes1 skp z then Done ((SUCCESS, st), step w) else Done ((FAILURE, st), w)
    | Err e => False
    end.

Lemma nonempty_next w : a_empty (w_src w) = false -> exists z, a_next (w_src w) = Done z.
Proof.
  unfold a_empty, a_next. intros H. apply Nat.leb_gt in H. apply nth_error_Some in H.
  destruct (nth_error _ _); [cbn; eauto|congruence].
Qed.

Lemma skip_reads skp : skipper1 T skp = true -> forall rq w, a_fin (w_src w) = false ->
  exists n, forall m, n <= m -> reads skp w (consume ops env m skip_ctx rq DNil skp (skip_st skp) w).
Proof.
  induction skp using pat_ind'; cbn [skipper1]; try discriminate; intros Hs rq w Hf.
  - exists 1. intros [|m] Hm; [lia|]. cbn [consume consume_step skip_st]. unfold char_consume, reads, bind, m_empty, m_next, m_advance, m_assign.
    unfold starved, bind, m_final, ret. cbn. destruct (a_empty (w_src w)) eqn:E; cbn.
    + rewrite Hf. reflexivity.
    + destruct (nonempty_next w E) as [z Hz]. rewrite Hz. cbn. exists PLeaf. destruct (is_valid s z); cbn; auto.
      cbn. unfold m_src, a_advance. cbn. rewrite E. reflexivity.
  - assert (forall l0 q i, Forall (fun p => skipper1 T p = true -> forall rq w, a_fin (w_src w) = false ->
       exists n, forall m, n <= m -> reads p w (consume ops env m skip_ctx rq DNil p (skip_st p) w)) (q :: l0) -> forallb (skipper1 T) (q :: l0) = true ->
       exists n, forall m, n <= m ->
        if a_empty (w_src w) then alt_from ops (consume ops env m) skip_ctx rq DNil i q l0 (skip_st q) w = Done ((PARTIAL, PNary i (skip_st q)), w)
        else exists st, match a_next (w_src w) with
         | Done z => alt_from ops (consume ops env m) skip_ctx rq DNil i q l0 (skip_st q) w =
             if existsb (fun q => takes1 q z) (q :: l0) then Done ((SUCCESS, st), step w) else Done ((FAILURE, st), w)
         | Err e => False end) as HA.
    { clear -Hf. induction l0 as [|q' l0 IH]; intros q i HF Hl; cbn [forallb] in Hl; apply andb_prop in Hl as [Hq Hl]; inversion HF as [|? ? Hq' Hl']; subst.
      - destruct (Hq' Hq (alt_req rq) w Hf) as [n0 H0]. exists n0. intros m Hm. specialize (H0 m Hm). unfold reads in H0.
        cbn [alt_from existsb]. unfold bind. destruct (a_empty (w_src w)); [rewrite H0; reflexivity|].
        destruct H0 as [st H0]. destruct (a_next (w_src w)) as [z|]; [|contradiction]. exists (PNary i st). rewrite H0. now destruct (takes1 q z).
      - destruct (Hq' Hq (alt_req rq) w Hf) as [n0 H0]. destruct (IH q' (S i) Hl' Hl) as [n1 H1]. exists (max n0 n1). intros m Hm.
        specialize (H0 m ltac:(lia)). specialize (H1 m ltac:(lia)). unfold reads in H0.
        cbn [alt_from existsb]. unfold bind. destruct (a_empty (w_src w)); [rewrite H0; reflexivity|].
        destruct H0 as [st H0]. destruct (a_next (w_src w)) as [z|]; [|contradiction]. rewrite H0.
        destruct (takes1 q z); cbn [orb].
        + exists (PNary i st). reflexivity.
        + cbn [fst snd]. unfold create. change (mk_skip_of ops skip_ctx) with (@None (M cursor pst)).
          apply andb_prop in Hl as [Hl1 _]. rewrite (skip_create q' Hl1). exact H1. }
    destruct l as [|q l]; [discriminate|]. destruct (HA l q 0 H Hs) as [n Hn]. exists (S n). intros [|m] Hm; [lia|].
    cbn [consume consume_step skip_st]. unfold nary_enter. cbn [so_resumable a_ops negb andb skipn]. unfold reads. exact (Hn m ltac:(lia)).
  - destruct (IHskp Hs rq w Hf) as [n Hn]. exists (S n). intros [|m] Hm; [lia|]. specialize (Hn m ltac:(lia)).
    cbn [consume consume_step skip_st]. unfold forward_consume, bind, reads in *. cbn [takes1].
    destruct (a_empty (w_src w)); [rewrite Hn; reflexivity|]. destruct Hn as [st Hn]. exists (POne st).
    destruct (a_next (w_src w)); [|contradiction]. rewrite Hn. now destruct (takes1 skp a).
  - destruct (IHskp Hs rq w Hf) as [n Hn]. exists (S n). intros [|m] Hm; [lia|]. specialize (Hn m ltac:(lia)).
    cbn [consume consume_step skip_st]. unfold forward_consume, bind, reads in *. cbn [takes1]. change (Ctx Fail (c_bound skip_ctx)) with skip_ctx.
    destruct (a_empty (w_src w)); [rewrite Hn; reflexivity|]. destruct Hn as [st Hn]. exists (POne st).
    destruct (a_next (w_src w)); [|contradiction]. rewrite Hn. now destruct (takes1 skp a).
Qed.

Section One.
Context (skp : pat) (B : dst).
Hypothesis Hskp : skipper1 T skp = true.
Notation C := (Ctx skp B).
Notation ST0 := (skip_st skp).

Inductive skto : world cursor -> world cursor -> Prop :=
| skto_here w : skto w w
| skto_next w w' z : a_empty (w_src w) = false -> a_next (w_src w) = Done z -> takes1 skp z = true -> skto (step w) w' -> skto w w'.

Definition stops (w : world cursor) : Prop :=
  a_empty (w_src w) = false /\ exists z, a_next (w_src w) = Done z /\ takes1 skp z = false.

Lemma skto_end w : exists w2, skto w w2 /\ (a_empty (w_src w2) = true \/ stops w2).
Proof.
  remember (length (a_inp (w_src w)) - a_pos (w_src w)) as k eqn:Ek. revert w Ek. induction k as [k IH] using lt_wf_ind. intros w ->.
  destruct (a_empty (w_src w)) eqn:E; [exists w; split; [constructor|auto]|].
  destruct (nonempty_next w E) as [z Hz]. destruct (takes1 skp z) eqn:Et.
  - destruct (IH (length (a_inp (w_src (step w))) - a_pos (w_src (step w)))) with (w := step w) as (w2 & A & Hw); auto.
    + unfold a_empty in E. apply Nat.leb_gt in E. cbn. lia.
    + exists w2. split; auto. econstructor; eauto.
  - exists w. split; [constructor|]. right. split; eauto.
Qed.

Lemma skto_fin w w2 : skto w w2 -> a_fin (w_src w2) = a_fin (w_src w).
Proof. induction 1; auto. Qed.

Lemma skip_go n rq d p X w : a_fin (w_src w) = false ->
  consume ops env (S n) C rq d p (PSkip false ST0 X) w =
  bind (consume ops env n skip_ctx skip_req DNil skp ST0) (fun x =>
    match fst x with
    | SUCCESS => consume ops env n C rq d p (PSkip false ST0 X)
    | FAILURE => consume ops env n C rq d p (PSkip true (snd x) X)
    | PARTIAL => ret (PARTIAL, PSkip false (snd x) X)
    end) w.
Proof.
  intros Hf. cbn [consume consume_step]. unfold skip_consume, bind. cbn [c_skip].
  destruct (consume ops env n skip_ctx skip_req DNil skp ST0 w) as [[[r s'] w1]|]; auto. destruct r; auto.
  cbn [fst snd]. unfold create. change (mk_skip_of ops skip_ctx) with (@None (M cursor pst)).
  now rewrite (skip_create skp Hskp).
Qed.

Lemma skip_next rq d p X w z x : a_fin (w_src w) = false -> a_empty (w_src w) = false -> a_next (w_src w) = Done z -> takes1 skp z = true ->
  (exists m, consume ops env m C rq d p (PSkip false ST0 X) (step w) = Done x) <->
  (exists m, consume ops env m C rq d p (PSkip false ST0 X) w = Done x).
Proof.
  intros Hf He Hz Ht. destruct (skip_reads skp Hskp skip_req w Hf) as [n Hn]. unfold reads in Hn. rewrite He, Hz, Ht in Hn.
  split; intros [m E].
  - exists (S (max m n)). rewrite skip_go by exact Hf. unfold bind. destruct (Hn (max m n) ltac:(lia)) as [st ->]. cbn [fst].
    apply (consume_more _ _ _ _ _ _ _ _ _ _ _ E). lia.
  - exists (max m n). apply (consume_more _ _ _ (S (max m n))) in E; [|lia]. rewrite skip_go in E by exact Hf. unfold bind in E.
    destruct (Hn (max m n) ltac:(lia)) as [st Hs]. rewrite Hs in E. exact E.
Qed.

Lemma skip_moves rq d p X w w2 x : skto w w2 -> a_fin (w_src w) = false ->
  (exists m, consume ops env m C rq d p (PSkip false ST0 X) w2 = Done x) <->
  (exists m, consume ops env m C rq d p (PSkip false ST0 X) w = Done x).
Proof.
  induction 1; [reflexivity|]. intros Hf. rewrite IHskto by exact Hf. eapply skip_next; eauto.
Qed.

Lemma skip_starves rq d p X w : a_fin (w_src w) = false -> a_empty (w_src w) = true ->
  exists m, consume ops env m C rq d p (PSkip false ST0 X) w = Done ((PARTIAL, PSkip false ST0 X), w).
Proof.
  intros Hf He. destruct (skip_reads skp Hskp skip_req w Hf) as [n Hn]. unfold reads in Hn. rewrite He in Hn.
  exists (S n). rewrite skip_go by exact Hf. unfold bind. now rewrite (Hn n).
Qed.

Lemma skip_stops rq d p X w r w' : a_fin (w_src w) = false -> stops w ->
  (exists m st, consume ops env m C rq d p (PSkip false ST0 X) w = Done ((r, st), w')) <->
  (exists m st, consume ops env m C rq d p X w = Done ((r, st), w')).
Proof.
  intros Hf (He & z & Hz & Ht). destruct (skip_reads skp Hskp skip_req w Hf) as [n Hn]. unfold reads in Hn. rewrite He, Hz, Ht in Hn.
  split; intros (m & st & E).
  - apply (consume_more _ _ _ (S (S (max m n)))) in E; [|lia]. rewrite skip_go in E by exact Hf. unfold bind in E.
    destruct (Hn (S (max m n)) ltac:(lia)) as [s2 Hs]. rewrite Hs in E. cbn [fst snd consume consume_step] in E.
    unfold skip_consume, bind, ret in E. destruct (consume ops env (max m n) C rq d p X w) as [[[r1 s1] w1]|] eqn:E1; [|discriminate].
    cbn [fst snd] in E. injection E as -> _ ->. eauto.
  - destruct (Hn (S (max m n)) ltac:(lia)) as [s2 Hs]. exists (S (S (max m n))), (PSkip true s2 st). rewrite skip_go by exact Hf. unfold bind. rewrite Hs.
    cbn [fst snd consume consume_step]. unfold skip_consume, bind, ret.
    now rewrite (consume_more _ _ _ (max m n) _ _ _ _ _ _ _ E ltac:(lia)).
Qed.

(** What begins with something that skips. *)
Section Head.
Context (rq rq' : req) (d d' : dst) (p q : pat) (X a : pst) (K : nat -> result * pst -> M cursor (result * pst)).
Hypothesis Hhead : forall m w, consume ops env (S m) C rq d p X w = bind (consume ops env m C rq' d' q (PSkip false ST0 a)) (K m) w.
Hypothesis Hwait : forall m a' w, exists st, K m (PARTIAL, a') w = Done ((PARTIAL, st), w).

Lemma head_sub w w2 x : 
  (forall y, (exists m, consume ops env m C rq' d' q (PSkip false ST0 a) w2 = Done y) ->
             (exists m, consume ops env m C rq' d' q (PSkip false ST0 a) w = Done y)) ->
  (exists m, consume ops env m C rq d p X w2 = Done x) -> (exists m, consume ops env m C rq d p X w = Done x).
Proof.
  intros H [[|m] E]; [discriminate|]. pose proof E as E0. rewrite Hhead in E0. unfold bind in E0.
  destruct (consume ops env m C rq' d' q (PSkip false ST0 a) w2) as [[y w3]|] eqn:E1; [|discriminate].
  destruct (H (y, w3)) as [m1 E2]; [eauto|]. exists (S (max m m1)).
  apply (consume_more _ _ _ (S (max m m1))) in E; [|lia]. rewrite Hhead in E |- *. unfold bind in *.
  rewrite (consume_more _ _ _ (max m m1) _ _ _ _ _ _ _ E1 ltac:(lia)) in E.
  now rewrite (consume_more _ _ _ (max m m1) _ _ _ _ _ _ _ E2 ltac:(lia)).
Qed.

Lemma head_moves w w2 x : skto w w2 -> a_fin (w_src w) = false ->
  (exists m, consume ops env m C rq d p X w2 = Done x) <-> (exists m, consume ops env m C rq d p X w = Done x).
Proof.
  intros H Hf. split; apply head_sub; intros y; now apply (skip_moves rq' d' q a w w2 y H Hf).
Qed.

Lemma head_skips w r w' : a_fin (w_src w) = false ->
  (exists m st, consume ops env m C rq d p (PSkip false ST0 X) w = Done ((r, st), w')) <->
  (exists m st, consume ops env m C rq d p X w = Done ((r, st), w')).
Proof.
  intros Hf. destruct (skto_end w) as (w2 & Hs & Hw). pose proof (skto_fin _ _ Hs) as Hf2. rewrite Hf in Hf2.
  destruct Hw as [He|Hst].
  - destruct (skip_starves rq d p X w2 Hf2 He) as [m1 E1]. destruct (skip_starves rq' d' q a w2 Hf2 He) as [m2 E2].
    destruct (proj1 (skip_moves rq d p X w w2 _ Hs Hf) (ex_intro _ m1 E1)) as [m3 E3].
    assert (exists m st, consume ops env m C rq d p X w2 = Done ((PARTIAL, st), w2)) as (m4 & st4 & E4).
    { destruct (Hwait m2 (PSkip false ST0 a) w2) as [st H]. exists (S m2), st. rewrite Hhead. unfold bind. now rewrite E2. }
    destruct (proj1 (head_moves w w2 _ Hs Hf) (ex_intro _ m4 E4)) as [m5 E5].
    split; intros (m & st & E).
    + apply (consume_more _ _ _ (max m m3)) in E; [|lia]. apply (consume_more _ _ _ (max m m3)) in E3; [|lia].
      rewrite E in E3. injection E3 as -> _ ->. eauto.
    + apply (consume_more _ _ _ (max m m5)) in E; [|lia]. apply (consume_more _ _ _ (max m m5)) in E5; [|lia].
      rewrite E in E5. injection E5 as -> _ ->. eauto.
  - split; intros (m & st & E).
    + destruct (proj2 (skip_moves rq d p X w w2 _ Hs Hf) (ex_intro _ m E)) as [m1 E1].
      destruct (proj1 (skip_stops rq d p X w2 r w' Hf2 Hst)) as (m2 & st2 & E2); [eauto|].
      destruct (proj1 (head_moves w w2 _ Hs Hf) (ex_intro _ m2 E2)) as [m3 E3]. eauto.
    + destruct (proj2 (head_moves w w2 _ Hs Hf) (ex_intro _ m E)) as [m1 E1].
      destruct (proj2 (skip_stops rq d p X w2 r w' Hf2 Hst)) as (m2 & st2 & E2); [eauto|].
      destruct (proj1 (skip_moves rq d p X w w2 _ Hs Hf) (ex_intro _ m2 E2)) as [m3 E3]. eauto.
Qed.
End Head.
End One.

Lemma create_skips skp B rq d q w a w' : skipper1 T skp = true -> r_recur rq = false ->
  create ops (Ctx skp B) rq d q w = Done (a, w') -> exists b, a = PSkip false (skip_st skp) b.
Proof.
  intros Hs Hr. unfold create, mk_skip_of. cbn [c_skip]. rewrite (skipper1_fail T _ Hs).
  assert (forall raw, adapt ops (Some (create_in ops None skip_req DNil skp)) rq d q raw w = Done (a, w') -> exists b, a = PSkip false (skip_st skp) b) as HA.
  { intros raw. unfold adapt. rewrite Hr. unfold bind at 1. rewrite (skip_create skp Hs). unfold bind, ret.
    match goal with |- match ?X with _ => _ end = _ -> _ => destruct X as [[]|] end; intros E; inversion E; eauto. }
  destruct q; cbn [create_in]; apply HA.
Qed.

Lemma skipper_optfree skp : skipper1 T skp = true -> optfree skp = true.
Proof.
  induction skp using pat_ind'; cbn [skipper1 optfree]; try discriminate; auto. intros Hs.
  destruct l as [|a l]; [discriminate|]. revert H Hs. generalize (a :: l). clear a l. induction 1; cbn; auto.
  intros Hs. apply andb_prop in Hs as [H1 H2]. now rewrite H, IHForall.
Qed.

Theorem runs_under skp t : skipper1 T skp = true -> runs_as env t skp (under skp).
Proof.
  intros Hs p v F r w' Hp. unfold a_run, raw_run, top_run, under. unfold bind at 1.
  assert (top_create ops t (WithSkipper p skp) (World (Cursor F false 0 []) [v] []) =
    bind (raw_create skp t p) (fun st => ret (POne (PSkip false (skip_st skp) st))) (World (Cursor F false 0 []) [v] [])) as ->.
  { unfold top_create, create. change (mk_skip_of ops (top_ctx t)) with (@None (M cursor pst)).
    cbn [create_in]. unfold adapt at 1. cbn [default_req r_recur r_atomic r_clean andb]. rewrite (skipper1_fail T _ Hs).
    unfold bind at 1.
    destruct p; try contradiction; cbn [create_in raw_create]; unfold adapt; cbn [default_req r_recur r_atomic r_clean r_consumes andb];
    unfold bind, ret; rewrite (skip_create skp Hs); unfold create, mk_skip_of; cbn [c_skip]; rewrite (skipper1_fail T _ Hs);
    cbn [top_dst]; match goal with |- context [create_in ops (Some ?k) ?rq ?d ?q ?w] => destruct (create_in ops (Some k) rq d q w) as [[]|] eqn:EX end; try change sep_req with default_req; rewrite ?EX; reflexivity. }
  unfold bind, ret. destruct (raw_create skp t p _) as [[st w]|] eqn:Ec; [|split; intros (m & st & E); discriminate].
  assert (a_fin (w_src w) = false) as Hf.
  { destruct p; try contradiction; cbn [raw_create] in Ec; unfold bind, ret in Ec;
    (destruct (create ops _ _ _ _ _) as [[a1 w1]|] eqn:E1; [|discriminate]);
    match goal with E1 : create ops ?cx ?rqx ?dx ?qx ?wx = _ |- _ => 
      destruct (keeps_create ops (fun x y => a_fin y = a_fin x)
       (fun _ => eq_refl) (fun a b c (H1 : a_fin b = _) (H2 : a_fin c = _) => eq_trans H2 H1) (fun _ => eq_refl) cx rqx dx qx wx a1 w1 E1) as [_ Hf1] end;
    inversion Ec; subst; auto. }
  assert ((exists m st', consume ops env m (Ctx skp (top_dst t)) default_req (top_dst t) p (PSkip false (skip_st skp) st) w = Done ((r, st'), w')) <->
          (exists m st', consume ops env m (Ctx skp (top_dst t)) default_req (top_dst t) p st w = Done ((r, st'), w'))) as HE.
  { destruct p; try contradiction; cbn [raw_create] in Ec; unfold bind, ret in Ec;
    (destruct (create ops _ _ _ _ _) as [[a1 w1]|] eqn:E1; [|discriminate]);
    (eapply create_skips in E1 as HX; [|exact Hs|reflexivity]); destruct HX as [b ->]; inversion Ec; subst; clear Ec.
    - eapply head_skips; [exact Hs|intros m w0; cbn [consume consume_step]; unfold repeat_consume; reflexivity| |exact Hf].
      intros m a' w0. eexists. reflexivity.
    - eapply head_skips; [exact Hs|intros m w0; cbn [consume consume_step]; unfold forward_consume; reflexivity| |exact Hf].
      intros m a' w0. eexists. reflexivity.
    - eapply head_skips; [exact Hs|intros m w0; cbn [consume consume_step]; unfold list_consume; reflexivity| |exact Hf].
      intros m a' w0. eexists. reflexivity. }
  rewrite <- HE. unfold top_consume. split; intros (m & st' & E).
  - destruct m as [|m]; [discriminate|]. cbn [consume consume_step] in E. unfold forward_consume, bind, ret in E.
    change (Ctx skp (c_bound (top_ctx t))) with (Ctx skp (top_dst t)) in E.
    destruct (consume ops env m _ _ _ _ _ w) as [[[r1 s1] w1]|] eqn:E1; [|discriminate]. cbn [fst snd] in E. injection E as -> _ ->. eauto.
  - exists (S m), (POne st'). cbn [consume consume_step]. unfold forward_consume, bind, ret.
    change (Ctx skp (c_bound (top_ctx t))) with (Ctx skp (top_dst t)). now rewrite E.
Qed.
End Front.
