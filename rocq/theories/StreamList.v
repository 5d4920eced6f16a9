(** A list between two elements is a parser for an element or a separator, started on the rest
    of the data above the mark of the list. *)
From Coq Require Import List ZArith Bool Arith Lia.
From Verif Require Import Base CharSet Source Dst Pattern Parser Session SourceProofs SourceHist SpecSource.
From Verif Require Import SpecSession SpecRun SpecValue SpecCollect SpecStream Rel Shift Safety Keep Limit Chunk SessionProofs PegSound Stream SkipFront.
Import ListNotations.

Definition above (A : list Z) (base : list nat) (b a : cursor) : Prop :=
  a_inp a = A ++ a_inp b /\ a_fin a = a_fin b /\ a_pos a = length A + a_pos b /\ a_stk a = map (plus (length A)) (a_stk b) ++ base.

Definition no_mark (e : err) : Prop := e = EUb UbMark.

Lemma above_ops A base : ops_rel_or no_mark (a_ops true) (a_ops true) (above A base).
Proof.
  assert (He : forall b a, above A base b a -> a_empty b = a_empty a).
  { intros b a (H1 & H2 & H3 & H4). unfold a_empty. rewrite H1, H3, app_length.
    destruct (length (a_inp b) <=? a_pos b) eqn:E.
    - apply Nat.leb_le in E. symmetry. apply Nat.leb_le. lia.
    - apply Nat.leb_gt in E. symmetry. apply Nat.leb_gt. lia. }
  split; intros b a Hb; pose proof Hb as (H1 & H2 & H3 & H4); cbn.
  - auto.
  - auto.
  - unfold a_next. rewrite H1, H3, nth_error_app2 by lia. replace (length A + a_pos b - length A) with (a_pos b) by lia. reflexivity.
  - unfold a_advance. rewrite <- (He b a Hb). destruct (a_empty b); cbn; auto. repeat split; cbn; auto. lia.
  - repeat split; cbn; auto. now rewrite H3, H4.
  - unfold a_commit. rewrite H4. destruct (a_stk b); cbn.
    + destruct base; cbn; unfold no_mark; auto.
    + repeat split; cbn; auto.
  - unfold a_cancel. rewrite H4. destruct (a_stk b); cbn.
    + destruct base; cbn; unfold no_mark; auto.
    + repeat split; cbn; auto.
Qed.

(** [w] is [b] above these marks, after these calls. *)
Definition on_top (A : list Z) (base : list nat) (tr : list event) (b w : world cursor) : Prop :=
  gRw (above A base) (fun x y => y = x ++ tr) b w.

Lemma skipn_add {A} p : forall x (l : list A), skipn p (skipn x l) = skipn (x + p) l.
Proof. induction x as [|x IH]; intros [|z l]; cbn; auto. apply skipn_nil. Qed.

Section One.
Context (env : nat -> option pat) (sk : pat) (t : ty).
Hypothesis Henv : forall id q, env id = Some q -> optfree q = true.
Hypothesis Hsk : optfree sk = true.
Notation ops := (a_ops true).
Notation C := (Ctx sk (top_dst t)).

Lemma tr_cons (tr : list event) e (a b : list event) : b = a ++ tr -> e :: b = (e :: a) ++ tr.
Proof. now intros ->. Qed.

Section Of.
Context (G : list Z) (rq : req) (d : dst) (p : pat).
Hypothesis Hp : optfree p = true.
Hypothesis Hd : dst_ok d 1.
Notation ST := (St false G false 1 [] 0).

Lemma one_create w0 : ST w0 ->
  match create ops C rq d p w0 with
  | Done (a, b) => created true false env G false 1 [] 0 sk p a b
  | Err e => okerr e
  end.
Proof.
  intros HS. pose proof (create_ok true false env G false C rq d p 1 [] 0 w0 (created true false env G false 1 [] 0 (c_skip C) p)) as HC.
  unfold wp in HC. destruct (create _ _ _ _ _ _) as [[]|]; auto.
Qed.

Lemma one_consume m a b : created true false env G false 1 [] 0 sk p a b ->
  match consume ops env m C rq d p a b with
  | Done ((r, a1), b2) => Post true false env G false 1 [] 0 sk p r a1 b2
  | Err e => okerr e
  end.
Proof.
  intros [K1 K2].
  pose proof (consume_safe true false env G false (or_introl eq_refl) (fun id q H => or_intror (Henv id q H)) m C rq d p a 1 [] 0 b
    (fun x w' => Post true false env G false 1 [] 0 sk p (fst x) (snd x) w')) as HP.
  unfold wp in HP. destruct (consume _ _ _ _ _ _ _ _ _) as [[[r a1] b2]|]; apply HP; auto.
  all: repeat split; auto; try (apply dst_cell_ok; lia); try (right; auto).
Qed.

Lemma ok_not_bad e : okerr e -> no_mark e -> False.
Proof. unfold okerr, no_mark. intros [->|[->|[->|[->| ->]]]] H; discriminate. Qed.

Lemma run_create A base tr b0 w0 a w : ST b0 -> on_top A base tr b0 w0 ->
  create ops C rq d p w0 = Done (a, w) ->
  exists b, create ops C rq d p b0 = Done (a, b) /\ created true false env G false 1 [] 0 sk p a b /\ on_top A base tr b w.
Proof.
  intros HS HT E. pose proof (one_create b0 HS) as HO.
  pose proof (glsim_create ops ops (above A base) (fun x y => y = x ++ tr) no_mark (above_ops A base)
     C rq d p b0 w0 HT) as HL.
  destruct (create ops C rq d p b0) as [[a' b]|e].
  - destruct HL as (w2 & E2 & K). rewrite E in E2. inversion E2; subst. exists b. auto.
  - destruct HL as [HL|HL]; [|rewrite E in HL; discriminate]. destruct (ok_not_bad e HO HL).
Qed.

Lemma run_consume A base tr m b a w r a1 w2 : created true false env G false 1 [] 0 sk p a b -> on_top A base tr b w ->
  consume ops env m C rq d p a w = Done ((r, a1), w2) ->
  exists b2, consume ops env m C rq d p a b = Done ((r, a1), b2) /\ Post true false env G false 1 [] 0 sk p r a1 b2 /\ on_top A base tr b2 w2.
Proof.
  intros HC HT E. pose proof (one_consume m a b HC) as HO.
  pose proof (glsim_consume_same ops ops (above A base) (fun x y => y = x ++ tr) no_mark (fun e a b => tr_cons tr e a b) (above_ops A base)
     (or_introl eq_refl) env m C rq d p a b w HT) as HL.
  destruct (consume ops env m C rq d p a b) as [[[r' a'] b2]|e].
  - destruct HL as (w3 & E2 & K). rewrite E in E2. inversion E2; subst. exists b2. auto.
  - destruct HL as [HL|HL]; [|rewrite E in HL; discriminate]. destruct (ok_not_bad e HO HL).
Qed.
End Of.
End One.

Section Lst.
Context (env : nat -> option pat) (sk : pat) (U : pat -> pat) (t : ty) (q sep : pat) (F : list Z) (v0 : val).
Hypothesis Henv : forall id q, env id = Some q -> optfree q = true.
Hypothesis Hsk : optfree sk = true.
Hypothesis HU : runs_as env t sk U.
Hypothesis Hq : optfree q = true.
Hypothesis Hsep : optfree sep = true.
Notation ops := (a_ops true).
Notation C := (Ctx sk (top_dst t)).
Notation D := (top_dst t).
Notation L := (PList q sep).

Definition alone (x : nat) (v : val) : world cursor := World (Cursor (skipn x F) false 0 []) [v] [].

Lemma alone_st x v : St false (skipn x F) false 1 [] 0 (alone x v).
Proof. split; cbn; auto. exists []. split; auto. Qed.

Lemma alone_inw x v : inw (alone x v).
Proof. repeat split; cbn; auto. lia. Qed.

Lemma one_inw rq d p m x v a b r a1 b2 : create ops C rq d p (alone x v) = Done (a, b) ->
  consume ops env m C rq d p a b = Done ((r, a1), b2) -> inw b2.
Proof.
  intros E1 E2.
  assert (inw b) as HI1.
  { eapply inw_lsim; [|exact (alone_inw x v)|exact E1]. apply lsim_create. apply inside_ops. }
  eapply inw_lsim; [|exact HI1|exact E2]. apply lsim_consume_same; [apply inside_ops|now left].
Qed.

Lemma run_does P m x v st b2 v' : a_run env t v P m (skipn x F) false = Done ((SUCCESS, st), b2) ->
  inw b2 -> a_inp (w_src b2) = skipn x F -> w_cells b2 = [v'] ->
  forall more, does env P t v (skipn x F ++ more) SUCCESS (skipn (x + a_pos (w_src b2)) F ++ more) v' (rev (w_trace b2)).
Proof.
  intros R1 HI Hi Hc more. destruct (run_answers _ _ _ _ _ _ _ _ R1 more) as (m3 & st3 & R2).
  pose proof (parse_sim env t v P m3 (skipn x F ++ more)) as HP. rewrite R2 in HP.
  destruct (parse env m3 t v P _) as [[r w]|] eqn:EP; [|destruct HP].
  destruct HP as (P1 & P2 & P3 & P4). cbn in P1, P2, P3, P4. subst r.
  exists m3, w. split; [exact EP|]. rewrite P3, P4, rev_involutive. split; [|auto].
  destruct P2 as (_ & _ & P2 & _). unfold left_at. rewrite P2. cbn. destruct HI as (_ & HI & _). rewrite Hi in *.
  rewrite skipn_app. replace (a_pos (w_src b2) - length (skipn x F)) with 0 by lia. cbn [skipn]. f_equal.
  apply skipn_add.
Qed.

Lemma once_run v m x a b r a1 b2 : create ops C list_req D q (alone x v) = Done (a, b) ->
  consume ops env m C list_req D q a b = Done ((r, a1), b2) -> r <> FAILURE ->
  exists m' st, a_run env t v (U (once q)) m' (skipn x F) false = Done ((r, st), b2).
Proof.
  intros E1 E2 Hr. apply (proj2 (HU (once q) v (skipn x F) r b2 I)). unfold raw_run, once. cbn [raw_create].
  change (repeat_req 1 1 default_req) with list_req. unfold bind, ret.
  change (World (Cursor (skipn x F) false 0 []) [v] []) with (alone x v). rewrite E1.
  exists (S m). cbn [consume consume_step]. unfold repeat_consume, bind.
  change (repeat_req 1 1 default_req) with list_req. rewrite E2. cbn [fst snd]. destruct r; [|congruence|]; eexists; reflexivity.
Qed.

Lemma discard_run v m x a b r a1 b2 : create ops C sep_req DNil sep (alone x v) = Done (a, b) ->
  consume ops env m C sep_req DNil sep a b = Done ((r, a1), b2) ->
  exists m' st, a_run env t v (U (Discard sep)) m' (skipn x F) false = Done ((r, st), b2).
Proof.
  intros E1 E2. apply (proj2 (HU (Discard sep) v (skipn x F) r b2 I)). unfold raw_run. cbn [raw_create]. unfold bind, ret.
  change (World (Cursor (skipn x F) false 0 []) [v] []) with (alone x v). rewrite E1.
  exists (S m). cbn [consume consume_step]. unfold forward_consume, bind.
  change default_req with sep_req. rewrite E2. eexists; reflexivity.
Qed.

(** What is going on behind [x], with [v] in the object and these calls made. *)
Definition underway (rq : req) (d : dst) (p : pat) (x : nat) (v : val) (k : list event) (w' : world cursor) : Prop :=
  exists a b m a' b', create ops C rq d p (alone x v) = Done (a, b) /\ consume ops env m C rq d p a b = Done ((PARTIAL, a'), b')
  /\ w_cells w' = w_cells b' /\ w_trace w' = w_trace b' ++ rev k.

Definition sofar (n y : nat) (v : val) (k : list event) : Prop :=
  forall more, elements env (U (once q)) (U (Discard sep)) t v0 (F ++ more) n (skipn y F ++ more) v k.
Definition sep_to (y : nat) (v1 : val) (x : nat) (v2 : val) (k : list event) : Prop :=
  forall more, parses env (U (Discard sep)) t SUCCESS (skipn y F ++ more) v1 (skipn x F ++ more) v2 k.

Definition concl (w' : world cursor) : Prop := exists n y v1 k1, y <= length F /\ sofar n y v1 k1 /\ oldest (w_src w') = y /\
  ((n = 0 /\ y = 0 /\ underway list_req D q y v1 k1 w')
   \/ (0 < n /\ underway sep_req DNil sep y v1 k1 w')
   \/ (0 < n /\ exists x v2 k2, y <= x <= length F /\ sep_to y v1 x v2 k2 /\ underway list_req D q x v2 (k1 ++ k2) w')).

Definition at_elem (n y : nat) v1 k1 x v2 k2 (a : pst) (b w : world cursor) : Prop :=
  y <= x <= length F /\ sofar n y v1 k1 /\ (n = 0 -> y = 0 /\ x = 0 /\ v2 = v1 /\ k2 = []) /\ (0 < n -> sep_to y v1 x v2 k2)
  /\ create ops C list_req D q (alone x v2) = Done (a, b) /\ created true false env (skipn x F) false 1 [] 0 sk q a b
  /\ on_top (firstn x F) [y] (rev (k1 ++ k2)) b w.

Definition at_sep (n y : nat) v1 k1 (a : pst) (b w : world cursor) : Prop :=
  y <= length F /\ 0 < n /\ sofar n y v1 k1
  /\ create ops C sep_req DNil sep (alone y v1) = Done (a, b) /\ created true false env (skipn y F) false 1 [] 0 sk sep a b
  /\ on_top (firstn y F) [y] (rev k1) b w.

Lemma st_done G w : St false G false 1 [] 0 w -> a_stk (w_src w) = [] /\ a_inp (w_src w) = G /\ a_fin (w_src w) = false /\ exists v, w_cells w = [v].
Proof.
  intros [C1 (m & C2 & C3) C4 C5]. cbn in C3. rewrite app_nil_r in C2. destruct m; [|discriminate]. repeat split; auto.
  destruct (w_cells w) as [|v [|]]; try discriminate. eauto.
Qed.

Lemma oldest_top A y tr b w : on_top A [y] tr b w -> oldest (w_src w) = y.
Proof. intros ((_ & _ & _ & H) & _). unfold oldest. rewrite H. apply last_last. Qed.

(** Behind what was read on its own, with no mark of its own left. *)
Lemma top_world x base tr b w v : x <= length F -> on_top (firstn x F) base tr b w -> inw b -> a_inp (w_src b) = skipn x F ->
  a_fin (w_src b) = false -> a_stk (w_src b) = [] -> w_cells b = [v] ->
  x + a_pos (w_src b) <= length F /\
  w = World (Cursor F false (x + a_pos (w_src b)) base) [v] (w_trace b ++ tr).
Proof.
  intros Hx ((K1 & K2 & K3 & K4) & K5 & K6) (_ & HI & _) Hi Hf Hk Hc. rewrite Hi, skipn_length in HI. split; [lia|].
  destruct w as [[i f p k] c tr']. cbn in *. rewrite Hk in K4. cbn in K4. rewrite Hi, firstn_skipn in K1.
  rewrite firstn_length, Nat.min_l in K3 by lia. congruence.
Qed.

Lemma alone_top y base v tr : y <= length F -> on_top (firstn y F) base tr (alone y v) (World (Cursor F false y base) [v] tr).
Proof.
  intros Hy. repeat split; cbn; auto. - symmetry. apply firstn_skipn. - rewrite firstn_length. lia.
Qed.

Lemma lloop m :
  (forall n y v1 k1 x v2 k2 a b w st w', at_elem n y v1 k1 x v2 k2 a b w ->
     consume ops env m C default_req D L (PListSt 0 a) w = Done ((PARTIAL, st), w') -> concl w') /\
  (forall n y v1 k1 a b w st w', at_sep n y v1 k1 a b w ->
     consume ops env m C default_req D L (PListSt 1 a) w = Done ((PARTIAL, st), w') -> concl w').
Proof.
  induction m as [|m [IH0 IH1]]; [split; intros; discriminate|]. split.
  - intros n y v1 k1 x v2 k2 a b w st w' (Hy & Hs & Hn0 & Hn1 & Ec & Hcr & HT) E.
    cbn [consume consume_step] in E. unfold list_consume in E. unfold bind at 1 in E.
    destruct (consume ops env m C list_req D q a w) as [[[r a1] w2]|] eqn:E1; [|discriminate]. cbn [fst snd] in E.
    destruct (run_consume env sk t Henv Hsk (skipn x F) list_req D q Hq (dst_cell_ok 0 t 1 ltac:(lia)) _ _ _ _ _ _ _ _ _ _ Hcr HT E1) as (b2 & E2 & HP & HT2).
    pose proof (one_inw _ _ _ _ _ _ _ _ _ _ _ Ec E2) as HI.
    destruct r.
    + destruct (st_done _ _ HP) as (S1 & S2 & S3 & v3 & S4).
      destruct (top_world x [y] _ b2 w2 v3 ltac:(lia) HT2 HI S2 S3 S1 S4) as [Hx ->].
      destruct (once_run _ _ _ _ _ _ _ _ Ec E2 ltac:(discriminate)) as (mr & st2 & R).
      pose proof (run_does (U (once q)) _ _ _ _ _ v3 R HI S2 S4) as HD.
      set (y' := x + a_pos (w_src b2)) in *.
      assert (sofar (S n) y' v3 (k1 ++ k2 ++ rev (w_trace b2))) as HS'.
      { intros more. specialize (Hs more). destruct n as [|n].
        - destruct (Hn0 eq_refl) as (-> & -> & -> & ->). inversion Hs; subst. cbn [app]. apply els_first. exact (HD more).
        - eapply els_next; [exact Hs|exact (Hn1 ltac:(lia) more)|exact (HD more)]. }
      unfold bind in E. unfold m_cancel, m_prepare, m_src in E. cbn in E.
      destruct (create ops C sep_req DNil sep _) as [[a' w3]|] eqn:E3; [|discriminate].
      edestruct (run_create env sk t (skipn y' F) sep_req DNil sep I) as (b3 & E4 & HC3 & HT3); [apply alone_st| |exact E3|].
      { apply alone_top. exact Hx. }
      refine (IH1 (S n) y' v3 _ a' b3 w3 st w' _ E). split; [exact Hx|]. split; [lia|]. split; [exact HS'|]. split; [exact E4|]. split; [exact HC3|].
      rewrite app_assoc, rev_app_distr, rev_involutive. exact HT3.
    + exfalso. unfold bind, ret in E. destruct (m_commit _ _) as [[]|]; discriminate.
    + inversion E; subst. exists n, y, v1, k1. split; [lia|]. split; [exact Hs|]. split; [exact (oldest_top _ _ _ _ _ HT2)|].
      assert (underway list_req D q x v2 (k1 ++ k2) w') as HW.
      { exists a, b, m, a1, b2. destruct HT2 as (_ & H1 & H2). auto. }
      destruct n as [|n].
      * left. destruct (Hn0 eq_refl) as (-> & -> & -> & ->). rewrite app_nil_r in HW. auto.
      * right. right. split; [lia|]. exists x, v2, k2. split; [lia|]. split; [apply Hn1; lia|exact HW].
  - intros n y v1 k1 a b w st w' (Hy & Hn & Hs & Ec & Hcr & HT) E.
    cbn [consume consume_step] in E. unfold list_consume in E. unfold bind at 1 in E.
    destruct (consume ops env m C sep_req DNil sep a w) as [[[r a1] w2]|] eqn:E1; [|discriminate]. cbn [fst snd] in E.
    destruct (run_consume env sk t Henv Hsk (skipn y F) sep_req DNil sep Hsep I _ _ _ _ _ _ _ _ _ _ Hcr HT E1) as (b2 & E2 & HP & HT2).
    pose proof (one_inw _ _ _ _ _ _ _ _ _ _ _ Ec E2) as HI.
    destruct r.
    + destruct (st_done _ _ HP) as (S1 & S2 & S3 & v2 & S4).
      destruct (top_world y [y] _ b2 w2 v2 ltac:(lia) HT2 HI S2 S3 S1 S4) as [Hx ->].
      destruct (discard_run _ _ _ _ _ _ _ _ Ec E2) as (mr & st2 & R).
      pose proof (run_does (U (Discard sep)) _ _ _ _ _ v2 R HI S2 S4) as HD.
      set (x := y + a_pos (w_src b2)) in *.
      unfold bind in E. destruct (create ops C list_req D q _) as [[a' w3]|] eqn:E3; [|discriminate].
      edestruct (run_create env sk t (skipn x F) list_req D q (dst_cell_ok 0 t 1 ltac:(lia))) as (b3 & E4 & HC3 & HT3); [apply alone_st| |exact E3|].
      { apply alone_top. exact Hx. }
      refine (IH0 n y v1 k1 x v2 (rev (w_trace b2)) a' b3 w3 st w' _ E). split; [lia|]. split; [exact Hs|]. split; [lia|]. split; [intros _; exact HD|].
      split; [exact E4|]. split; [exact HC3|]. rewrite rev_app_distr, rev_involutive. exact HT3.
    + exfalso. unfold bind, ret in E. destruct (m_commit _ _) as [[]|]; discriminate.
    + inversion E; subst. exists n, y, v1, k1. split; [lia|]. split; [exact Hs|]. split; [exact (oldest_top _ _ _ _ _ HT2)|].
      right. left. split; auto. exists a, b, m, a1, b2. destruct HT2 as (_ & H1 & H2). auto.
Qed.

(** The marks taken at creation are where it starts. *)
Lemma marks_zero rq d p v a b : create ops C rq d p (alone 0 v) = Done (a, b) ->
  a_pos (w_src b) = 0 /\ Forall (fun x => x = 0) (a_stk (w_src b)).
Proof.
  intros E. pose proof (neu_create F false C rq d p (World cursor0 [v] []) eq_refl) as HN. unfold neu_at in HN.
  change (ext F false (World cursor0 [v] [])) with (alone 0 v) in HN. rewrite E in HN.
  destruct (create ops C rq d p (World cursor0 [v] [])) as [[a' b0]|] eqn:E0; [|discriminate].
  destruct HN as [_ HN]. inversion HN; subst. cbn.
  assert (inw b0) as (_ & HO & HI).
  { eapply inw_lsim; [|exact (conj eq_refl (conj (le_n 0) (Forall_nil _)) : inw (World cursor0 [v] []))|exact E0]. apply lsim_create, inside_ops. }
  destruct (keeps_create ops (fun x y => a_inp y = a_inp x)
     (fun _ => eq_refl) (fun a b c (H1 : a_inp b = _) (H2 : a_inp c = _) => eq_trans H2 H1) (fun _ => eq_refl) C rq d p (World cursor0 [v] []) a' b0 E0) as [_ Hi].
  rewrite Hi in HI, HO. cbn in HI, HO. split; [lia|]. revert HI. apply Forall_impl. lia.
Qed.

(** A waiting run. *)
Lemma list_waits m st w' : a_run env t v0 (U L) m F false = Done ((PARTIAL, st), w') -> concl w'.
Proof.
  intros E0. destruct (proj1 (HU L v0 F PARTIAL w' I)) as (m0 & st0 & HR0); [eauto|]. clear E0.
  revert HR0. unfold raw_run. cbn [raw_create]. change (World (Cursor F false 0 []) [v0] []) with (alone 0 v0).
  unfold bind at 1. unfold bind at 1. destruct (create ops C list_req D q (alone 0 v0)) as [[a b]|] eqn:E; [|discriminate].
  unfold bind, m_prepare, m_src, ret. cbn [obind]. intros HR.
  pose proof (one_create env sk t (skipn 0 F) list_req D q (dst_cell_ok 0 t 1 ltac:(lia)) _ (alone_st 0 v0)) as HC. rewrite E in HC.
  destruct (marks_zero _ _ _ _ _ _ E) as [HP HZ].
  refine (proj1 (lloop m0) 0 0 v0 [] 0 v0 [] a b _ st0 w' _ HR).
  split; [lia|]. split; [intros more; apply els_none|]. split; [auto|]. split; [lia|]. split; [exact E|]. split; [exact HC|].
  repeat split; cbn; auto; [|now rewrite app_nil_r].
  rewrite HP. clear -HZ. induction HZ as [|x l -> HZ IH]; cbn; auto. now rewrite <- IH.
Qed.
End Lst.

Section Thm.
Context (env : nat -> option pat) (sk : pat) (U : pat -> pat) (t : ty) (v : val) (q sep : pat).
Hypothesis Henv : forall id q, env id = Some q -> optfree q = true.
Hypothesis Hsk : optfree sk = true.
Hypothesis HU : runs_as env t sk U.
Hypothesis Hq : optfree q = true.
Hypothesis Hsep : optfree sep = true.

Lemma run_way P vx m b k st b' (s : session cseq) (a : world cursor) : a_run env t vx P m b false = Done ((PARTIAL, st), b') ->
  w_cells (s_world s) = w_cells a -> w_trace (s_world s) = w_trace a ->
  w_cells a = w_cells b' -> w_trace a = w_trace b' ++ rev k -> under_way env P t vx b k s.
Proof.
  intros R H1 H2 H3 H4. destruct (run_waits env t vx _ _ _ _ _ R) as (m1 & s1 & G1 & G2 & G3 & G4).
  destruct (back_cs _ _ _ _ _ _ _ G1) as (z & Z1 & Z2 & Z3 & _ & Z4 & Z5).
  exists m1, z. split; [exact Z1|]. split; [congruence|]. rewrite H1, H2, Z4, Z5, G4. auto.
Qed.

Theorem list_holds n l s :
  run_session env n t v (U (PList q sep)) (l ++ [Consume]) = Done s -> s_res s = None ->
  exists c A B v1 k, fed l = A ++ B
   /\ (forall more, elements env (U (once q)) (U (Discard sep)) t v (A ++ B ++ more) c (B ++ more) v1 k)
   /\ ((c = 0 /\ under_way env (U (once q)) t v1 B k s)
       \/ (0 < c /\ under_way env (U (Discard sep)) t v1 B k s)
       \/ (0 < c /\ exists B1 B2 v2 k2, B = B1 ++ B2
           /\ (forall more, parses env (U (Discard sep)) t SUCCESS (B1 ++ B2 ++ more) v1 (B2 ++ more) v2 k2)
           /\ under_way env (U (once q)) t v2 B2 (k ++ k2) s))
   /\ map snd (cs_bufs (w_src (s_world s))) = reaching (length A) (buffers l).
Proof.
  intros E Hn.
  destruct (held_session env t v (U (PList q sep)) n (l ++ [Consume]) s E Hn) as (a & Ea & Hr & Hst & Hw).
  assert (buffers (l ++ [Consume]) = buffers l) as Hb.
  { clear. induction l as [|[[|x b] f|] l IH]; cbn; congruence. }
  rewrite Hb in Hw. rewrite Hn in Hr. symmetry in Hr.
  destruct (session_waits env t v _ n l a Ea Hr) as (m & Em).
  destruct (list_waits env sk U t q sep (fed l) v Henv Hsk HU Hq Hsep m _ _ Em) as (c & y & v1 & k & Hy & Hs & Ho & HC).
  destruct Hw as (W1 & W2 & W3).
  exists c, (firstn y (fed l)), (skipn y (fed l)), v1, k.
  split; [symmetry; apply firstn_skipn|]. split; [|split].
  - intros more. rewrite app_assoc, firstn_skipn. apply Hs.
  - destruct HC as [(-> & -> & HW)|[(Hc & HW)|(Hc & x & v2 & k2 & Hx & HS & HW)]].
    + left. split; auto. destruct HW as (a0 & b & m1 & a' & b' & U1 & U2 & U3 & U4).
      destruct (once_run env sk U t q (fed l) HU v1 _ _ _ _ _ _ _ U1 U2 ltac:(discriminate)) as (mr & st & R).
      apply (run_way _ _ _ _ _ _ _ s _ R W2 W3 U3 U4).
    + right. left. split; auto. destruct HW as (a0 & b & m1 & a' & b' & U1 & U2 & U3 & U4).
      destruct (discard_run env sk U t sep (fed l) HU v1 _ _ _ _ _ _ _ U1 U2) as (mr & st & R).
      apply (run_way _ _ _ _ _ _ _ s _ R W2 W3 U3 U4).
    + right. right. split; auto. destruct HW as (a0 & b & m1 & a' & b' & U1 & U2 & U3 & U4).
      destruct (once_run env sk U t q (fed l) HU v2 _ _ _ _ _ _ _ U1 U2 ltac:(discriminate)) as (mr & st & R).
      exists (firstn (x - y) (skipn y (fed l))), (skipn x (fed l)), v2, k2.
      assert (skipn (x - y) (skipn y (fed l)) = skipn x (fed l)) as Ex by (rewrite skipn_add; f_equal; lia).
      assert (skipn y (fed l) = firstn (x - y) (skipn y (fed l)) ++ skipn x (fed l)) as Es by (now rewrite <- Ex, firstn_skipn).
      split; [exact Es|]. split; [|apply (run_way _ _ _ _ _ _ _ s _ R W2 W3 U3 U4)].
      intros more. rewrite app_assoc, <- Es. apply HS.
  - rewrite (held_reaching _ _ _ W1), Ho. f_equal. rewrite firstn_length. lia.
Qed.
End Thm.

Theorem list_plain env t v q sep n l s :
  (forall id q, env id = Some q -> optfree q = true) -> optfree q = true -> optfree sep = true ->
  run_session env n t v (PList q sep) (l ++ [Consume]) = Done s -> s_res s = None ->
  exists c A B v1 k, fed l = A ++ B
   /\ (forall more, elements env (once q) (Discard sep) t v (A ++ B ++ more) c (B ++ more) v1 k)
   /\ ((c = 0 /\ under_way env (once q) t v1 B k s)
       \/ (0 < c /\ under_way env (Discard sep) t v1 B k s)
       \/ (0 < c /\ exists B1 B2 v2 k2, B = B1 ++ B2
           /\ (forall more, parses env (Discard sep) t SUCCESS (B1 ++ B2 ++ more) v1 (B2 ++ more) v2 k2)
           /\ under_way env (once q) t v2 B2 (k ++ k2) s))
   /\ map snd (cs_bufs (w_src (s_world s))) = reaching (length A) (buffers l).
Proof. intros H1 H2 H3. exact (list_holds env Fail (fun p => p) t v q sep H1 eq_refl (runs_plain env t) H2 H3 n l s). Qed.

Theorem list_under env T skp t v q sep n l s :
  (forall id q, env id = Some q -> optfree q = true) -> skipper1 T skp = true -> optfree q = true -> optfree sep = true ->
  run_session env n t v (WithSkipper (PList q sep) skp) (l ++ [Consume]) = Done s -> s_res s = None ->
  exists c A B v1 k, fed l = A ++ B
   /\ (forall more, elements env (WithSkipper (once q) skp) (WithSkipper (Discard sep) skp) t v (A ++ B ++ more) c (B ++ more) v1 k)
   /\ ((c = 0 /\ under_way env (WithSkipper (once q) skp) t v1 B k s)
       \/ (0 < c /\ under_way env (WithSkipper (Discard sep) skp) t v1 B k s)
       \/ (0 < c /\ exists B1 B2 v2 k2, B = B1 ++ B2
           /\ (forall more, parses env (WithSkipper (Discard sep) skp) t SUCCESS (B1 ++ B2 ++ more) v1 (B2 ++ more) v2 k2)
           /\ under_way env (WithSkipper (once q) skp) t v2 B2 (k ++ k2) s))
   /\ map snd (cs_bufs (w_src (s_world s))) = reaching (length A) (buffers l).
Proof.
  intros H1 H2 H3 H4. exact (list_holds env skp (under skp) t v q sep H1 (skipper_optfree T skp H2) (runs_under T env skp t H2) H3 H4 n l s).
Qed.
