(** The combinators, in terms of what parse() does with the parts. *)
From Coq Require Import List ZArith Bool Arith Lia.
From Verif Require Import Base CharSet Source Dst Pattern Parser Session Rel Safety Limit SpecSession SessionThms.
From Verif Require Import Big BigMk BigLeaf BigSound BigComplete SpecPeg Leaf PegSound PegTerm SpecRun Run.
Import ListNotations.

Section Upto.
Context (env : nat -> option pat) (ws : gap).
Notation m := (m env).

Definition rel (r r' : option (list Z)) : Prop :=
  match r, r' with
  | Some s, Some s' => eqt ws s s'
  | None, None => True
  | _, _ => False
  end.
Lemma rel_refl r : rel r r. Proof. destruct r; cbn; auto with eqt. Qed.
Lemma rel_trans a b c : rel a b -> rel b c -> rel a c.
Proof. destruct a, b, c; cbn; try tauto. eauto with eqt. Qed.
Hint Resolve rel_refl rel_trans : core.

(** Only what is left after skipping matters. *)
Lemma m_eqt ws0 g s r : m ws0 g s r -> ws0 = ws -> forall s2, eqt ws s s2 -> exists r2, m ws g s2 r2 /\ rel r r2.
Proof.
  unfold eqt.
  induction 1; intros -> s9 E;
  repeat match goal with IH : ws = ws -> _ |- _ => specialize (IH eq_refl) end.
  all: try (rewrite E in *; eexists; split; [econstructor; eauto; fail|cbn; auto with eqt; fail]; fail).
  all: try (rewrite E; eexists; split; [econstructor; eauto; fail|auto; fail]; fail).
  all: try (destruct (IHm _ E) as (r2 & A & B); eexists; split; [econstructor; eauto; fail|eauto; fail]; fail).
  all: try (destruct (IHm _ E) as ([r2|] & A & B); cbn in B; try contradiction; eexists; split; [econstructor; eauto; fail|cbn; auto; fail]; fail).
  all: try (destruct (IHm1 _ E) as ([r2|] & A & B); cbn in B; try contradiction;
            destruct (IHm2 _ B) as (r3 & A' & B'); eexists; split; [econstructor; eauto; fail|eauto; fail]; fail).
  all: try (destruct (IHm1 _ E) as ([r2|] & A & B); cbn in B; try contradiction;
            destruct (IHm2 _ E) as (r3 & A' & B'); eexists; split; [econstructor; eauto; fail|eauto; fail]; fail).
  - exists (Some s9). split; [constructor|exact E].
  - exists None. split; [constructor|exact I].
  - exists (Some s9). split; [constructor|exact E].
  - exists None. split; [constructor|exact I].
  - destruct (IHm _ E) as ([r2|] & A & B); cbn in B; try contradiction.
    exists (if lo <=? n then Some s9 else None). split; [now constructor|]. destruct (lo <=? n); cbn; auto.
  - destruct (IHm1 _ E) as ([r2|] & A & B); cbn in B; try contradiction.
    destruct (IHm2 _ B) as ([r3|] & A' & B'); cbn in B'; try contradiction.
    exists (Some s9). split; [eapply m_more_trailing; eauto|exact E].
  - destruct (IHm1 _ E) as ([r2|] & A & B); cbn in B; try contradiction.
    destruct (IHm2 _ B) as ([r3|] & A' & B'); cbn in B'; try contradiction.
    destruct (IHm3 _ B') as (r4 & A'' & B''). exists r4. split; [eapply m_more; eauto|auto].
Qed.

(** The answer of the grammar, up to text to be skipped. *)
Definition G : answer := fun p s r => exists r', m ws (One p) s r' /\ rel r r'.

Lemma G_eqt p s s2 r : G p s r -> eqt ws s s2 -> G p s2 r.
Proof. intros (r' & H & R) E. destruct (m_eqt _ _ _ _ H eq_refl _ E) as (r2 & A & B). exists r2. eauto. Qed.
Lemma G_rel p s r r2 : G p s r -> rel r2 r -> G p s r2.
Proof. intros (r' & H & R) E. exists r'. eauto. Qed.

Lemma G_none p s : G p s None -> m ws (One p) s None.
Proof. intros ([|] & H & R); cbn in R; try contradiction; auto. Qed.
Lemma G_some p s t : G p s (Some t) -> exists t', m ws (One p) s (Some t') /\ eqt ws t t'.
Proof. intros ([t'|] & H & R); cbn in R; try contradiction; eauto. Qed.

Lemma G_through l : forall s r s0, through G l s r -> eqt ws s s0 -> exists r', m ws (All l) s0 r' /\ rel r r'.
Proof.
  intros s r s0 H. revert s0. induction H; intros s9 E.
  - exists (Some s9). split; [constructor|exact E].
  - exists None. split; [|exact I]. apply m_all_no. apply G_none. eapply G_eqt; eauto.
  - destruct (G_some p s9 s1) as (t & A & B); [eapply G_eqt; eauto|].
    destruct (IHthrough _ B) as (r' & C & D). exists r'. split; auto. eapply m_all; eauto.
Qed.
Lemma G_seq l s r : through G l s r -> G (Seq l) s r.
Proof. intros H. destruct (G_through l s r s H (eqt_refl _ _)) as (r' & A & B). exists r'. split; auto. now constructor. Qed.

Lemma G_first l s r : first G l s r -> exists r', m ws (Any l) s r' /\ rel r r'.
Proof.
  induction 1.
  - exists None. split; [constructor|exact I].
  - destruct (G_some _ _ _ H) as (t & A & B). exists (Some t). split; auto. now constructor.
  - destruct IHfirst as (r' & A & B). exists r'. split; auto. apply m_any_next; auto. now apply G_none.
Qed.
Lemma G_alt l s r : first G l s r -> G (Alt l) s r.
Proof. intros H. destruct (G_first l s r H) as (r' & A & B). exists r'. split; auto. now constructor. Qed.

Lemma G_row p lo hi r : forall n s s' k s9,
  in_a_row (fun a b => G p a (Some b)) n s s' -> eqt ws s s9 -> (hi = 0 \/ k + n < hi) ->
  (forall u, eqt ws s' u -> exists r', m ws (Times lo hi (k + n) p) u r' /\ rel r r') ->
  exists r', m ws (Times lo hi k p) s9 r' /\ rel r r'.
Proof.
  induction n; intros s s' k s9 H E Hn HK; inversion H; subst.
  - apply HK in E. now rewrite Nat.add_0_r in E.
  - destruct (G_some p s9 s1) as (t & A & B); [eapply G_eqt; eauto|].
    destruct (IHn s1 s' (S k) t H2 B) as (r' & C & D); [lia|now rewrite Nat.add_succ_comm|].
    exists r'. split; auto. eapply m_times; eauto. lia.
Qed.

Lemma row_last (R : list Z -> list Z -> Prop) n : forall s s',
  in_a_row R (S n) s s' -> exists u, in_a_row R n s u /\ R u s'.
Proof.
  induction n; intros s s' H; inversion H; subst.
  - inversion H2; subst. exists s. split; [constructor|auto].
  - destruct (IHn _ _ H2) as (u & A & B). exists u. split; auto. econstructor; eauto.
Qed.

Lemma G_repeat lo hi p s r : greedy G lo hi p s r -> G (Repeat lo hi p) s r.
Proof.
  intros (n & s' & H & [(Hh & -> & ->)|(Hh & HN & ->)]).
  - destruct hi as [|k]; [congruence|]. apply row_last in H. destruct H as (u & H & Hu).
    destruct (G_row p lo (S k) (Some s') k s u 0 s) as (r' & A & B); auto with eqt.
    + intros z Ez. destruct (G_some p z s') as (t & C & D); [eapply G_eqt; eauto|].
      exists (Some t). split; auto. apply m_times_full; auto.
    + exists r'. split; auto. now constructor.
  - destruct (G_row p lo hi (if lo <=? n then Some s' else None) n s s' 0 s) as (r' & A & B); auto with eqt.
    + intros z Ez. exists (if lo <=? n then Some z else None). split.
      * apply m_times_stop. apply G_none. eapply G_eqt; eauto.
      * destruct (lo <=? n); cbn; auto.
    + exists r'. split; auto. now constructor.
Qed.

Lemma G_not p s r : G p s r -> G (Not p) s (match r with Some _ => None | None => Some s end).
Proof.
  intros H. destruct r.
  - destruct (G_some _ _ _ H) as (t & A & B). exists None. split; [eapply m_not; eauto|exact I].
  - exists (Some s). split; [apply m_not_no; now apply G_none|apply rel_refl].
Qed.
Lemma G_opt p s r : G p s r -> G (Opt p) s (match r with Some t => Some t | None => Some s end).
Proof.
  intros H. destruct r.
  - destruct (G_some _ _ _ H) as (t & A & B). exists (Some t). split; [eapply m_opt; eauto|exact B].
  - exists (Some s). split; [apply m_opt_no; now apply G_none|apply rel_refl].
Qed.
Lemma G_except p q s : (forall t, G q s (Some t) -> G (Except p q) s None) /\
  (forall r, G q s None -> G p s r -> G (Except p q) s r).
Proof.
  split.
  - intros t H. destruct (G_some _ _ _ H) as (t' & A & B). exists None. split; [eapply m_except; eauto|exact I].
  - intros r H (r' & A & B). exists r'. split; auto. apply m_except_no; auto. now apply G_none.
Qed.

Lemma G_more p sep n : forall s s' s9,
  in_a_row (fun a b => exists c, G sep a (Some c) /\ G p c (Some b)) n s s' -> eqt ws s s9 ->
  (G sep s' None \/ exists c, G sep s' (Some c) /\ G p c None) ->
  exists t, m ws (More p sep) s9 (Some t) /\ eqt ws s' t.
Proof.
  induction n; intros s s' s9 H E HN; inversion H; subst.
  - exists s9. split; auto. destruct HN as [HN|(c & H1 & H2)].
    + apply m_more_end. apply G_none. eapply G_eqt; eauto.
    + destruct (G_some sep s9 c) as (t & A & B); [eapply G_eqt; eauto|].
      eapply m_more_trailing; eauto. apply G_none. eapply G_eqt; eauto.
  - destruct H1 as (c & H1 & H1').
    destruct (G_some sep s9 c) as (t & A & B); [eapply G_eqt; eauto|].
    destruct (G_some p t s1) as (t2 & A2 & B2); [eapply G_eqt; eauto|].
    destruct (IHn _ _ _ H2 B2 HN) as (t3 & A3 & B3). exists t3. split; auto. eapply m_more; eauto.
Qed.
Lemma G_list p sep s s' : listed G p sep s s' -> G (PList p sep) s (Some s').
Proof.
  intros [[H ->]|(s0 & n & H & HR & HN)].
  - exists (Some s). split; [apply m_list_none; now apply G_none|apply rel_refl].
  - destruct (G_some _ _ _ H) as (t & A & B). destruct (G_more p sep n _ _ _ HR B HN) as (t2 & A2 & B2).
    exists (Some t2). split; [eapply m_list; eauto|exact B2].
Qed.

End Upto.

(** ** Mapping the answers of the parts *)

Lemma through_map (R R2 : answer) (I : list Z -> Prop) l : (forall p, In p l -> forall s r, I s -> R p s r -> R2 p s r /\ (forall t, r = Some t -> I t)) ->
  forall s r, I s -> through R l s r -> through R2 l s r.
Proof.
  intros HH s r Hs H. induction H.
  - constructor.
  - apply thr_no. apply (HH p); auto. now left.
  - destruct (HH p (or_introl eq_refl) s (Some s1) Hs H) as [A B].
    apply (thr_next R2 p l s s1); auto. apply IHthrough; auto. intros q Hq. apply HH. now right.
Qed.
Lemma first_map (R R2 : answer) l s : (forall p, In p l -> forall r, R p s r -> R2 p s r) ->
  forall r, first R l s r -> first R2 l s r.
Proof.
  intros HH r H. induction H.
  - constructor.
  - apply fst_yes. apply HH; auto. now left.
  - apply fst_next; [apply HH; auto; now left|]. apply IHfirst. intros q Hq. apply HH. now right.
Qed.
Lemma row_map (R R2 : list Z -> list Z -> Prop) (I : list Z -> Prop) : (forall a b, I a -> R a b -> R2 a b /\ I b) ->
  forall n s s', I s -> in_a_row R n s s' -> in_a_row R2 n s s' /\ I s'.
Proof.
  intros HH n. induction n; intros s s' Hs H; inversion H; subst.
  - split; [constructor|auto].
  - destruct (HH _ _ Hs H1) as [A B]. destruct (IHn _ _ B H2) as [C D]. split; auto. econstructor; eauto.
Qed.

(** ** The parts of a pattern considered are considered too *)

Definition inclass (T : char_ty) (sk : bool) (p : pat) : bool := mok false default_req p && peg_ok T sk default_req p.

Lemma inclass_part T sk h rq q : r_recur rq = false -> mok h rq q = true -> peg_ok T sk rq q = true -> inclass T sk q = true.
Proof.
  intros Hr H1 H2. unfold inclass. apply andb_true_iff. assert (weaker default_req rq) as W by (unfold weaker; cbn; intuition).
  split.
  - eapply mok_weak; [|exact W|exact H1]. discriminate.
  - eapply (peg_weak T sk q h h); eauto.
Qed.

Ltac parts :=
  intros HC; unfold inclass in HC; cbn [mok peg_ok] in HC; rewrite ?andb_true_iff, ?forallb_forall in HC;
  repeat match goal with H : _ /\ _ |- _ => destruct H end;
  repeat match goal with |- _ /\ _ => split end; intros;
  match goal with |- inclass _ _ ?q = true =>
    match goal with H : context [mok ?h ?rq q] |- _ => apply (inclass_part _ _ h rq)
                  | H : forall x, In x _ -> mok ?h ?rq x = true |- _ => apply (inclass_part _ _ h rq) end end; auto.

Lemma class_seq T sk l : inclass T sk (Seq l) = true -> forall p, In p l -> inclass T sk p = true.
Proof. parts. Qed.
Lemma class_alt T sk l : inclass T sk (Alt l) = true -> forall p, In p l -> inclass T sk p = true.
Proof. parts. Qed.
Lemma class_repeat T sk lo hi q : inclass T sk (Repeat lo hi q) = true -> inclass T sk q = true.
Proof. parts. Qed.
Lemma class_not T sk q : inclass T sk (Not q) = true -> inclass T sk q = true.
Proof. parts. Qed.
Lemma class_opt T sk q : inclass T sk (Opt q) = true -> inclass T sk q = true.
Proof. parts. Qed.
Lemma class_except T sk q neg : inclass T sk (Except q neg) = true -> inclass T sk q = true /\ inclass T sk neg = true.
Proof. parts. Qed.
Lemma class_list T sk q sep : inclass T sk (PList q sep) = true -> inclass T sk q = true /\ inclass T sk sep = true.
Proof. parts. Qed.

(** ** From the parts to the whole *)

Section Gen.
Context (env : nat -> option pat) (T : char_ty) (sk : bool) (ws : gap) (Say Ob : answer).
Notation toks := (Forall (tok T)).
Notation G := (G env ws).
Hypothesis HSay : forall p s r, inclass T sk p = true -> toks s -> Say p s r -> G p s r /\ (forall t, r = Some t -> toks t).
Hypothesis HOb : forall p s r, inclass T sk p = true -> toks s -> G p s r -> Ob p s r.

Lemma gen_seq l s r : inclass T sk (Seq l) = true -> toks s -> through Say l s r -> Ob (Seq l) s r.
Proof.
  intros HC Hs H. apply HOb; auto. apply G_seq. eapply (through_map Say G toks); eauto using class_seq.
Qed.
Lemma gen_alt l s r : inclass T sk (Alt l) = true -> toks s -> first Say l s r -> Ob (Alt l) s r.
Proof.
  intros HC Hs H. apply HOb; auto. apply G_alt. eapply (first_map Say G); eauto.
  intros. apply HSay; eauto using class_alt.
Qed.
Lemma gen_repeat lo hi p s r : inclass T sk (Repeat lo hi p) = true -> toks s -> greedy Say lo hi p s r -> Ob (Repeat lo hi p) s r.
Proof.
  intros HC Hs (n & s' & HR & H). pose proof (class_repeat _ _ _ _ _ HC) as Hp. apply HOb; auto. apply G_repeat.
  destruct (row_map _ (fun a b => G p a (Some b)) toks (fun a b Ha Hab => conj (proj1 (HSay p a (Some b) Hp Ha Hab)) (proj2 (HSay p a (Some b) Hp Ha Hab) b eq_refl)) _ _ _ Hs HR) as [A B].
  exists n, s'. split; auto. destruct H as [H|(H1 & H2 & H3)]; [now left|right]. split; auto. split; auto. now apply HSay.
Qed.
Lemma gen_not p s r : inclass T sk (Not p) = true -> toks s -> Say p s r ->
  Ob (Not p) s (match r with Some _ => None | None => Some s end).
Proof. intros HC Hs H. apply HOb; auto. apply G_not. apply HSay; eauto using class_not. Qed.
Lemma gen_opt p s r : inclass T sk (Opt p) = true -> toks s -> Say p s r ->
  Ob (Opt p) s (match r with Some t => Some t | None => Some s end).
Proof. intros HC Hs H. apply HOb; auto. apply G_opt. apply HSay; eauto using class_opt. Qed.
Lemma gen_except p q s : inclass T sk (Except p q) = true -> toks s ->
  (forall t, Say q s (Some t) -> Ob (Except p q) s None) /\
  (forall r, Say q s None -> Say p s r -> Ob (Except p q) s r).
Proof.
  intros HC Hs. pose proof (class_except _ _ _ _ HC) as [C1 C2]. destruct (G_except env ws p q s) as [A B]. split.
  - intros t H. apply HOb; auto. eapply A, HSay; eauto.
  - intros r H1 H2. apply HOb; auto. apply B; apply HSay; auto.
Qed.
Lemma gen_list p sep s s' : inclass T sk (PList p sep) = true -> toks s -> listed Say p sep s s' -> Ob (PList p sep) s (Some s').
Proof.
  intros HC Hs H. pose proof (class_list _ _ _ _ HC) as [C1 C2]. apply HOb; auto. apply G_list.
  destruct H as [[H ->]|(s0 & n & H & HR & HN)].
  - left. split; auto. now apply HSay.
  - right. destruct (HSay p s (Some s0) C1 Hs H) as [A0 B0]. specialize (B0 _ eq_refl).
    destruct (row_map (fun a b => exists c, Say sep a (Some c) /\ Say p c (Some b)) (fun a b => exists c, G sep a (Some c) /\ G p c (Some b)) toks) with (n := n) (s := s0) (s' := s') (2 := B0) (3 := HR) as [A B].
    { intros a b Ha (c & H1 & H2). destruct (HSay _ _ _ C2 Ha H1) as [X1 X2]. specialize (X2 _ eq_refl).
      destruct (HSay _ _ _ C1 X2 H2) as [Y1 Y2]. split; eauto. }
    exists s0, n. split; auto. split; auto. destruct HN as [HN|(c & H1 & H2)].
    + left. now apply HSay.
    + right. destruct (HSay _ _ _ C2 B H1) as [X1 X2]. specialize (X2 _ eq_refl). exists c. split; auto. now apply HSay.
Qed.
End Gen.

(** ** The two cases: no skipper, a skipper *)

Section Comb.
Context (T : char_ty) (env : nat -> option pat).
Hypothesis Hk : known T env.
Notation toks := (Forall (tok T)).

Lemma say_plain p s r : inclass T false p = true -> toks s -> says env p s r ->
  G env nows p s r /\ (forall t, r = Some t -> toks t).
Proof.
  intros HC Hs H. destruct (says_m T env Hk p s r HC Hs H) as [A B]. split.
  - exists r. split; auto. apply rel_refl.
  - intros t ->. auto.
Qed.
Lemma ob_plain p s r : inclass T false p = true -> toks s -> G env nows p s r -> obeys env p s r.
Proof.
  intros HC Hs (r' & H & R). assert (r = r') as ->.
  { destruct r, r'; cbn in R; try contradiction; auto. apply eqt_nows in R. now subst. }
  eapply m_obeys; eauto.
Qed.

Definition comb_seq := gen_seq env T false nows (says env) (obeys env) say_plain ob_plain.
Definition comb_alt := gen_alt env T false nows (says env) (obeys env) say_plain ob_plain.
Definition comb_repeat := gen_repeat env T false nows (says env) (obeys env) say_plain ob_plain.
Definition comb_not := gen_not env T false nows (says env) (obeys env) say_plain ob_plain.
Definition comb_opt := gen_opt env T false nows (says env) (obeys env) say_plain ob_plain.
Definition comb_except := gen_except env T false nows (says env) (obeys env) say_plain ob_plain.
Definition comb_list := gen_list env T false nows (says env) (obeys env) say_plain ob_plain.

Section Skipped.
Context (skp : pat) (ws : gap).
Hypothesis Hcs : skipper T skp = true.
Hypothesis Hws : forall s, Forall (tok T) s -> ws s = passes skp s.
Notation skipped p := (WithSkipper p skp).

Definition says_sk : answer := fun p => says env (skipped p).
Definition obeys_sk : answer := fun p => obeys_upto ws env (skipped p).

Lemma say_sk p s r : inclass T true p = true -> toks s -> says_sk p s r ->
  G env ws p s r /\ (forall t, r = Some t -> toks t).
Proof.
  intros HC Hs (t & v & n & w & H). destruct r as [s'|].
  - destruct H as [H <-]. destruct (run_m_sk T env Hk skp ws Hcs Hws _ _ _ _ _ _ _ HC Hs H) as [A (s1 & B & C)]. split.
    + exists (Some s1). split; auto.
    + intros ? [= <-]. auto.
  - destruct (run_m_sk T env Hk skp ws Hcs Hws _ _ _ _ _ _ _ HC Hs H) as [A B]. split.
    + exists None. split; auto. exact I.
    + discriminate.
Qed.
Lemma ob_sk p s r : inclass T true p = true -> toks s -> G env ws p s r -> obeys_sk p s r.
Proof.
  intros HC Hs (r' & H & R). pose proof (m_obeys_sk T env Hk skp ws Hcs Hws p s r' HC Hs H) as HO.
  intros t v. destruct (HO t v) as (o & H1 & H2). exists o. split; auto. destruct o as [[a w]|]; auto.
  destruct r, r'; cbn in R; try contradiction; auto. destruct H2. split; auto. unfold eqt in R. congruence.
Qed.

Definition skip_seq := gen_seq env T true ws says_sk obeys_sk say_sk ob_sk.
Definition skip_alt := gen_alt env T true ws says_sk obeys_sk say_sk ob_sk.
Definition skip_repeat := gen_repeat env T true ws says_sk obeys_sk say_sk ob_sk.
Definition skip_not := gen_not env T true ws says_sk obeys_sk say_sk ob_sk.
Definition skip_opt := gen_opt env T true ws says_sk obeys_sk say_sk ob_sk.
Definition skip_except := gen_except env T true ws says_sk obeys_sk say_sk ob_sk.
Definition skip_list := gen_list env T true ws says_sk obeys_sk say_sk ob_sk.
End Skipped.
End Comb.

(** ** Patterns that never fail *)

Definition willing (p : pat) : Prop :=
  match p with Opt _ | PList _ _ | Pass => True | Repeat lo _ _ => lo = 0 | _ => False end.

Definition nofail {S} (m : M S (result * pst)) : Prop := forall w r st w', m w = Done ((r, st), w') -> r <> FAILURE.
Lemma nofail_bind {S A} (m : M S A) k : (forall x, nofail (k x)) -> nofail (bind m k).
Proof. intros H w r st w' E. unfold bind in E. destruct (m w) as [[x w1]|]; [|discriminate]. eapply H; eauto. Qed.
Lemma nofail_bind2 {S} (m : M S (result * pst)) k : nofail m -> (forall x, fst x <> FAILURE -> nofail (k x)) -> nofail (bind m k).
Proof. intros H1 H w r st w' E. unfold bind in E. destruct (m w) as [[[x1 x2] w1]|] eqn:E1; [|discriminate]. eapply H; eauto. cbn. eapply H1; eauto. Qed.
Lemma nofail_ret {S} r st : r <> FAILURE -> nofail (S := S) (ret (r, st)).
Proof. intros H w r' st' w' E. unfold ret in E. congruence. Qed.
Lemma nofail_raise {S} e : nofail (S := S) (raise e). Proof. intros w r st w' E. discriminate. Qed.

Lemma never_fails {S} (ops : source_ops S) env n : forall c rq d p st, willing p -> nofail (consume ops env n c rq d p st).
Proof.
  induction n as [|n IH]; intros c rq d p st Hp; [apply nofail_raise|].
  cbn [consume]. destruct st; cbn [consume_step].
  - unfold skip_consume. destruct done.
    + apply nofail_bind2; auto. intros x Hx. now apply nofail_ret.
    + apply nofail_bind. intros [[] x]; cbn [fst snd]; auto.
      * apply nofail_bind; auto.
      * now apply nofail_ret.
  - unfold clean_consume. apply nofail_bind2; auto. intros [[] x] Hx; cbn [fst snd] in *; try congruence.
    + apply nofail_bind. intros. now apply nofail_ret.
    + now apply nofail_ret.
  - unfold atomic_consume. intros w r st' w' H. unfold bind at 1 in H. unfold with_cell in H.
    match type of H with context [consume ?a ?b ?k ?c ?d ?e ?f ?g ?h] => destruct (consume a b k c d e f g h) as [[[r0 st0] w0]|] eqn:E end; [|discriminate].
    apply IH in E; auto. destruct (nth_error _ _); [|discriminate]. destruct r0; try congruence.
    + unfold bind in H. destruct (m_assign _ _ _) as [[? ?]|]; [|discriminate]. injection H as <- <- <-. congruence.
    + injection H as <- <- <-. congruence.
  - destruct p; try contradiction; try apply nofail_raise. now apply nofail_ret.
  - destruct p; try contradiction; apply nofail_raise.
  - destruct p; try contradiction; apply nofail_raise.
  - destruct p; try contradiction; apply nofail_raise.
  - destruct p; try contradiction; apply nofail_raise.
  - destruct p; try contradiction; apply nofail_raise.
  - destruct p; try contradiction; apply nofail_raise.
  - destruct p; try contradiction; try apply nofail_raise. unfold list_consume. destruct i as [|[|i]]; [| |apply nofail_raise].
    + apply nofail_bind. intros [[] x]; cbn [fst snd].
      * repeat (apply nofail_bind; intros ?). auto.
      * apply nofail_bind. intros. now apply nofail_ret.
      * now apply nofail_ret.
    + apply nofail_bind. intros [[] x]; cbn [fst snd].
      * repeat (apply nofail_bind; intros ?). auto.
      * apply nofail_bind. intros. now apply nofail_ret.
      * now apply nofail_ret.
  - destruct p; try contradiction; try apply nofail_raise. cbn in Hp. subst. unfold repeat_consume.
    apply nofail_bind. intros [[] x]; cbn [fst snd].
    + destruct (_ && _); [now apply nofail_ret|]. apply nofail_bind. intros. apply IH. reflexivity.
    + now apply nofail_ret.
    + now apply nofail_ret.
  - destruct p; try contradiction; apply nofail_raise.
  - destruct p; try contradiction; try apply nofail_raise. unfold opt_consume.
    apply nofail_bind. intros [[] x]; cbn [fst snd].
    + now apply nofail_ret.
    + apply nofail_bind. intros. now apply nofail_ret.
    + now apply nofail_ret.
  - destruct p; try contradiction; apply nofail_raise.
  - destruct p; try contradiction; apply nofail_raise.
  - destruct p; try contradiction; apply nofail_raise.
  - destruct p; try contradiction; apply nofail_raise.
Qed.

Lemma parse_never_fails env n t v p inp r w : willing p -> parse env n t v p inp = Done (r, w) -> r = SUCCESS.
Proof.
  intros Hp H. pose proof H as H0. unfold parse, top_run, top_consume, bind in H. destruct (top_create _ _ _ _) as [[st w1]|]; [|discriminate].
  destruct (consume _ _ _ _ _ _ _ _ _) as [[[r1 s1] w2]|] eqn:E; [|discriminate]. injection H as <- <-.
  apply never_fails in E; auto. apply parse_answers in H0. destruct r1; congruence.
Qed.
Lemma session_never_fails env n t v p l s : willing p -> run_session env n t v p l = Done s ->
  s_res s = Some SUCCESS \/ s_res s = None.
Proof.
  intros Hp H. unfold run_session in H. destruct (top_create _ _ _ _) as [[st w1]|]; [|discriminate].
  assert (s_res (Session_ None st w1) = Some SUCCESS \/ s_res (Session_ None st w1) = None) as H0 by (now right).
  revert H0 H. generalize (Session_ None st w1). induction l as [|k l IH]; intros s0 H0 H; cbn in H.
  - injection H as <-. auto.
  - destruct (do_call _ _ _ _ _ _ _ _) as [s1|] eqn:E; [|discriminate]. cbn in H. apply (IH s1); auto.
    unfold do_call in E. destruct H0 as [H0|H0]; rewrite H0 in E; [injection E as <-; auto|].
    destruct k.
    + destruct (cs_add _ _ _); [|discriminate]. injection E as <-. now right.
    + unfold top_consume in E. destruct (consume _ _ _ _ _ _ _ _ _) as [[[r1 s2] w2]|] eqn:E1; [|discriminate].
      apply never_fails in E1; auto. destruct r1; try congruence; injection E as <-; auto.
Qed.

(** ** A failing alternative gives everything back *)

Section Clean.
Context (T : char_ty) (env : nat -> option pat).
Hypothesis Hk : known T env.
Notation toks := (Forall (tok T)).

Lemma alt_clean n t v l inp w : inclass T false (Alt l) = true -> toks inp ->
  parse env n t v (Alt l) inp = Done (FAILURE, w) -> left_at w = inp.
Proof.
  intros HC Ti H. pose proof Hk as (HT & Henv & Hmok). unfold inclass in HC. apply andb_prop in HC. destruct HC as [C1 C2].
  apply parse_ev in H; auto. destruct H as (b & Hb & H). destruct b; [discriminate|].
  inversion H; subst; try discriminate.
  match goal with H : ev _ GCln _ _ _ _ _ _ _ _ |- _ => inversion H; subst; try discriminate end.
  match goal with H : ev _ GAtm _ _ _ _ _ _ _ _ |- _ => inversion H; subst; try discriminate end.
  match goal with H : ev _ GRaw _ _ _ _ _ _ _ _ |- _ => inversion H; subst; try discriminate end.
  match goal with H : ev _ (GAlt 0) _ _ _ _ _ _ _ _ |- _ => apply (sound_all env T HT Henv) in H; destruct (H nows false inp inp) as [_ HC] end;
    cbn; auto with eqt; try reflexivity; try (split; auto; discriminate).
  specialize (HC eq_refl eq_refl). now apply eqt_nows in HC.
Qed.
End Clean.

(** ** Skippable text, lexemes *)

(** Without skippable text in the input a skipper does nothing. *)
Definition free (ws : gap) (s : list Z) : Prop := forall a b, s = a ++ b -> ws b = 0.
Lemma free_suffix ws a b : free ws (a ++ b) -> free ws b.
Proof. intros H a' b' ->. apply (H (a ++ a')). now rewrite app_assoc. Qed.

Section SkipMore.
Context (T : char_ty) (env : nat -> option pat).
Hypothesis Hk : known T env.
Notation toks := (Forall (tok T)).
Context (skp : pat) (ws : gap).
Hypothesis Hcs : skipper T skp = true.
Hypothesis Hws : forall s, Forall (tok T) s -> ws s = passes skp s.
Notation skipped p := (WithSkipper p skp).

Lemma lexeme_class p : inclass T true (Lexeme p) = true -> inclass T false p = true.
Proof.
  intros H. unfold inclass in *. cbn [mok peg_ok] in H. rewrite !andb_true_iff in H. destruct H as (H1 & H2 & H3).
  change (mok false default_req p = true) in H1. change (peg_ok T false default_req p = true) in H3. now rewrite H1, H3.
Qed.

Lemma skip_lexeme p s r : inclass T true (Lexeme p) = true -> toks s -> says env p (trim ws s) r ->
  obeys_upto ws env (skipped (Lexeme p)) s r.
Proof.
  intros HC Hs H. destruct (says_m T env Hk p _ r (lexeme_class _ HC) (all_trim _ ws s Hs) H) as [A _].
  eapply m_obeys_sk; eauto. now constructor.
Qed.

Lemma skip_leading p s s2 r : inclass T true p = true -> toks s -> toks s2 -> trim ws s = trim ws s2 ->
  says env (skipped p) s r -> obeys_upto ws env (skipped p) s2 r.
Proof.
  intros HC Hs Hs2 E H. destruct (say_sk T env Hk skp ws Hcs Hws p s r HC Hs H) as [A _].
  eapply (ob_sk T env Hk skp ws Hcs Hws); eauto. eapply G_eqt; eauto.
Qed.

Lemma m_free g s r : free ws s -> (m env ws g s r <-> m env nows g s r).
Proof.
  intros HF. split; intros H.
  - apply (m_ext_in env (free ws) (free_suffix ws) _ _ _ _ H); auto. intros a Ha. rewrite (Ha [] a eq_refl). now destruct a.
  - apply (m_ext_in env (free ws) (free_suffix ws) _ _ _ _ H); auto. intros a Ha. rewrite (Ha [] a eq_refl). now destruct a.
Qed.

(** Where there is nothing to skip the skipper makes no difference. *)
Lemma skip_free p s r : inclass T true p = true -> toks s -> free ws s -> says env p s r ->
  obeys_upto ws env (skipped p) s r.
Proof.
  intros HC Hs HF H. assert (inclass T false p = true) as HC'.
  { unfold inclass in *. apply andb_prop in HC. destruct HC as [H1 H2]. rewrite H1. cbn. now apply peg_ok_mono. }
  destruct (says_m T env Hk p _ r HC' Hs H) as [A _]. eapply m_obeys_sk; eauto. now apply m_free.
Qed.
End SkipMore.

(** ** In one piece *)

Theorem grammar T env p inp : known T env -> inclass T false p = true -> Forall (tok T) inp ->
  (forall n t v r w, parse env n t v p inp = Done (r, w) ->
     match r with
     | SUCCESS => m env nows (One p) inp (Some (left_at w))
     | FAILURE => m env nows (One p) inp None
     | PARTIAL => False
     end) /\
  (forall r, m env nows (One p) inp r -> obeys env p inp r).
Proof.
  intros Hk HC Ti. split.
  - intros n t v r w H. now apply (run_m T env Hk) in H.
  - intros r. now apply (m_obeys T).
Qed.

Theorem grammar_skipping T env p inp skp ws : known T env -> inclass T true p = true -> Forall (tok T) inp ->
  skipper T skp = true -> (forall s, Forall (tok T) s -> ws s = passes skp s) ->
  (forall n t v r w, parse env n t v (WithSkipper p skp) inp = Done (r, w) ->
     match r with
     | SUCCESS => exists s, m env ws (One p) inp (Some s) /\ trim ws (left_at w) = trim ws s
     | FAILURE => m env ws (One p) inp None
     | PARTIAL => False
     end) /\
  (forall r, m env ws (One p) inp r -> obeys_upto ws env (WithSkipper p skp) inp r).
Proof.
  intros Hk HC Ti Hcs Hws. split.
  - intros n t v r w H. now apply (run_m_sk T env Hk skp ws Hcs Hws) in H.
  - intros r. now apply (m_obeys_sk T env Hk skp ws Hcs Hws).
Qed.

Theorem star_never_fails env t v hi p n :
  (forall inp r w, parse env n t v (Repeat 0 hi p) inp = Done (r, w) -> r = SUCCESS) /\
  (forall l s, run_session env n t v (Repeat 0 hi p) l = Done s -> s_res s = Some SUCCESS \/ s_res s = None).
Proof. split; intros; [eapply (parse_never_fails env n t v (Repeat 0 hi p)); eauto|eapply (session_never_fails env n t v (Repeat 0 hi p)); eauto]; reflexivity. Qed.
Theorem list_never_fails env t v p sep n :
  (forall inp r w, parse env n t v (PList p sep) inp = Done (r, w) -> r = SUCCESS) /\
  (forall l s, run_session env n t v (PList p sep) l = Done s -> s_res s = Some SUCCESS \/ s_res s = None).
Proof. split; intros; [eapply (parse_never_fails env n t v (PList p sep)); eauto|eapply (session_never_fails env n t v (PList p sep)); eauto]; exact I. Qed.
Theorem opt_never_fails env t v p n :
  (forall inp r w, parse env n t v (Opt p) inp = Done (r, w) -> r = SUCCESS) /\
  (forall l s, run_session env n t v (Opt p) l = Done s -> s_res s = Some SUCCESS \/ s_res s = None).
Proof. split; intros; [eapply (parse_never_fails env n t v (Opt p)); eauto|eapply (session_never_fails env n t v (Opt p)); eauto]; exact I. Qed.

Theorem skip_parts T env : known T env ->
  forall skp ws, skipper T skp = true -> (forall s, Forall (tok T) s -> ws s = passes skp s) ->
  let says' : answer := fun p => says env (WithSkipper p skp) in
  let obeys' : answer := fun p => obeys_upto ws env (WithSkipper p skp) in
  (forall l s r, inclass T true (Seq l) = true -> Forall (tok T) s -> through says' l s r -> obeys' (Seq l) s r) /\
  (forall l s r, inclass T true (Alt l) = true -> Forall (tok T) s -> first says' l s r -> obeys' (Alt l) s r) /\
  (forall lo hi p s r, inclass T true (Repeat lo hi p) = true -> Forall (tok T) s ->
     greedy says' lo hi p s r -> obeys' (Repeat lo hi p) s r) /\
  (forall p sep s s', inclass T true (PList p sep) = true -> Forall (tok T) s ->
     listed says' p sep s s' -> obeys' (PList p sep) s (Some s')) /\
  (forall p s r, inclass T true (Not p) = true -> Forall (tok T) s ->
     says' p s r -> obeys' (Not p) s (match r with Some _ => None | None => Some s end)) /\
  (forall p s r, inclass T true (Opt p) = true -> Forall (tok T) s ->
     says' p s r -> obeys' (Opt p) s (match r with Some t => Some t | None => Some s end)) /\
  (forall a b s, inclass T true (Except a b) = true -> Forall (tok T) s ->
     (forall t, says' b s (Some t) -> obeys' (Except a b) s None) /\
     (forall r, says' b s None -> says' a s r -> obeys' (Except a b) s r)).
Proof.
  intros Hk skp ws Hcs Hws. cbv zeta. split; [|split; [|split; [|split; [|split; [|split]]]]].
  - apply (skip_seq T env Hk skp ws Hcs Hws).
  - apply (skip_alt T env Hk skp ws Hcs Hws).
  - apply (skip_repeat T env Hk skp ws Hcs Hws).
  - apply (skip_list T env Hk skp ws Hcs Hws).
  - apply (skip_not T env Hk skp ws Hcs Hws).
  - apply (skip_opt T env Hk skp ws Hcs Hws).
  - apply (skip_except T env Hk skp ws Hcs Hws).
Qed.
