(** The context-free reading with skippers of any kind, in terms of parse() (C57). *)
From Coq Require Import List ZArith Bool Arith Lia.
From Verif Require Import Base CharSet Source Dst Pattern Parser Session SpecSession SpecPeg SpecRun SpecTerm SpecLang SpecSpell.
From Verif Require Import Rel Leaf PegSound Run Comb TermThms SessionThms SpellThms.
From Verif Require LangThms LangRun.
Import ListNotations.

Lemma peg_fair T p : forall sk rq, peg_ok T sk rq p = true -> fair p = true.
Proof.
  induction p using pat_ind'; intros sk rq; rewrite peg_ok_eq; match goal with |- pokr _ _ ?r _ = _ -> _ => generalize r end; intros ?; cbn [pokr fair] in *; auto; intros HP; try discriminate;
    repeat match goal with H : _ && _ = true |- _ => apply andb_prop in H as [? ?] end; eauto.
  - rewrite forallb_forall in *. rewrite Forall_forall in H. intros x Hx. eapply H; eauto.
  - rewrite forallb_forall in *. rewrite Forall_forall in H. intros x Hx. eapply H; eauto.
  - apply andb_true_iff. eauto.
  - apply andb_true_iff. eauto.
Qed.

Section Run.
Context (T : char_ty) (env : nat -> option pat) (Hk : known T env).
Local Arguments SpecPeg.trim : simpl never.

Lemma known_fair id q : env id = Some q -> fair q = true.
Proof. intros E. eapply peg_fair. exact (proj1 (proj2 Hk) _ _ E). Qed.
Lemma class_fair sk p : inclass T sk p = true -> fair p = true.
Proof. unfold inclass. intros H. apply andb_prop in H as [_ H]. eapply peg_fair; eauto. Qed.

Lemma read_spelt p inp n t v w : inclass T false p = true -> Forall (tok T) inp ->
  parse env n t v p inp = Done (SUCCESS, w) -> spells env nows (FOne p) inp (left_at w).
Proof.
  intros HC HT HP. destruct (run_m T env Hk _ _ _ _ _ _ _ HC HT HP) as [_ HM].
  exact (m_spells env known_fair _ _ _ _ HM (class_fair _ _ HC)).
Qed.

Section Skipper.
Context (skp : pat) (Hcs : skipper T skp = true).
Let same : forall s, Forall (tok T) s -> passes skp s = passes skp s := fun _ _ => eq_refl.

Lemma spelt_read_sk ws p K s t : (forall z, begins skp z = true -> ws z = true) -> inclass T true p = true -> one_ahead env ws p K -> Forall (tok T) s ->
  spells env (passes skp) (FOne p) s t -> K (upcoming (passes skp) t) -> obeys_upto (passes skp) env (WithSkipper p skp) s (Some t).
Proof.
  intros HS0 HC (nul & fo & fol & rk & HA & HL) HT Hw HK. pose proof (begins_starters skp ws HS0) as HS.
  destruct (spells_written env nul fo fol rk ws (passes skp) HA HS _ _ _ _ Hw false eq_refl K s) as [_ (s' & HM & E)]; auto; [reflexivity|].
  cbn in HM, E. pose proof (m_obeys_sk T env Hk skp (passes skp) Hcs same p _ _ HC HT HM) as HO. intros ty v. destruct (HO ty v) as (o & Ho' & Hr). exists o. split; auto.
  destruct o as [[a x]|]; auto. destruct Hr as [H1 H2]. split; auto. now rewrite H2.
Qed.

Lemma read_spelt_sk p inp n t v w : inclass T true p = true -> Forall (tok T) inp ->
  parse env n t v (WithSkipper p skp) inp = Done (SUCCESS, w) ->
  exists s, trim (passes skp) (left_at w) = trim (passes skp) s /\ spells env (passes skp) (FOne p) inp s.
Proof.
  intros HC HT HP. destruct (run_m_sk T env Hk skp (passes skp) Hcs same _ _ _ _ _ _ _ HC HT HP) as [_ (s & HM & E)].
  exists s. split; auto. exact (m_spells env known_fair _ _ _ _ HM (class_fair _ _ HC)).
Qed.

Lemma whole_spelt ws p inp eager rank : (forall z, begins skp z = true -> ws z = true) -> inclass T true p = true -> inclass T true (Seq [p; Eoi]) = true ->
  one_ahead env ws p (fun o => o = None) -> all_guarded eager rank env -> guarded eager rank None (WithSkipper p skp) = true -> Forall (tok T) inp ->
  let text := exists s, spells env (passes skp) (FOne p) inp s /\ trim (passes skp) s = [] in
  (text -> obeys_upto (passes skp) env (WithSkipper (Seq [p; Eoi]) skp) inp (Some [])) /\
  (~ text -> obeys env (WithSkipper (Seq [p; Eoi]) skp) inp None).
Proof.
  intros HS0 HC0 HC (nul & fo & fol & rk & HA & HL) HG HGp HT text. pose proof (begins_starters skp ws HS0) as HS. split; intros Hl.
  - destruct Hl as (s & Hl & Hb).
    destruct (spells_written env nul fo fol rk ws (passes skp) HA HS _ _ _ _ Hl false eq_refl (fun o => o = None) inp) as [_ (s' & HM & E)]; auto.
    { unfold upcoming. cbn. now rewrite Hb. }
    { reflexivity. }
    cbn in HM, E. unfold PegSound.eqt in E. rewrite Hb in E.
    assert (HM2 : m env (passes skp) (One (Seq [p; Eoi])) inp (Some [])).
    { apply m_seq. eapply m_all; [exact HM|]. eapply m_all; [now apply m_eoi|apply m_all_end]. }
    exact (m_obeys_sk T env Hk skp (passes skp) Hcs same _ _ _ HC HT HM2).
  - assert (HG2 : guarded eager rank None (WithSkipper (Seq [p; Eoi]) skp) = true).
    { cbn [guarded] in *. apply andb_prop in HGp as [-> ->]. now destruct (eats eager p). }
    intros t v. destruct (parse_answers_or eager rank env HG t v _ inp HG2) as (o & Hoo & Hr). exists o. split; auto.
    destruct Hoo as [_ [n Hn]]. specialize (Hn n (le_n n)).
    destruct o as [[r w]|e]; [|unfold dst_error; intuition]. destruct Hr as [->| ->]; auto. exfalso. apply Hl.
    destruct (run_m_sk T env Hk skp (passes skp) Hcs same _ _ _ _ _ _ _ HC HT Hn) as [_ (s & HM & E)].
    destruct (LangRun.m_then_end _ _ _ _ _ HM) as (s1 & H1 & H2 & H3).
    exists s1. split; auto. exact (m_spells env known_fair _ _ _ _ H1 (class_fair _ _ HC0)).
Qed.
Lemma whole_spelt_pieces ws p l eager rank : complete l -> (forall z, begins skp z = true -> ws z = true) -> inclass T true p = true -> inclass T true (Seq [p; Eoi]) = true ->
  one_ahead env ws p (fun o => o = None) -> all_guarded eager rank env -> guarded eager rank None (WithSkipper p skp) = true -> Forall (tok T) (fed l) ->
  let text := exists s, spells env (passes skp) (FOne p) (fed l) s /\ trim (passes skp) s = [] in
  (text -> session_obeys env (WithSkipper (Seq [p; Eoi]) skp) l SUCCESS) /\
  (~ text -> session_obeys env (WithSkipper (Seq [p; Eoi]) skp) l FAILURE).
Proof.
  intros Hl H1 H2 H3 H4 H5 H6 H7. destruct (whole_spelt ws p (fed l) eager rank H1 H2 H3 H4 H5 H6 H7) as [A B].
  split; intros Hx; [apply (LangRun.obeys_upto_pieces (passes skp) _ _ _ (Some []))|apply (LangRun.obeys_pieces _ _ _ None)]; auto.
Qed.
End Skipper.
End Run.
