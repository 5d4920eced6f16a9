(** The context-free reading, in terms of parse() (C57). *)
From Coq Require Import List ZArith Bool Arith Lia.
From Verif Require Import Base CharSet Source Dst Pattern Parser Session SpecSession SpecPeg SpecRun SpecTerm SpecLang.
From Verif Require Import Rel Leaf PegSound Run Comb LangThms TermThms SessionThms.
Import ListNotations.

Lemma peg_sane T p : forall sk rq, onechar_skippers p = true -> peg_ok T sk rq p = true -> sane p = true.
Proof.
  induction p using pat_ind'; intros sk rq HO; rewrite peg_ok_eq; match goal with |- pokr _ _ ?r _ = _ -> _ => generalize r end; intros ?; cbn [pokr sane onechar_skippers] in *; auto; intros HP; try discriminate;
    repeat match goal with H : _ && _ = true |- _ => apply andb_prop in H as [? ?] end; eauto.
  - rewrite forallb_forall in *. rewrite Forall_forall in H. intros x Hx. eapply H; eauto.
  - rewrite forallb_forall in *. rewrite Forall_forall in H. intros x Hx. eapply H; eauto.
  - apply andb_true_iff. eauto.
  - apply andb_true_iff. eauto.
  - apply andb_true_iff. eauto.
Qed.

(** Where one character decides there are no skippers inside. *)
Lemma onechar_plain p cs : onechar p = Some cs -> onechar_skippers p = true.
Proof. revert cs. induction p using pat_ind'; intros c E; try discriminate; cbn in *; eauto. Qed.
Lemma ll_onechar nul fo fol env ws p : forall lex K, ll nul fo fol env ws lex p K -> onechar_skippers p = true.
Proof.
  induction p using pat_ind'; intros lex K HL; cbn [onechar_skippers]; auto; try (cbn in HL; now destruct HL); try (cbn in HL; destruct HL; eauto; fail); try (cbn in HL; eauto; fail).
  - rewrite ll_seq in HL. revert HL. induction H as [|q l Hq _ IH]; intros HL; auto. destruct HL as [L1 L2]. cbn [forallb]. now rewrite (Hq _ _ L1), IH.
  - rewrite ll_alt in HL. revert HL. induction H as [|q l Hq _ IH]; intros HL; auto. destruct HL as (L1 & _ & _ & L2). cbn [forallb]. now rewrite (Hq _ _ L1), IH.
  - destruct HL as (cs & E & _). eapply onechar_plain; eauto.
  - destruct HL as (L1 & _ & _ & cs & E). rewrite (IHp1 _ _ L1). cbn. eapply onechar_plain; eauto.
  - destruct HL as (L1 & L2 & _). now rewrite (IHp1 _ _ L1), (IHp2 _ _ L2).
Qed.
Lemma ahead_onechar env ws p K : one_ahead env ws p K -> onechar_skippers p = true /\ forall id q, env id = Some q -> onechar_skippers q = true.
Proof.
  intros (nul & fo & fol & rk & HA & HL). split; [eapply ll_onechar; eauto|]. intros id q E. destruct (HA id q E) as (_ & _ & _ & H). eapply ll_onechar. apply (H false).
Qed.

Section Run.
Context (T : char_ty) (env : nat -> option pat) (Hk : known T env).
Local Arguments SpecPeg.trim : simpl never.

Lemma known_sane : (forall id q, env id = Some q -> onechar_skippers q = true) -> forall id q, env id = Some q -> sane q = true.
Proof. intros HO id q E. eapply peg_sane; eauto. exact (proj1 (proj2 Hk) _ _ E). Qed.
Lemma class_sane sk p : onechar_skippers p = true -> inclass T sk p = true -> sane p = true.
Proof. unfold inclass. intros HO H. apply andb_prop in H as [_ H]. eapply peg_sane; eauto. Qed.

Lemma written_read p K w rest : inclass T false p = true -> one_ahead env none p K -> Forall (tok T) (w ++ rest) ->
  lang env none (FOne p) w -> K (hd_error rest) -> obeys env p (w ++ rest) (Some rest).
Proof.
  intros HC (nul & fo & fol & rk & HA & HL) HT Hw HK. apply (m_obeys T env Hk); auto.
  destruct (lang_written env nul fo fol rk none HA none _ _ Hw false eq_refl K rest (w ++ rest)) as [_ (s' & HM & E)]; auto.
  - unfold next. cbn. now rewrite trim_nows.
  - reflexivity.
  - cbn in HM, E. apply eqt_nows in E. now subst.
Qed.

Lemma read_written p inp n t v w : (forall id q, env id = Some q -> onechar_skippers q = true) -> onechar_skippers p = true -> inclass T false p = true -> Forall (tok T) inp ->
  parse env n t v p inp = Done (SUCCESS, w) -> exists u, inp = u ++ left_at w /\ lang env none (FOne p) u.
Proof.
  intros HO1 HO2 HC HT HP. destruct (run_m T env Hk _ _ _ _ _ _ _ HC HT HP) as [_ HM].
  exact (m_reads env (known_sane HO1) _ _ _ _ HM none (fun _ => eq_refl) (class_sane _ _ HO2 HC)).
Qed.

Section Skipper.
Context (skp : pat) (ws : Z -> bool) (Hcs : skipper T skp = true) (Ho : onechars skp = true) (Hws : forall z, tok T z -> ws z = passes1 skp z).

Lemma ws_passes s : Forall (tok T) s -> chars ws s = passes skp s.
Proof. intros H. rewrite (passes_onechars _ Ho). destruct H as [|z t Hz _]; auto. cbn. now rewrite Hws. Qed.

Lemma written_read_sk p K w rest : inclass T true p = true -> one_ahead env ws p K -> Forall (tok T) (w ++ rest) ->
  lang env ws (FOne p) w -> K (next ws rest) -> obeys_upto (chars ws) env (WithSkipper p skp) (w ++ rest) (Some rest).
Proof.
  intros HC (nul & fo & fol & rk & HA & HL) HT Hw HK.
  destruct (lang_written env nul fo fol rk ws HA ws _ _ Hw false eq_refl K rest (w ++ rest)) as [_ (s' & HM & E)]; auto; [reflexivity|].
  cbn in HM, E. pose proof (m_obeys_sk T env Hk skp (chars ws) Hcs ws_passes p _ _ HC HT HM) as HO. intros t v. destruct (HO t v) as (o & Ho' & Hr). exists o. split; auto.
  destruct o as [[a x]|]; auto. destruct Hr as [H1 H2]. split; auto. now rewrite H2.
Qed.

Lemma read_written_sk p inp n t v w : (forall id q, env id = Some q -> onechar_skippers q = true) -> onechar_skippers p = true -> inclass T true p = true -> Forall (tok T) inp ->
  parse env n t v (WithSkipper p skp) inp = Done (SUCCESS, w) ->
  exists u s, inp = u ++ s /\ trim (chars ws) (left_at w) = trim (chars ws) s /\ lang env ws (FOne p) u.
Proof.
  intros HO1 HO2 HC HT HP. destruct (run_m_sk T env Hk skp (chars ws) Hcs ws_passes _ _ _ _ _ _ _ HC HT HP) as [_ (s & HM & E)].
  destruct (m_reads env (known_sane HO1) _ _ _ _ HM ws (fun _ => eq_refl) (class_sane _ _ HO2 HC)) as (u & -> & Hu). exists u, s. auto.
Qed.
End Skipper.

(** *** Whole texts *)
Lemma m_then_end ws p s r : m env ws (One (Seq [p; Eoi])) s (Some r) -> exists s1, m env ws (One p) s (Some s1) /\ trim ws s1 = [] /\ r = [].
Proof.
  intros H. inversion H; subst. clear H.
  match goal with H : m _ _ (All _) _ _ |- _ => inversion H; subst; clear H end.
  match goal with H : m _ _ (All _) _ _ |- _ => inversion H; subst; clear H end.
  match goal with H : m _ _ (One Eoi) _ _ |- _ => inversion H; subst; clear H end.
  match goal with H : m _ _ (All _) _ _ |- _ => inversion H; subst; clear H end. eauto.
Qed.

Lemma whole p inp eager rank : inclass T false p = true -> inclass T false (Seq [p; Eoi]) = true -> one_ahead env none p (fun o => o = None) ->
  all_guarded eager rank env -> guarded eager rank None p = true -> Forall (tok T) inp ->
  (lang env none (FOne p) inp -> obeys env (Seq [p; Eoi]) inp (Some [])) /\
  (~ lang env none (FOne p) inp -> obeys env (Seq [p; Eoi]) inp None).
Proof.
  intros HC0 HC HO HG HGp HT. destruct (ahead_onechar _ _ _ _ HO) as [HO2 HO1]. destruct HO as (nul & fo & fol & rk & HA & HL). split; intros Hl.
  - apply (m_obeys T env Hk); auto.
    destruct (lang_written env nul fo fol rk none HA none _ _ Hl false eq_refl (fun o => o = None) [] inp) as [_ (s' & HM & E)]; auto.
    { now rewrite app_nil_r. }
    cbn in HM, E. apply eqt_nows in E. subst. apply m_seq. eapply m_all; [exact HM|]. eapply m_all; [apply m_eoi|apply m_all_end]. reflexivity.
  - assert (HG2 : guarded eager rank None (Seq [p; Eoi]) = true).
    { cbn [guarded]. rewrite HGp. cbn. now destruct (eats eager p). }
    intros t v. destruct (parse_answers_or eager rank env HG t v _ inp HG2) as (o & Hoo & Hr). exists o. split; auto.
    destruct Hoo as [_ [n Hn]]. specialize (Hn n (le_n n)).
    destruct o as [[r w]|e]; [|unfold dst_error; intuition]. destruct Hr as [->| ->]; auto. exfalso. apply Hl.
    destruct (run_m T env Hk _ _ _ _ _ _ _ HC HT Hn) as [_ HM].
    destruct (m_then_end _ _ _ _ HM) as (s1 & H1 & H2 & H3). rewrite trim_nows in H2. subst s1.
    destruct (m_reads env (known_sane HO1) _ _ _ _ H1 none (fun _ => eq_refl) (class_sane _ _ HO2 HC0)) as (u & -> & Hu). now rewrite app_nil_r.
Qed.

Lemma trim_nil ws s : trim (chars ws) s = [] -> Forall (fun z => ws z = true) s.
Proof. induction s as [|z s IH]; auto. rewrite trim_chars. destruct (ws z) eqn:E; [auto|discriminate]. Qed.
Lemma trim_all ws s : Forall (fun z => ws z = true) s -> trim (chars ws) s = [].
Proof. induction 1 as [|z s H _ IH]; auto. now rewrite trim_chars, H. Qed.

Lemma onechars_guarded skp eager rank b : onechars skp = true -> guarded eager rank b skp = true /\ eats eager skp = true.
Proof.
  induction skp using pat_ind'; cbn [onechars]; try discriminate; intros Hl; cbn [guarded eats]; auto.
  induction H; cbn; auto.
  cbn in Hl. apply andb_prop in Hl as [H1 H2]. destruct (H H1) as [-> ->]. destruct (IHForall H2) as [-> ->]. auto.
Qed.

Lemma whole_sk skp ws p inp eager rank : skipper T skp = true -> onechars skp = true -> (forall z, tok T z -> ws z = passes1 skp z) ->
  inclass T true p = true -> inclass T true (Seq [p; Eoi]) = true -> one_ahead env ws p (fun o => o = None) ->
  all_guarded eager rank env -> guarded eager rank None p = true -> Forall (tok T) inp ->
  let text := exists w b, inp = w ++ b /\ lang env ws (FOne p) w /\ Forall (fun z => ws z = true) b in
  (text -> obeys_upto (chars ws) env (WithSkipper (Seq [p; Eoi]) skp) inp (Some [])) /\
  (~ text -> obeys env (WithSkipper (Seq [p; Eoi]) skp) inp None).
Proof.
  intros Hcs Ho Hws HC0 HC HO HG HGp HT text. pose proof (ws_passes skp ws Ho Hws) as WSP.
  destruct (ahead_onechar _ _ _ _ HO) as [HO2 HO1]. destruct HO as (nul & fo & fol & rk & HA & HL). split; intros Hl.
  - destruct Hl as (w & b & -> & Hl & Hb).
    destruct (lang_written env nul fo fol rk ws HA ws _ _ Hl false eq_refl (fun o => o = None) b (w ++ b)) as [_ (s' & HM & E)]; auto.
    { unfold next. cbn. now rewrite trim_all. }
    { reflexivity. }
    cbn in HM, E. unfold PegSound.eqt in E. rewrite (trim_all _ _ Hb) in E.
    assert (HM2 : m env (chars ws) (One (Seq [p; Eoi])) (w ++ b) (Some [])).
    { apply m_seq. eapply m_all; [exact HM|]. eapply m_all; [now apply m_eoi|apply m_all_end]. }
    exact (m_obeys_sk T env Hk skp (chars ws) Hcs WSP _ _ _ HC HT HM2).
  - assert (HG2 : guarded eager rank None (WithSkipper (Seq [p; Eoi]) skp) = true).
    { destruct (onechars_guarded skp eager rank None Ho) as [Hg1 Hg2]. cbn [guarded]. rewrite HGp, Hg1, Hg2. cbn. rewrite orb_true_r. now destruct (eats eager p). }
    intros t v. destruct (parse_answers_or eager rank env HG t v _ inp HG2) as (o & Hoo & Hr). exists o. split; auto.
    destruct Hoo as [_ [n Hn]]. specialize (Hn n (le_n n)).
    destruct o as [[r w]|e]; [|unfold dst_error; intuition]. destruct Hr as [->| ->]; auto. exfalso. apply Hl.
    destruct (run_m_sk T env Hk skp (chars ws) Hcs WSP _ _ _ _ _ _ _ HC HT Hn) as [_ (s & HM & E)].
    destruct (m_then_end _ _ _ _ HM) as (s1 & H1 & H2 & H3).
    destruct (m_reads env (known_sane HO1) _ _ _ _ H1 ws (fun _ => eq_refl) (class_sane _ _ HO2 HC0)) as (u & -> & Hu). exists u, s1. auto using trim_nil.
Qed.
End Run.

Definition verdict (r : option (list Z)) : result := match r with Some _ => SUCCESS | None => FAILURE end.

Lemma obeys_pieces env p l r : complete l -> obeys env p (fed l) r -> session_obeys env p l (verdict r).
Proof.
  intros Hl HO t v. destruct (HO t v) as (o & [Hf [n Hn]] & Hr).
  assert (HR : reaches (fun n => parse_seen (parse env n t v p (fed l))) (parse_seen o)).
  { split; [destruct o as [[? ?]|]; cbn; congruence|]. exists n. intros k Hk. now rewrite Hn. }
  apply (cutting env t v p l Hl (parse_seen o)) in HR. eexists. split; [exact HR|].
  destruct o as [[a w]|e]; cbn; auto. destruct r as [x|]; cbn; tauto.
Qed.
Lemma obeys_upto_pieces ws env p l r : complete l -> obeys_upto ws env p (fed l) r -> session_obeys env p l (verdict r).
Proof.
  intros Hl HO t v. destruct (HO t v) as (o & [Hf [n Hn]] & Hr).
  assert (HR : reaches (fun n => parse_seen (parse env n t v p (fed l))) (parse_seen o)).
  { split; [destruct o as [[? ?]|]; cbn; congruence|]. exists n. intros k Hk. now rewrite Hn. }
  apply (cutting env t v p l Hl (parse_seen o)) in HR. eexists. split; [exact HR|].
  destruct o as [[a w]|e]; cbn; auto. destruct r as [x|]; cbn; tauto.
Qed.

Section Pieces.
Context (T : char_ty) (env : nat -> option pat) (Hk : known T env).
Lemma whole_pieces p l eager rank : complete l ->
  inclass T false p = true -> inclass T false (Seq [p; Eoi]) = true -> one_ahead env none p (fun o => o = None) ->
  all_guarded eager rank env -> guarded eager rank None p = true -> Forall (tok T) (fed l) ->
  (lang env none (FOne p) (fed l) -> session_obeys env (Seq [p; Eoi]) l SUCCESS) /\
  (~ lang env none (FOne p) (fed l) -> session_obeys env (Seq [p; Eoi]) l FAILURE).
Proof.
  intros Hl H1 H2 H3 H4 H5 H6. destruct (whole T env Hk p (fed l) eager rank H1 H2 H3 H4 H5 H6) as [A B].
  split; intros Hx; [apply (obeys_pieces _ _ _ (Some []))|apply (obeys_pieces _ _ _ None)]; auto.
Qed.
Lemma whole_sk_pieces skp ws p l eager rank : complete l ->
  skipper T skp = true -> onechars skp = true -> (forall z, tok T z -> ws z = passes1 skp z) ->
  inclass T true p = true -> inclass T true (Seq [p; Eoi]) = true -> one_ahead env ws p (fun o => o = None) ->
  all_guarded eager rank env -> guarded eager rank None p = true -> Forall (tok T) (fed l) ->
  let text := exists w b, fed l = w ++ b /\ lang env ws (FOne p) w /\ Forall (fun z => ws z = true) b in
  (text -> session_obeys env (WithSkipper (Seq [p; Eoi]) skp) l SUCCESS) /\
  (~ text -> session_obeys env (WithSkipper (Seq [p; Eoi]) skp) l FAILURE).
Proof.
  intros Hl Hc Ho Hw H1 H2 H3 H4 H5 H6. destruct (whole_sk T env Hk skp ws p (fed l) eager rank Hc Ho Hw H1 H2 H3 H4 H5 H6) as [A B].
  split; intros Hx; [apply (obeys_upto_pieces (chars ws) _ _ _ (Some []))|apply (obeys_pieces _ _ _ None)]; auto.
Qed.
End Pieces.
