(** The texts of the JSON grammar are JSON (C59). *)
From Coq Require Import String List ZArith Bool Arith Lia.
From Verif Require Import Base CharSet Source Dst Pattern Parser Session Demo SpecSession SpecPeg SpecRun SpecTerm SpecLeaf SpecValue SpecType SpecAttr SpecLang SpecWrite.
From Verif Require Import Leaf LeafThms PegSound Run Comb LangThms LangRun LangDemo SpecLaws LawsThms TermThms SpecJson WriteRun JsonDemo.
Import ListNotations.

Notation L := (lang jenv none).

Lemma lead_eq w l : lead none w l -> w = l.
Proof. intros (b & -> & Hb & _). destruct b as [|z b]; [reflexivity|]. apply Forall_inv in Hb. discriminate. Qed.
Lemma row_inv n b : L (FRow n ws) b -> blanks b.
Proof.
  revert b. induction n as [|n IH]; intros b H; inversion H; subst; clear H; [constructor|]. 
  match goal with H : L (FOne ws) _ |- _ => inversion H; subst; clear H end.
  match goal with H : lead _ _ _ |- _ => apply lead_eq in H; subst end. constructor; [|now apply IH].
  unfold white. apply existsb_exists. exists y. split; [assumption|apply Z.eqb_refl].
Qed.
Lemma sp_inv b : L (FOne sp) b -> blanks b.
Proof. intros H. inversion H; subst; clear H. match goal with H : L _ _ |- _ => inversion H; subst; clear H end. eauto using row_inv. Qed.

Ltac unl := repeat match goal with
  | H : L (FOne (Seq _)) _ |- _ => inversion H; subst; clear H
  | H : L (FAll []) _ |- _ => inversion H; subst; clear H
  | H : L (FAll (_ :: _)) _ |- _ => inversion H; subst; clear H
  | H : L (FOne (Construct _ _)) _ |- _ => inversion H; subst; clear H
  | H : L (FOne (Lit _)) _ |- _ => inversion H; subst; clear H
  | H : L (FOne sp) _ |- _ => apply sp_inv in H
  | H : lead none _ _ |- _ => apply lead_eq in H; subst
  end.
Lemma word_inv s u : L (FOne (word s)) u -> jword s u.
Proof. intros H. unfold word in H. unl. rewrite app_nil_r. eexists. eauto. Qed.
Lemma lc_inv s z u : txt s = [z] -> L (FOne (lc s)) u -> u = txt s.
Proof.
  intros E H. inversion H; subst; clear H. match goal with H : L _ _ |- _ => inversion H; subst; clear H end. unl.
  match goal with H : in_set _ _ |- _ => cbn in H end. unfold chr in *. rewrite E in *. now subst.
Qed.
Lemma row_chars n c : L (FRow n (Alt [Except any (Char (CSet ct_char [34; 92]%Z)); Seq [lc "\"; any]])) c -> exists s, jchars s c.
Proof.
  revert c. induction n as [|n IH]; intros c H; inversion H; subst; clear H; [exists []; constructor|].
  match goal with H : L (FRow _ _) _ |- _ => destruct (IH _ H) as (s & Hs) end.
  match goal with H : L (FOne (Alt _)) _ |- _ => inversion H; subst; clear H end.
  match goal with H : In _ _ |- _ => destruct H as [<-|[<-|[]]] end.
  - match goal with H : L (FOne (Except _ _)) _ |- _ => inversion H; subst; clear H end.
    match goal with H : L (FOne any) _ |- _ => inversion H; subst; clear H end. unl. exists (y :: s).
    match goal with H : forall cs, _ |- _ => specialize (H _ eq_refl); rename H into N end.
    constructor; auto; intros ->; apply N; eexists; (split; [reflexivity|cbn; auto]).
  - unl. match goal with H : L (FOne (lc _)) _ |- _ => apply (lc_inv "\" 92%Z) in H; [subst|reflexivity] end.
    match goal with H : L (FOne any) _ |- _ => inversion H; subst; clear H end. unl. exists (y :: s). now constructor.
Qed.
Lemma quoted_inv l u : L (FAll (jquoted ++ l)) u -> exists s c w, jchars s c /\ u = txt """" ++ c ++ txt """" ++ w /\ L (FAll l) w.
Proof.
  unfold jquoted. intros H. cbn [app] in H. unl.
  repeat match goal with H : L (FOne (lc _)) _ |- _ => apply (lc_inv """" 34%Z) in H; [subst|reflexivity] end.
  match goal with H : L (FOne (star _)) _ |- _ => inversion H; subst; clear H end.
  match goal with H : L (FRow _ _) _ |- _ => destruct (row_chars _ _ H) as (s & Hs) end. eauto 8.
Qed.

Lemma class_inv n q u : L (FOne (jclass n q)) u -> exists x b, L (FOne q) x /\ blanks b /\ u = x ++ b.
Proof.
  unfold jclass. intros H. inversion H; subst; clear H. match goal with H : L (FOne (Seq [q; sp])) _ |- _ => inversion H; subst; clear H end.
  match goal with H : L (FAll [q; sp]) _ |- _ => inversion H; subst; clear H end. unl. rewrite app_nil_r. eauto.
Qed.
Lemma list_inv t o p c u : L (FOne (Construct [t] (Seq [Lit (txt o); sp; p; Lit (txt c)]))) u ->
  exists a w, jword o a /\ L (FOne p) w /\ u = a ++ w ++ txt c.
Proof.
  intros H. inversion H; subst; clear H. match goal with H : L (FOne (Seq _)) _ |- _ => inversion H; subst; clear H end.
  do 3 match goal with H : L (FAll (_ :: _)) _ |- _ => inversion H; subst; clear H end. unl.
  do 2 eexists. split; [eexists; split; [eassumption|reflexivity]|]. split; [eassumption|]. now rewrite app_nil_r, <- !app_assoc.
Qed.

Lemma json_inv n : forall u, List.length u < n -> L (FOne (Recur 0 false)) u -> exists j, jtext j u.
Proof.
  induction n as [|n IH]; intros u Hn H; [lia|].
  assert (More : forall w, List.length w < n -> L (FMore (Recur 0 false) (word ",")) w -> exists l, jtail l w).
  { clear u Hn H. intros w. remember (List.length w) as m eqn:Em. assert (Hm : List.length w <= m) by lia. clear Em. revert w Hm.
    induction m as [m IHm] using lt_wf_ind. intros w Hm Hn H. inversion H; subst; clear H; [exists []; constructor|].
    match goal with H : L (FOne (word _)) _ |- _ => apply word_inv in H; pose proof H as (b & _ & Ew) end.
    rewrite !app_length in Hm. assert (1 <= List.length w1) by (subst w1; cbn; lia).
    destruct (IH w2) as (j & Hj); [lia|assumption|]. destruct (IHm (List.length w3)) with (w := w3) as (l & Hl); try lia; [assumption|].
    exists (j :: l). now constructor. }
  assert (Field : forall w, List.length w < n -> L (FOne jfield_p) w -> exists f, jfield f w).
  { clear u Hn H. intros w Hw H. inversion H; subst; clear H.
    match goal with H : L (FAll _) _ |- _ => apply quoted_inv in H as (s & c & w' & Hc & -> & H) end. unl.
    match goal with H : L (FOne (Recur 0 false)) ?w |- _ => destruct (IH w) as (j & Hj); [rewrite !app_length in Hw; lia|exact H|] end.
    exists (s, j). rewrite app_nil_r.
    match goal with |- jfield _ (txt """" ++ c ++ txt """" ++ ?a ++ txt ":" ++ ?b ++ ?w) =>
      replace (txt """" ++ c ++ txt """" ++ a ++ txt ":" ++ b ++ w) with ((txt """" ++ c ++ txt """" ++ a) ++ (txt ":" ++ b) ++ w) by (rewrite <- !app_assoc; reflexivity) end.
    constructor; auto; [exists c|]; eexists; eauto. }
  assert (FMore' : forall w, List.length w < n -> L (FMore jfield_p (word ",")) w -> exists l, ftail l w).
  { clear u Hn H More. intros w. remember (List.length w) as m eqn:Em. assert (Hm : List.length w <= m) by lia. clear Em. revert w Hm.
    induction m as [m IHm] using lt_wf_ind. intros w Hm Hn H. inversion H; subst; clear H; [exists []; constructor|].
    match goal with H : L (FOne (word _)) _ |- _ => apply word_inv in H; pose proof H as (b & _ & Ew) end.
    rewrite !app_length in Hm. assert (1 <= List.length w1) by (subst w1; cbn; lia).
    destruct (Field w2) as (j & Hj); [lia|assumption|]. destruct (IHm (List.length w3)) with (w := w3) as (l & Hl); try lia; [assumption|].
    exists (j :: l). now constructor. }
  inversion H; subst; clear H. match goal with H : jenv 0 = Some _ |- _ => injection H as <- end.
  match goal with H : L (FOne (Alt _)) _ |- _ => inversion H; subst; clear H end.
  match goal with H : In _ jalts |- _ => repeat destruct H as [<-|H]; [..|destruct H] end;
    try (match goal with H : L (FOne (jclass _ _)) _ |- _ => apply class_inv in H as (x & b & H & Hb & ->) end).
  - unl. exists JNull. constructor. now apply word_inv.
  - unl. exists (JBool true). constructor. exists b. auto.
  - unl. exists (JBool false). constructor. exists b. auto.
  - unl. match goal with H : L (FOne int_) _ |- _ => inversion H; subst; clear H end. unl. rewrite <- app_assoc, app_nil_r.
    exists (JNum (signed sg ds)). apply jt_num; auto. split; auto. intros ->. cbn in *. lia.
  - unl. match goal with H : L (FAll jquoted) _ |- _ => change jquoted with (jquoted ++ []) in H; apply quoted_inv in H as (s & c & w' & Hc & -> & H) end. unl.
    exists (JStr s). constructor. exists c, b. rewrite <- !app_assoc, ?app_nil_r. auto.
  - match goal with H : L (FOne (Construct _ _)) _ |- _ => apply list_inv in H as (a & w & Ha & H' & ->) end. pose proof Ha as (b' & _ & Ea). rewrite !app_length in Hn.
    assert (1 <= List.length a) by (subst a; cbn; lia). assert (Hc : jword "]" (txt "]" ++ b)) by (exists b; auto).
    inversion H'; subst w; clear H'.
    + exists (JArr []). rewrite <- !app_assoc. now constructor.
    + rewrite !app_length in Hn. destruct (IH w1) as (j & Hj); [lia|assumption|]. destruct (More w2) as (l & Hl); [lia|assumption|].
      exists (JArr (j :: l)). rewrite <- !app_assoc. now constructor.
  - match goal with H : L (FOne (Construct _ _)) _ |- _ => apply list_inv in H as (a & w & Ha & H' & ->) end. pose proof Ha as (b' & _ & Ea). rewrite !app_length in Hn.
    assert (1 <= List.length a) by (subst a; cbn; lia). assert (Hc : jword "}" (txt "}" ++ b)) by (exists b; auto).
    inversion H'; subst w; clear H'.
    + exists (JObj []). rewrite <- !app_assoc. now constructor.
    + rewrite !app_length in Hn. destruct (Field w1) as (j & Hj); [lia|assumption|]. destruct (FMore' w2) as (l & Hl); [lia|assumption|].
      exists (JObj (j :: l)). rewrite <- !app_assoc. now constructor.
Qed.

Lemma doc_inv u : L (FOne (Seq [sp; Recur 0 false])) u -> exists j b w, u = b ++ w /\ blanks b /\ jtext j w.
Proof.
  intros H. unl. match goal with H : L (FOne (Recur 0 false)) ?w |- _ => destruct (json_inv _ w (Nat.lt_succ_diag_r _) H) as (j & Hj) end.
  rewrite app_nil_r. eauto 6.
Qed.
Lemma jguarded : all_guarded (fun _ => true) (fun _ => 0) jenv.
Proof. intros [|id] q [= <-]. split; reflexivity. Qed.

(** What is no JSON is refused. *)
Lemma jone id q : jenv id = Some q -> onechar_skippers q = true.
Proof. destruct id; [|discriminate]. now intros [= <-]. Qed.
Lemma json_no inp : Forall (tok ct_char) inp -> (forall j b u, inp = b ++ u -> blanks b -> ~ jtext j u) -> obeys jenv jdoc inp None.
Proof.
  intros Ht N t v. destruct (parse_answers_or (fun _ => true) (fun _ => 0) jenv jguarded t v jdoc inp eq_refl) as (o & Ho & Hr). exists o. split; auto.
  destruct Ho as [_ [n Hn]]. specialize (Hn n (le_n n)).
  destruct o as [[r w]|e]; [|unfold dst_error; intuition]. destruct Hr as [->| ->]; auto. exfalso.
  destruct (run_m ct_char jenv jknown _ _ _ _ _ _ _ (eq_refl : inclass ct_char false jdoc = true) Ht Hn) as [_ HM].
  pose proof (law_same jenv _ _ (law_sym _ _ _ (law_seq_seq jenv [] [sp; Recur 0 false] [Eoi])) SpecPeg.nows inp (Some (left_at w))) as HL. apply HL in HM. cbn [app] in HM.
  destruct (m_then_end _ _ _ _ _ HM) as (s1 & H1 & H2 & H3). rewrite LangThms.trim_nows in H2. subst s1.
  destruct (m_reads jenv (known_sane ct_char jenv jknown jone) _ _ _ _ H1 none (fun _ => eq_refl) eq_refl) as (u & Eu & Hu). rewrite app_nil_r in Eu. subst u.
  apply doc_inv in Hu as (j & b & x & E & Hb & Hj). exact (N _ _ _ E Hb Hj).
Qed.
Theorem json_refused l : complete l -> Forall (tok ct_char) (fed l) ->
  (forall j b u, fed l = b ++ u -> blanks b -> ~ jtext j u) -> session_obeys jenv jdoc l FAILURE.
Proof. intros Hl Ht N. apply (obeys_pieces jenv jdoc l None Hl). now apply json_no. Qed.
