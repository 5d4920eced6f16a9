(** C58, C63, C65, C68 as stated, without the restriction to the patterns of C11, are false: an
    Optional leaves its mark behind (C11_refuted), and the alternatives around it go back to
    that mark. *)
From Coq Require Import String List ZArith Bool Arith.
From Verif Require Import Base CharSet Source Dst Pattern Expr Parser Session.
From Verif Require Import SpecSession SpecPeg SpecRun SpecValue SpecLeaf SpecType SpecAttr SpecExpr SpecExprVal SpecBound.
From Verif Require Import Leaf PegSound Run Comb Demo PropertiesGrammar.
Import ListNotations.
Local Open Scope string_scope.
Local Open Scope list_scope.

(** (lit('x') >> -lit('y') >> lit('z')) | lit("xyw"), as an expression. *)
Definition C63_leaky : expr := EAlt (EPat leaky) (EStr (txt "xyw" ++ [0])%Z).
Definition C63_leaky_p : pat := Alt [leaky; Lit (txt "xyw")].

Lemma leaky_reads : m noenv nows (One leaky) (txt "xyw") None.
Proof.
  apply m_seq. eapply m_all; [|eapply m_all].
  - apply m_discard. eapply m_char; calc.
  - apply m_opt, m_discard. eapply m_char; calc.
  - apply m_all_no, m_discard, m_char_no. intros a t H. vm_compute in H. injection H as <- <-. discriminate.
Qed.

Theorem C63_refuted :
  exists e p inp, pattern_of e = Some p /\ plain_skippers e = true /\ Forall (tok ct_char) inp /\
  says noenv p inp None /\ written noenv nows e inp (Some []).
Proof.
  exists C63_leaky, C63_leaky_p, (txt "xyw"). split; [calc|]. split; [calc|]. split; [chars|]. split; [run|].
  cbn [C63_leaky written]. right. split; [exact leaky_reads|]. left. exists []. split; calc.
Qed.
Print Assumptions C63_refuted.

Lemma leaky_stores : mv noenv nows (VOne false leaky) TNil VNil (txt "xyw") None VNil [].
Proof.
  apply v_seq. apply (v_all _ _ 0 (lc "x") _ TNil VNil (txt "xyw") TNil VNil VNil VNil (txt "yw") [] None VNil []).
  - apply pat_quiet. reflexivity.
  - eapply v_discard, v_char; [calc|calc|apply sto_nil].
  - apply (v_all _ _ 0 (Opt (lc "y")) _ TNil VNil (txt "yw") TNil VNil VNil VNil (txt "w") [] None VNil []).
    + apply pat_quiet. reflexivity.
    + apply v_opt. eapply v_discard, v_char; [calc|calc|apply sto_nil].
    + eapply v_all_no; [apply pat_quiet; reflexivity|].
      eapply v_discard, v_char_no. intros a t H. vm_compute in H. injection H as <- <-. discriminate.
Qed.

Theorem C58_refuted :
  exists p inp, simple p = true /\ Forall (tok ct_char) inp /\ (exists s, does noenv p TNil VNil inp FAILURE s VNil []) /\ mv noenv nows (VOne false p) TNil VNil inp (Some []) VNil [].
Proof.
  exists C63_leaky_p, (txt "xyw"). split; [calc|]. split; [chars|]. split; [eexists; exists 99; eexists; cases; calc|].
  apply v_alt. apply (v_any_next _ _ _ _ _ TNil VNil (txt "xyw") VNil [] (Some []) VNil []); [exact leaky_stores|].
  apply v_any, v_lit. calc.
Qed.
Print Assumptions C58_refuted.

Theorem C65_refuted :
  exists e p inp, pattern_of e = Some p /\ plain_skippers e = true /\ simple p = true /\ Forall (tok ct_char) inp /\ (exists s, does noenv p TNil VNil inp FAILURE s VNil []) /\ stores noenv nows InPlace e TNil VNil inp (Some []) VNil [].
Proof.
  exists C63_leaky, C63_leaky_p, (txt "xyw"). split; [calc|]. split; [calc|]. split; [calc|]. split; [chars|].
  split; [eexists; exists 99; eexists; cases; calc|].
  cbn [C63_leaky stores mode]. right. exists VNil, [], []. split; [exact leaky_stores|]. split; [|reflexivity].
  split; [|auto]. left. exists []. split; calc.
Qed.
Print Assumptions C65_refuted.

Lemma leaky_works h tb : mb noenv nows (VOne false leaky) tb (the_bound TNil) TNil h (txt "xyw") None h [].
Proof.
  assert (forall y w, assigned TNil Nowhere y w w) as HA.
  { intros y w. exists VNil, VNil. split; [constructor|]. split; constructor. }
  apply b_seq. apply (b_all _ _ 0 (lc "x") _ tb _ TNil h (txt "xyw") TNil Nowhere h (txt "yw") [] None h []).
  - apply pin_quiet. reflexivity.
  - eapply b_discard, b_char; [calc|calc|apply HA].
  - apply (b_all _ _ 0 (Opt (lc "y")) _ tb _ TNil h (txt "yw") TNil Nowhere h (txt "w") [] None h []).
    + apply pin_quiet. reflexivity.
    + apply b_opt. eapply b_discard, b_char; [calc|calc|apply HA].
    + eapply b_all_no; [apply pin_quiet; reflexivity|].
      eapply b_discard, b_char_no. intros a t H. vm_compute in H. injection H as <- <-. discriminate.
Qed.

Theorem C68_refuted :
  exists p inp, tidy p = true /\ Forall (tok ct_char) inp /\ (exists s, does noenv p TNil VNil inp FAILURE s VNil []) /\ reads noenv nows p TNil VNil inp (Some []) VNil [].
Proof.
  exists C63_leaky_p, (txt "xyw"). split; [calc|]. split; [chars|]. split; [eexists; exists 99; eexists; cases; calc|].
  exists VNil. apply b_alt.
  apply (b_any_next _ _ _ _ _ TNil _ TNil (Objects VNil VNil) (txt "xyw") (Objects VNil VNil) [] (Some []) (Objects VNil VNil) []).
  - apply leaky_works.
  - apply b_any, b_lit. calc.
Qed.
Print Assumptions C68_refuted.
