(** parse() of the nested lists of the user guide. *)
From Coq Require Import String List ZArith Bool Arith Lia.
From Verif Require Import Base CharSet Source Dst Pattern Parser Session SpecSession SpecPeg SpecRun SpecValue SpecCollect SpecText SpecTerm SpecType SpecGuide.
From Verif Require Import Leaf PegSound Run Comb RoundTrip LocalThms Pieces TermThms TypeThms PegTerm Local Unary Demo Nest.
Import ListNotations.

Definition nest_uses (id : nat) (t bt : ty) : Prop := id = 0 /\ t = TNil.

Lemma nest_known : known ct_char nest_env.
Proof. split; [discriminate|]. split; intros [|id] q H; [injection H as <-; reflexivity|discriminate|injection H as <-; reflexivity|discriminate]. Qed.
Lemma nest_defined : all_defined nest_uses nest_env.
Proof. intros id t bt (-> & _). discriminate. Qed.
Lemma nest_guarded : all_guarded (fun _ => true) (fun _ => 0) nest_env.
Proof. intros [|id] q [= <-]. split; reflexivity. Qed.
Lemma nest_typed strict calm p : p = nest_doc \/ p = nest_doc_ws -> welltyped strict calm nest_uses (fun _ => false) (fun _ => False) nest_env TNil p.
Proof.
  intros Hp. split; [|split; [reflexivity|]].
  - intros [|id] q [= <-]. split; [discriminate|]. intros t bt _ _ (_ & ->). cbn. unfold nest_uses.
    repeat first [assumption | progress intros | split | discriminate | reflexivity | left; reflexivity | eexists; split; [reflexivity|]].
  - destruct Hp as [-> | ->]; cbn; unfold nest_uses; repeat first [assumption | progress intros | split | discriminate | reflexivity | left; reflexivity | eexists; split; [reflexivity|]].
    right. repeat split; discriminate.
Qed.

Lemma nest_answers p inp : p = nest_doc \/ p = nest_doc_ws ->
  exists r s, (r = SUCCESS \/ r = FAILURE) /\ does nest_env p TNil VNil inp r s VNil [].
Proof.
  intros Hp.
  destruct (parse_total nest_uses (fun _ => false) (fun _ => False) nest_env TNil p (fun _ => true) (fun _ => 0)
    (nest_typed true true p Hp) nest_defined nest_guarded ltac:(destruct Hp as [-> | ->]; reflexivity) VNil inp ltac:(left; reflexivity)) as (r & w & Hr & _ & n & Hn).
  specialize (Hn n (le_n n)). exists r, (left_at w). split; auto.
  pose proof (parse_keeps nest_uses (fun _ => false) (fun _ => False) nest_env TNil p (nest_typed false false p Hp) VNil n inp ltac:(left; reflexivity)) as HK.
  rewrite Hn in HK. destruct HK as (v' & _ & _ & Hh).
  destruct (parse_done _ _ _ _ _ _ _ _ Hn) as (_ & v2 & k & E1 & E2 & Hd).
  pose proof (does_nil _ _ _ _ _ _ _ _ Hd). subst v2. enough (k = []) as E by (rewrite E in Hd; exact Hd).
  rewrite E2 in Hh. destruct (rev k) as [|e l] eqn:E; [rewrite <- (rev_involutive k), E; reflexivity|].
  inversion Hh as [|? ? (a & [] & _)].
Qed.

Definition wsf (z : Z) : bool := existsb (Z.eqb z) [32; 9; 13; 10]%Z.
Lemma wsf_blank z : wsf z = true <-> is_blank z.
Proof. unfold wsf, is_blank. rewrite existsb_exists. split; [intros (x & H & E); apply Z.eqb_eq in E; congruence|intros H; exists z; split; auto; apply Z.eqb_refl]. Qed.
Lemma wsf_plain z : wsf z = true -> is_digit 10 z = false /\ ~ In z (txt "()+-,").
Proof. rewrite wsf_blank. intros H. split; [now apply blank_plain|]. unfold is_blank in H. cbn in *. intuition (subst; discriminate). Qed.

Lemma spaced_ext (b1 b2 : Z -> Prop) : (forall z, b1 z -> b2 z) -> forall ts s r, spaced b1 ts s r -> spaced b2 ts s r.
Proof. intros H ts s r HS. induction HS; constructor; auto. eapply Forall_impl; eauto. Qed.
Lemma nested_ext b1 b2 s : (forall z, b1 z <-> b2 z) -> nested_text b1 s <-> nested_text b2 s.
Proof.
  intros H. split; intros (ts & b & A & B & D); exists ts, b; (split; [auto|split; [eapply spaced_ext; [|exact B]; firstorder|eapply Forall_impl; [|exact D]; firstorder]]).
Qed.

Theorem nest_exact inp : Forall (tok ct_char) inp ->
  (nested_text no_blank inp -> does nest_env nest_doc TNil VNil inp SUCCESS [] VNil []) /\
  (~ nested_text no_blank inp -> exists s, does nest_env nest_doc TNil VNil inp FAILURE s VNil []).
Proof.
  intros Ht. destruct (nest_answers nest_doc inp (or_introl eq_refl)) as (r & s & Hr & Hd).
  assert (nested_text no_blank inp <-> exists s', m nest_env nows (One nest_doc) inp (Some s')) as Hm.
  { rewrite (nested_ext no_blank (fun z => (fun _ : Z => false) z = true)) by (unfold no_blank; intuition discriminate).
    symmetry. apply (nest_doc_grammar (fun _ => false)). discriminate. }
  pose proof Hd as (n & w & Hn & Hs & _).
  pose proof (proj1 (grammar ct_char nest_env nest_doc inp nest_known eq_refl Ht) n _ _ _ _ Hn) as G.
  destruct Hr as [-> | ->]; rewrite Hm.
  - split; [|intros H; destruct H; eauto]. intros _.
    rewrite Hs in G. enough (s = []) as <- by exact Hd.
    inversion G; subst. repeat match goal with H : m _ _ (All _) _ _ |- _ => inversion H; subst; clear H end.
    match goal with H : m _ _ (One Eoi) _ _ |- _ => inversion H; subst end. reflexivity.
  - split; [|eauto]. intros (s' & H). pose proof (m_det _ _ _ _ _ G _ H). discriminate.
Qed.

Theorem nest_exact_ws inp : Forall (tok ct_char) inp ->
  (nested_text is_blank inp -> exists s, does nest_env nest_doc_ws TNil VNil inp SUCCESS s VNil []) /\
  (~ nested_text is_blank inp -> exists s, does nest_env nest_doc_ws TNil VNil inp FAILURE s VNil []).
Proof.
  intros Ht. destruct (nest_answers nest_doc_ws inp (or_intror eq_refl)) as (r & s & Hr & Hd).
  assert (nested_text is_blank inp <-> exists s', m nest_env (SpecPeg.chars wsf) (One nest_doc) inp (Some s')) as Hm.
  { rewrite (nested_ext is_blank (fun z => wsf z = true)) by (intros z; now rewrite wsf_blank).
    symmetry. apply (nest_doc_grammar wsf). exact wsf_plain. }
  pose proof Hd as (n & w & Hn & Hs & _).
  assert (forall s, Forall (tok ct_char) s -> SpecPeg.chars wsf s = passes (Char (set_of_cstr [32; 9; 13; 10; 0]%Z)) s) as Hc.
  { intros [|c t] _; rewrite passes_char; [reflexivity|]. cbn [SpecPeg.chars].
    replace (wsf c) with (member (set_of_cstr [32; 9; 13; 10; 0]%Z) c); [reflexivity|]. apply eq_true_iff_eq. rewrite member_in, wsf_blank. symmetry. apply blank_set. }
  pose proof (proj1 (grammar_skipping ct_char nest_env nest_doc inp (Char (set_of_cstr [32; 9; 13; 10; 0]%Z)) (SpecPeg.chars wsf) nest_known eq_refl Ht eq_refl Hc) n _ _ _ _ Hn) as G.
  destruct Hr as [-> | ->]; rewrite Hm.
  - split; [eauto|]. intros H. destruct G as (s0 & G & _). destruct H; eauto.
  - split; [|eauto]. intros (s' & H). pose proof (m_det _ _ _ _ _ G _ H). discriminate.
Qed.

(** In pieces. *)
Theorem nest_pieces l : complete l -> Forall (tok ct_char) (fed l) ->
  (nested_text no_blank (fed l) -> delivers nest_env nest_doc TNil VNil l SUCCESS VNil []) /\
  (~ nested_text no_blank (fed l) -> delivers nest_env nest_doc TNil VNil l FAILURE VNil []) /\
  (nested_text is_blank (fed l) -> delivers nest_env nest_doc_ws TNil VNil l SUCCESS VNil []) /\
  (~ nested_text is_blank (fed l) -> delivers nest_env nest_doc_ws TNil VNil l FAILURE VNil []).
Proof.
  intros Hl Ht. pose proof (nest_exact _ Ht) as [A B]. pose proof (nest_exact_ws _ Ht) as [C D].
  split; [|split; [|split]]; intros Hx; apply pieces; eauto.
Qed.
