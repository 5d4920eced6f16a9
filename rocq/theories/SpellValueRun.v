(** What is written for a value is read as that value, with skippers of any kind, by parse() (C59). *)
From Coq Require Import List ZArith Bool Arith Lia.
From Verif Require Import Base CharSet Source Dst Pattern Parser Session SpecSession SpecPeg SpecRun SpecLeaf SpecValue SpecType SpecAttr SpecLang SpecSpell SpecWrite SpecSpellValue.
From Verif Require Import Leaf PegSound Run Comb LocalThms Pieces AttrRun SpellThms SpellValueThms.
Import ListNotations.

Section Run.
Context (T : char_ty) (env : nat -> option pat) (Hk : known T env) (Hsimple : all_simple env).
Context (skp : pat) (Hcs : skipper T skp = true).

Theorem spelt_does ws p t v K s e v' k : (forall z, begins skp z = true -> ws z = true) ->
  inclass T true p = true -> simple p = true -> one_ahead_for env ws p t K ->
  Forall (tok T) s -> shaped t v = true -> sv env (passes skp) (WOne false p) t v s e v' k -> K (upcoming (passes skp) e) ->
  exists s', does env (WithSkipper p skp) t v s SUCCESS s' v' k /\ trim (passes skp) s' = trim (passes skp) e.
Proof.
  intros Hb Hc Hs (nul & fo & fol & rk & cal & tid & HA & HL & HT & Ht) Ti Sh HW HK.
  destruct (does_mv_sk T env Hk Hsimple skp (passes skp) Hcs (fun _ _ => eq_refl) p t v s Hc Hs Ti Sh) as (_ & H2 & _).
  destruct (sv_written env nul fo fol rk ws (passes skp) cal tid HA HT (begins_starters skp ws Hb) _ _ _ _ _ _ _ _ HW false eq_refl K s) as (s' & HM & E); auto; [reflexivity|].
  cbn in HM, E. destruct (H2 _ _ _ HM) as (x & HD & Es). exists x. split; auto. now rewrite Es.
Qed.
Theorem spelt_delivers ws p t v K l e v' k : (forall z, begins skp z = true -> ws z = true) ->
  inclass T true p = true -> simple p = true -> one_ahead_for env ws p t K ->
  complete l -> Forall (tok T) (fed l) -> shaped t v = true -> sv env (passes skp) (WOne false p) t v (fed l) e v' k -> K (upcoming (passes skp) e) ->
  delivers env (WithSkipper p skp) t v l SUCCESS v' k.
Proof.
  intros Hb Hc Hs Ho Hl Ti Sh HW HK. apply (pieces env _ t v l _ _ _ Hl).
  destruct (spelt_does ws p t v K (fed l) e v' k) as (s & HD & _); auto. eauto.
Qed.
(** A text stands for one value. *)
Theorem spelt_one ws p t v K s e1 v1 k1 e2 v2 k2 : (forall z, begins skp z = true -> ws z = true) ->
  inclass T true p = true -> simple p = true -> one_ahead_for env ws p t K ->
  Forall (tok T) s -> shaped t v = true -> K (upcoming (passes skp) e1) -> K (upcoming (passes skp) e2) ->
  sv env (passes skp) (WOne false p) t v s e1 v1 k1 -> sv env (passes skp) (WOne false p) t v s e2 v2 k2 ->
  trim (passes skp) e1 = trim (passes skp) e2 /\ v1 = v2 /\ k1 = k2.
Proof.
  intros Hb Hc Hs Ho Ti Sh HK1 HK2 H1 H2.
  destruct (spelt_does ws p t v K s e1 v1 k1) as (s1 & D1 & E1); auto. destruct (spelt_does ws p t v K s e2 v2 k2) as (s2 & D2 & E2); auto.
  destruct (does_fun _ _ _ _ _ _ _ _ _ _ _ _ _ D1 D2) as (_ & E & E'). split; auto. congruence.
Qed.
End Run.
