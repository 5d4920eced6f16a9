(** What is written for a value is read as that value, by parse() (C59). *)
From Coq Require Import List ZArith Bool Arith Lia.
From Verif Require Import Base CharSet Source Dst Pattern Parser Session SpecSession SpecPeg SpecRun SpecLeaf SpecValue SpecType SpecAttr SpecLang SpecWrite.
From Verif Require Import Leaf PegSound Run Comb LocalThms Pieces LangThms LangRun AttrRun WriteThms.
Import ListNotations.

Section Run.
Context (T : char_ty) (env : nat -> option pat) (Hk : known T env) (Hsimple : all_simple env).

Theorem written_does p t v K u rest v' k : inclass T false p = true -> simple p = true -> one_ahead_for env none p t K ->
  Forall (tok T) (u ++ rest) -> shaped t v = true -> wv env none (WOne false p) t v u v' k -> K (hd_error rest) ->
  does env p t v (u ++ rest) SUCCESS rest v' k.
Proof.
  intros Hc Hs (nul & fo & fol & rk & cal & tid & HA & HL & HT & Ht) Ti Sh HW HK.
  apply (does_mv T env Hk Hsimple p t v (u ++ rest) Hc Hs Ti Sh).
  destruct (wv_written env nul fo fol rk none cal tid HA HT none _ _ _ _ _ _ HW false eq_refl K rest (u ++ rest)) as (s' & HM & E); auto.
  { unfold next. cbn. now rewrite LangThms.trim_nows. }
  { reflexivity. }
  cbn in HM, E. apply LangThms.eqt_nows in E. now subst.
Qed.

Theorem written_does_sk skp ws : skipper T skp = true -> onechars skp = true -> (forall z, tok T z -> ws z = passes1 skp z) ->
  forall p t v K u rest v' k, inclass T true p = true -> simple p = true -> one_ahead_for env ws p t K ->
  Forall (tok T) (u ++ rest) -> shaped t v = true -> wv env ws (WOne false p) t v u v' k -> K (next ws rest) ->
  exists s, does env (WithSkipper p skp) t v (u ++ rest) SUCCESS s v' k /\ trim (chars ws) s = trim (chars ws) rest.
Proof.
  intros Hf Ho1 Hw p t v K u rest v' k Hc Hs (nul & fo & fol & rk & cal & tid & HA & HL & HT & Ht) Ti Sh HW HK.
  destruct (does_mv_sk T env Hk Hsimple skp (chars ws) Hf (ws_passes T skp ws Ho1 Hw) p t v (u ++ rest) Hc Hs Ti Sh) as (_ & H2 & _).
  destruct (wv_written env nul fo fol rk ws cal tid HA HT ws _ _ _ _ _ _ HW false eq_refl K rest (u ++ rest)) as (s' & HM & E); auto; [reflexivity|].
  cbn in HM, E. destruct (H2 _ _ _ HM) as (s & HD & Es). exists s. split; auto. now rewrite Es.
Qed.

(** In pieces. *)
Theorem written_delivers p t v K l u rest v' k : inclass T false p = true -> simple p = true -> one_ahead_for env none p t K ->
  complete l -> fed l = u ++ rest -> Forall (tok T) (fed l) -> shaped t v = true -> wv env none (WOne false p) t v u v' k -> K (hd_error rest) ->
  delivers env p t v l SUCCESS v' k.
Proof.
  intros Hc Hs Ho Hl El Ti Sh HW HK. apply (pieces env p t v l _ _ _ Hl). exists rest. rewrite El in *. eapply written_does; eauto.
Qed.
Theorem written_delivers_sk skp ws : skipper T skp = true -> onechars skp = true -> (forall z, tok T z -> ws z = passes1 skp z) ->
  forall p t v K l u rest v' k, inclass T true p = true -> simple p = true -> one_ahead_for env ws p t K ->
  complete l -> fed l = u ++ rest -> Forall (tok T) (fed l) -> shaped t v = true -> wv env ws (WOne false p) t v u v' k -> K (next ws rest) ->
  delivers env (WithSkipper p skp) t v l SUCCESS v' k.
Proof.
  intros Hf Ho1 Hw p t v K l u rest v' k Hc Hs Ho Hl El Ti Sh HW HK. apply (pieces env _ t v l _ _ _ Hl). rewrite El in *.
  destruct (written_does_sk skp ws Hf Ho1 Hw p t v K u rest v' k) as (s & HD & _); auto. eauto.
Qed.

(** A text stands for one value. *)
Theorem written_one p t v K u rest v1 k1 v2 k2 : inclass T false p = true -> simple p = true -> one_ahead_for env none p t K ->
  Forall (tok T) (u ++ rest) -> shaped t v = true -> K (hd_error rest) ->
  wv env none (WOne false p) t v u v1 k1 -> wv env none (WOne false p) t v u v2 k2 -> v1 = v2 /\ k1 = k2.
Proof.
  intros Hc Hs Ho Ti Sh HK H1 H2. pose proof (written_does p t v K u rest v1 k1 Hc Hs Ho Ti Sh H1 HK) as D1.
  pose proof (written_does p t v K u rest v2 k2 Hc Hs Ho Ti Sh H2 HK) as D2. destruct (does_fun _ _ _ _ _ _ _ _ _ _ _ _ _ D1 D2) as (_ & _ & E). exact E.
Qed.
End Run.
