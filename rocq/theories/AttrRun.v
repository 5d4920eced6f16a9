(** The reading of patterns with values, for parse() (for C58). *)
From Coq Require Import List ZArith Bool Arith Lia.
From Verif Require Import Base CharSet Source Dst Pattern Parser Session Rel Big SpecPeg SpecLeaf SpecValue SpecType SpecAttr SpecRun.
From Verif Require Import BigMk BigLeaf BigSound BigComplete Leaf Limit Local LocalThms Unary LeafThms PegSound PegTerm Run Comb Pieces SpecSession AttrMem AttrSound AttrComplete.
Import ListNotations.

(** Without object nothing is stored. *)
Lemma mv_nil env ws g t v s r v' k : mv env ws g t v s r v' k -> t = TNil -> v' = v.
Proof.
  induction 1; intros E; subst; auto;
    repeat match goal with
    | H : stored TNil _ _ _ |- _ => inversion H; subst; clear H
    | H : counted _ _ _ TNil _ _ |- _ => inversion H; subst; clear H
    end; auto; try congruence.
  - inversion H; subst; auto.
  - inversion H; subst; [now rewrite IHmv2|]. rewrite IHmv2, IHmv1; auto.
  - rewrite IHmv2, IHmv1; auto.
  - rewrite IHmv2, IHmv1; auto.
  - rewrite IHmv2, IHmv1; auto.
  - rewrite IHmv3, IHmv2; auto.
  - match goal with H : called _ _ _ _ _ |- _ => inversion H; subst; auto; try congruence end.
    match goal with H : stored TNil _ _ _ |- _ => inversion H; subst; auto; congruence end.
Qed.

Section Ext.
Context (env : nat -> option pat) (P : Z -> Prop).

Lemma mv_ext ws g t v s r v' k : mv env ws g t v s r v' k -> forall ws', (forall s, Forall P s -> ws s = ws' s) -> Forall P s -> mv env ws' g t v s r v' k.
Proof.
  assert (HE : forall ws ws' s, (forall s, Forall P s -> ws s = ws' s) -> Forall P s -> trim ws s = trim ws' s).
  { intros ws0 ws' s0 Hw. now apply trim_on. }
  assert (HN : forall ws g t v s s1 v' k, mv env ws g t v s (Some s1) v' k -> Forall P s -> Forall P s1).
  { intros ws0 g0 t0 v0 s0 s1 v1 k0 HM Ts. apply mv_m in HM. destruct (m_ext_on env P _ _ _ _ HM ws0) as [_ H]; auto. }
  induction 1; intros ws' Hw Ts; pose proof (HE _ _ _ Hw Ts) as E; try rewrite E in *;
    try (econstructor; eauto; fail).
Qed.
End Ext.

Section Run.
Context (T : char_ty) (env : nat -> option pat).
Hypothesis Hk : known T env.
Hypothesis Hsimple : all_simple env.
Let HT : ct_ok T := proj1 Hk.
Let Henv := proj1 (proj2 Hk).
Let Hmok := proj2 (proj2 Hk).

Lemma place_top t v : place [v] (top_dst t) t v.
Proof. exact (place_new [] t v). Qed.

(** A run of the machine on an object of its own. *)
Lemma ev_mv ws sk c t v p inp b s cs tr : skips T c ws -> (sk = false -> ws = nows) -> peg_ok T sk default_req p = true -> simple p = true ->
  Forall (tok T) inp -> shaped t v = true ->
  ev env GRun c default_req (top_dst t) p inp (SW inp [v] []) b (SW s cs tr) ->
  exists r v' k, mv env ws (VOne false p) t v inp r v' k /\ related ws r b s /\ cs = [v'] /\ tr = rev k.
Proof.
  intros Hsk Hnw Hp Hs Ti Sh H. apply (attr_all env T HT Henv Hsimple) in H.
  destruct (H ws sk inp inp t v) as (r & v' & k & HJ & HR & HSt & HK); cbn; auto with eqt; try discriminate; [split; auto; discriminate|apply place_top|].
  cbn [JV q_s q_c q_t default_req r_atomic] in *. exists r, v', k. rewrite app_nil_r in HK.
  assert (t = TNil \/ t <> TNil) as [->|N] by (destruct t; auto; right; discriminate).
  - cbn in HSt. injection HSt as <-. pose proof (mv_nil _ _ _ _ _ _ _ _ _ HJ eq_refl) as E. subst v'. auto.
  - pose proof (store_new [] t v v' N) as E. cbn [app length] in E. unfold top_dst in HSt. rewrite E in HSt. injection HSt as <-. auto.
Qed.

Lemma mv_ev ws sk c t v p inp r v' k : skips T c ws -> (sk = false -> ws = nows) -> peg_ok T sk default_req p = true -> simple p = true ->
  Forall (tok T) inp ->
  mv env ws (VOne false p) t v inp r v' k ->
  exists b s, ev env GRun c default_req (top_dst t) p inp (SW inp [v] []) b (SW s [v'] (rev k)) /\ related ws r b s.
Proof.
  intros Hsk Hnw Hp Hs Ti HM. assert (HN := mv_nil _ _ _ _ _ _ _ _ _ HM). apply (complete_all_v env T HT Henv Hsimple) in HM.
  destruct (cg_run env T _ _ _ _ _ _ _ _ _ HM c sk default_req (top_dst t) inp (SW inp [v] [])) as (b & [s cs tr] & HE & HR & HSt & HK);
    cbn; auto with eqt; [apply place_top|].
  cbn [q_s q_c q_t] in *. rewrite app_nil_r in HK. subst tr. exists b, s. split; auto.
  assert (t = TNil \/ t <> TNil) as [->|N] by (destruct t; auto; right; discriminate).
  - cbn in HSt. injection HSt as <-. rewrite (HN eq_refl). exact HE.
  - pose proof (store_new [] t v v' N) as E. cbn [app length] in E. unfold top_dst in HSt. rewrite E in HSt. injection HSt as <-. exact HE.
Qed.

Lemma skips_top t : skips T (top_ctx t) nows. Proof. reflexivity. Qed.

Theorem does_mv p t v inp : inclass T false p = true -> simple p = true -> Forall (tok T) inp -> shaped t v = true ->
  (forall s v' k, does env p t v inp SUCCESS s v' k <-> mv env nows (VOne false p) t v inp (Some s) v' k) /\
  (forall v' k, (exists s, does env p t v inp FAILURE s v' k) <-> mv env nows (VOne false p) t v inp None v' k).
Proof.
  unfold inclass. intros Hp Hs Ti Sh. apply andb_prop in Hp as [Hp1 Hp2].
  assert (HD : forall r s v' k, does env p t v inp r s v' k -> exists b, r = res b /\
            ev env GRun (top_ctx t) default_req (top_dst t) p inp (SW inp [v] []) b (SW s [v'] (rev k))).
  { intros r s v' k (n & w & H & <- & <- & <-). apply parse_ev in H; auto. }
  assert (HE : forall b s v' k, ev env GRun (top_ctx t) default_req (top_dst t) p inp (SW inp [v] []) b (SW s [v'] (rev k)) ->
            does env p t v inp (res b) s v' k).
  { intros b s v' k H. apply (ev_parse env Hmok) in H; auto. destruct H as (w & <- & E1 & E2 & n & H). exists n, w. split; auto. }
  split.
  - intros s v' k. split.
    + intros D. destruct (HD _ _ _ _ D) as (b & E & H). destruct b; [|discriminate].
      destruct (ev_mv nows false _ _ _ _ _ _ _ _ _ (skips_top t) (fun _ => eq_refl) Hp2 Hs Ti Sh H) as (r & v1 & k1 & HM & HR & [= <-] & Ek).
      apply (f_equal (@rev event)) in Ek. rewrite !rev_involutive in Ek. subst k1. destruct r; cbn in HR; [|contradiction]. apply eqt_nows in HR. now subst.
    + intros HM. destruct (mv_ev nows false _ _ _ _ _ _ _ _ (skips_top t) (fun _ => eq_refl) Hp2 Hs Ti HM) as (b & s' & H & HR).
      destruct b; cbn in HR; [|contradiction]. apply eqt_nows in HR. subst s'. exact (HE _ _ _ _ H).
  - intros v' k. split.
    + intros (s & D). destruct (HD _ _ _ _ D) as (b & E & H). destruct b; [discriminate|].
      destruct (ev_mv nows false _ _ _ _ _ _ _ _ _ (skips_top t) (fun _ => eq_refl) Hp2 Hs Ti Sh H) as (r & v1 & k1 & HM & HR & [= <-] & Ek).
      apply (f_equal (@rev event)) in Ek. rewrite !rev_involutive in Ek. subst k1. destruct r; cbn in HR; [contradiction|]. exact HM.
    + intros HM. destruct (mv_ev nows false _ _ _ _ _ _ _ _ (skips_top t) (fun _ => eq_refl) Hp2 Hs Ti HM) as (b & s' & H & HR).
      destruct b; cbn in HR; [contradiction|]. exists s'. exact (HE _ _ _ _ H).
Qed.

Section Skipper.
Context (skp : pat) (ws : gap).
Hypothesis Hcs : skipper T skp = true.
Hypothesis Hws : forall s, Forall (tok T) s -> ws s = passes skp s.
Notation skipped p := (WithSkipper p skp).

Lemma skipped_ev t d p q x w b w' :
  ev env GRun (Ctx q (top_dst t)) default_req d p x w b w' -> ev env GRun (top_ctx t) default_req d (WithSkipper p q) x w b w'.
Proof.
  intros H. apply ev_noskip; [reflexivity|reflexivity|]. apply ev_cln_no; [reflexivity|]. apply ev_atm_no; [reflexivity|]. apply ev_skipper. exact H.
Qed.

Theorem does_mv_sk p t v inp : inclass T true p = true -> simple p = true -> Forall (tok T) inp -> shaped t v = true ->
  (forall s v' k, does env (skipped p) t v inp SUCCESS s v' k ->
     exists s', mv env ws (VOne false p) t v inp (Some s') v' k /\ trim ws s = trim ws s') /\
  (forall s' v' k, mv env ws (VOne false p) t v inp (Some s') v' k ->
     exists s, does env (skipped p) t v inp SUCCESS s v' k /\ trim ws s = trim ws s') /\
  (forall v' k, (exists s, does env (skipped p) t v inp FAILURE s v' k) <-> mv env ws (VOne false p) t v inp None v' k).
Proof.
  unfold inclass. intros Hp Hs Ti Sh. assert (Hm := plain_sk_mok T skp Hcs p Hp). apply andb_prop in Hp as [Hp1 Hp2].
  assert (HSk : skips T (Ctx skp (top_dst t)) (passes skp)) by exact (skips_passes T HT skp (top_dst t) Hcs).
  assert (TE : forall r s v' k, does env (skipped p) t v inp r s v' k -> Forall (tok T) s).
  { intros r s v' k (n & w & H & <- & _). apply parse_ev in H; auto. destruct H as (b & _ & H). apply (toks_ev env T) in H; auto. }
  assert (HD : forall r s v' k, does env (skipped p) t v inp r s v' k -> exists b, r = res b /\
            ev env GRun (Ctx skp (top_dst t)) default_req (top_dst t) p inp (SW inp [v] []) b (SW s [v'] (rev k))).
  { intros r s v' k (n & w & H & <- & <- & <-). apply parse_ev in H; auto. destruct H as (b & -> & H). exists b. split; auto. apply ev_skipped in H; congruence. }
  assert (HE : forall b s v' k, ev env GRun (Ctx skp (top_dst t)) default_req (top_dst t) p inp (SW inp [v] []) b (SW s [v'] (rev k)) ->
            does env (skipped p) t v inp (res b) s v' k).
  { intros b s v' k H. apply skipped_ev in H. apply (ev_parse env Hmok) in H; auto. destruct H as (w & <- & E1 & E2 & n & H). exists n, w. split; auto. }
  assert (X1 : forall g t v s r v' k, Forall (tok T) s -> mv env (passes skp) g t v s r v' k -> mv env ws g t v s r v' k).
  { intros. eapply mv_ext; eauto. intros. symmetry. auto. }
  assert (X2 : forall g t v s r v' k, Forall (tok T) s -> mv env ws g t v s r v' k -> mv env (passes skp) g t v s r v' k).
  { intros. eapply mv_ext; eauto. }
  assert (XT : forall g t v s r v' k, Forall (tok T) s -> mv env ws g t v s (Some r) v' k -> Forall (tok T) r).
  { intros. apply mv_m in H0. destruct (m_ext_on env (tok T) _ _ _ _ H0 ws) as [_ H1]; auto. }
  assert (TV : forall s s', Forall (tok T) s -> Forall (tok T) s' -> eqt (passes skp) s' s -> trim ws s = trim ws s').
  { intros s s' H1 H2 E. rewrite !(trim_valid T skp ws Hws) by auto. now symmetry. }
  repeat split.
  - intros s v' k D. assert (Ts := TE _ _ _ _ D). destruct (HD _ _ _ _ D) as (b & E & H). destruct b; [|discriminate].
    destruct (ev_mv _ true _ _ _ _ _ _ _ _ _ HSk ltac:(discriminate) Hp2 Hs Ti Sh H) as (r & v1 & k1 & HM & HR & [= <-] & Ek).
    apply (f_equal (@rev event)) in Ek. rewrite !rev_involutive in Ek. subst k1. destruct r as [s'|]; cbn in HR; [|contradiction].
    apply X1 in HM; auto. exists s'. split; auto. apply TV; auto. eapply XT; [exact Ti|exact HM].
  - intros s' v' k HM. assert (Ts' := XT _ _ _ _ _ _ _ Ti HM). apply X2 in HM; auto.
    destruct (mv_ev _ true _ _ _ _ _ _ _ _ HSk ltac:(discriminate) Hp2 Hs Ti HM) as (b & s & H & HR).
    destruct b; cbn in HR; [|contradiction]. assert (D := HE _ _ _ _ H). exists s. split; [exact D|]. apply TV; auto. eapply TE; eauto.
  - intros (s & D). destruct (HD _ _ _ _ D) as (b & E & H). destruct b; [discriminate|].
    destruct (ev_mv _ true _ _ _ _ _ _ _ _ _ HSk ltac:(discriminate) Hp2 Hs Ti Sh H) as (r & v1 & k1 & HM & HR & [= <-] & Ek).
    apply (f_equal (@rev event)) in Ek. rewrite !rev_involutive in Ek. subst k1. destruct r; cbn in HR; [contradiction|]. now apply X1.
  - intros HM. apply X2 in HM; auto. destruct (mv_ev _ true _ _ _ _ _ _ _ _ HSk ltac:(discriminate) Hp2 Hs Ti HM) as (b & s' & H & HR).
    destruct b; cbn in HR; [contradiction|]. exists s'. exact (HE _ _ _ _ H).
Qed.
End Skipper.
End Run.

(** ** One value, and text in pieces *)
Section More.
Context (T : char_ty) (env : nat -> option pat) (Hk : known T env) (Hsimple : all_simple env).

Theorem mv_one p t v inp : inclass T false p = true -> simple p = true -> Forall (tok T) inp -> shaped t v = true ->
  forall r1 v1 k1 r2 v2 k2, mv env nows (VOne false p) t v inp r1 v1 k1 -> mv env nows (VOne false p) t v inp r2 v2 k2 ->
  r1 = r2 /\ v1 = v2 /\ k1 = k2.
Proof.
  intros Hc Hs Ti Sh. destruct (does_mv T env Hk Hsimple p t v inp Hc Hs Ti Sh) as [HS HF].
  assert (X : forall r v' k, mv env nows (VOne false p) t v inp r v' k ->
    exists s, does env p t v inp (match r with Some _ => SUCCESS | None => FAILURE end) s v' k /\ forall s', r = Some s' -> s = s').
  { intros [s|] v' k H; [apply HS in H; exists s; split; [auto|congruence]|]. apply HF in H as (s & H). exists s. split; [auto|discriminate]. }
  intros r1 v1 k1 r2 v2 k2 H1 H2. apply X in H1 as (s1 & H1 & E1). apply X in H2 as (s2 & H2 & E2).
  destruct (does_fun _ _ _ _ _ _ _ _ _ _ _ _ _ H1 H2) as (Er & Es & Ev & Ek). split; auto.
  destruct r1, r2; try discriminate; auto. rewrite <- (E1 _ eq_refl), <- (E2 _ eq_refl). now subst.
Qed.

Theorem delivers_mv p t v l : inclass T false p = true -> simple p = true -> complete l -> Forall (tok T) (fed l) -> shaped t v = true ->
  (forall v' k, delivers env p t v l SUCCESS v' k <-> exists s, mv env nows (VOne false p) t v (fed l) (Some s) v' k) /\
  (forall v' k, delivers env p t v l FAILURE v' k <-> mv env nows (VOne false p) t v (fed l) None v' k).
Proof.
  intros Hc Hs Hl Ti Sh. destruct (does_mv T env Hk Hsimple p t v (fed l) Hc Hs Ti Sh) as [HS HF].
  split; intros v' k; rewrite (pieces env p t v l _ v' k Hl); [|apply HF].
  split; intros (s & H); exists s; now apply HS.
Qed.

Theorem delivers_mv_sk skp ws : skipper T skp = true -> (forall s, Forall (tok T) s -> ws s = passes skp s) ->
  forall p t v l, inclass T true p = true -> simple p = true -> complete l -> Forall (tok T) (fed l) -> shaped t v = true ->
  (forall v' k, delivers env (WithSkipper p skp) t v l SUCCESS v' k <-> exists s, mv env ws (VOne false p) t v (fed l) (Some s) v' k) /\
  (forall v' k, delivers env (WithSkipper p skp) t v l FAILURE v' k <-> mv env ws (VOne false p) t v (fed l) None v' k).
Proof.
  intros Hf Hw p t v l Hc Hs Hl Ti Sh. destruct (does_mv_sk T env Hk Hsimple skp ws Hf Hw p t v (fed l) Hc Hs Ti Sh) as (H1 & H2 & HF).
  split; intros v' k; rewrite (pieces env _ t v l _ v' k Hl); [|apply HF].
  split; intros (s & H); [apply H1 in H as (s' & H & _)|apply H2 in H as (s' & H & _)]; eauto.
Qed.
End More.
