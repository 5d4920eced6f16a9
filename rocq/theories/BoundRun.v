(** The reading of patterns with two objects, for parse() (for C68). *)
From Coq Require Import List ZArith Bool Arith Lia.
From Verif Require Import Base CharSet Source Dst Pattern Parser Session Rel Big SpecPeg SpecLeaf SpecValue SpecType SpecAttr SpecBound SpecRun.
From Verif Require Import BigMk BigLeaf BigSound BigComplete Leaf Limit Local LocalThms Unary LeafThms PegSound PegTerm Run Comb Pieces SpecSession AttrMem AttrSound AttrComplete AttrRun BoundMem BoundSound BoundComplete.
Import ListNotations.

(** Where no object is bound, none is changed. *)
Definition apart (L : where_) : bool := match L with InBound _ => false | _ => true end.
Lemma becomes_apart L y h h' : apart L = true -> becomes y L h h' -> o_bound h' = o_bound h.
Proof. intros HE H. inversion H; subst; auto. discriminate. Qed.
Lemma assigned_apart L t x h h' : apart L = true -> assigned t L x h h' -> o_bound h' = o_bound h.
Proof. intros HE (v & v' & _ & _ & H). eapply becomes_apart; eauto. Qed.
Lemma numbered_apart b neg ds L t h h' : apart L = true -> numbered b neg ds t L h h' -> o_bound h' = o_bound h.
Proof. intros HE (v & v' & _ & _ & H). eapply becomes_apart; eauto. Qed.
Lemma calls_apart a L t y h h' : apart L = true -> calls a TNil t L y h h' -> o_bound h' = o_bound h.
Proof.
  intros HE H. assert (HA : forall r h1, answered a t L r h1 h' -> o_bound h' = o_bound h1).
  { intros r h1. unfold answered. destruct (ac_void a); [now intros ->|]. now apply assigned_apart. }
  inversion H; subst; eauto. congruence.
Qed.
Lemma part_apart q i t L tq Lq : part_in q i t L tq Lq -> apart L = true -> apart Lq = true.
Proof. intros H. inversion H; subst; auto. now destruct L. Qed.
Lemma own_apart t : apart (the_own t) = true.
Proof. now destruct t. Qed.

Lemma mb_apart env ws g tb L t h s r h' k : mb env ws g tb L t h s r h' k -> tb = TNil -> apart L = true -> o_bound h' = o_bound h.
Proof.
  induction 1; intros E HE; subst; try (eapply assigned_apart; eassumption); try (eapply numbered_apart; eassumption); try (eapply becomes_apart; eassumption); auto;
    try (eauto using part_apart; fail).
  all: cbn [o_bound o_own] in *;
    repeat match goal with
    | H : assigned _ _ _ _ _ |- _ => apply assigned_apart in H; [|exact HE]
    | H : calls _ TNil _ _ _ _ _ |- _ => apply calls_apart in H; [|exact HE]
    | H : part_in _ _ _ _ _ _ |- _ => apply part_apart in H; [|exact HE]
    | H : _ = _ -> apart (the_own _) = true -> _ |- _ => specialize (H eq_refl (own_apart _))
    | H : _ = _ -> apart _ = true -> _ |- _ => specialize (H eq_refl ltac:(first [exact HE|reflexivity|assumption]))
    end; cbn [o_bound o_own] in *; congruence.
Qed.

Section Ext.
Context (env : nat -> option pat) (P : Z -> Prop).

Lemma mb_ext ws g tb L t h s r h' k : mb env ws g tb L t h s r h' k -> forall ws', (forall s, Forall P s -> ws s = ws' s) -> Forall P s -> mb env ws' g tb L t h s r h' k.
Proof.
  assert (HE : forall ws ws' s, (forall s, Forall P s -> ws s = ws' s) -> Forall P s -> trim ws s = trim ws' s).
  { intros ws0 ws' s0 Hw. now apply trim_on. }
  assert (HN : forall ws g tb L t h s s1 h' k, mb env ws g tb L t h s (Some s1) h' k -> Forall P s -> Forall P s1).
  { intros ws0 g0 tb0 L0 t0 h0 s0 s1 h1 k0 HM Ts. apply mb_m in HM. destruct (m_ext_on env P _ _ _ _ HM ws0) as [_ H]; auto. }
  induction 1; intros ws' Hw Ts; pose proof (HE _ _ _ Hw Ts) as E; try rewrite E in *;
    try (econstructor; eauto; fail).
Qed.
End Ext.

Section Run.
Context (T : char_ty) (env : nat -> option pat).
Hypothesis Hk : known T env.
Hypothesis Htidy : all_tidy env.
Let HT : ct_ok T := proj1 Hk.
Let Henv := proj1 (proj2 Hk).
Let Hmok := proj2 (proj2 Hk).

Lemma rep_top t v : shaped t v = true -> Rep [v] (top_dst t) (top_dst t) t TNil (the_bound t) t (Objects v VNil).
Proof.
  intros Sh. refine (conj _ (conj _ (conj _ _))); cbn [o_bound o_own].
  - exact (place_new [] t v).
  - apply fits_bound.
  - split; auto.
  - destruct t; reflexivity.
Qed.

(** A run of the machine on the object that is bound. *)
Lemma ev_reads ws sk c t v p inp b s cs tr : c_bound c = top_dst t -> skips T c ws -> (sk = false -> ws = nows) -> peg_ok T sk default_req p = true -> tidy p = true ->
  Forall (tok T) inp -> shaped t v = true ->
  ev env GRun c default_req (top_dst t) p inp (SW inp [v] []) b (SW s cs tr) ->
  exists r v' k, reads env ws p t v inp r v' k /\ related ws r b s /\ cs = [v'] /\ tr = rev k.
Proof.
  intros Hc Hsk Hnw Hp Hs Ti Sh H. apply (attr_all env T HT Henv Htidy) in H.
  destruct (H ws sk inp inp t TNil (the_bound t) t (Objects v VNil)) as (r & [v' x] & k & HJ & HR & HSt & HK); cbn; auto with eqt; try discriminate; [split; auto; discriminate|rewrite Hc; now apply rep_top|].
  cbn [JV q_s q_c q_t default_req r_atomic] in *. exists r, v', k. rewrite app_nil_r in HK. split; [exists x; exact HJ|]. split; auto. split; auto.
  rewrite Hc in HSt. apply wr_bind in HSt. cbn [o_bound] in HSt.
  destruct (nil_or t) as [->|N].
  - cbn in HSt. injection HSt as <-. pose proof (mb_apart _ _ _ _ _ _ _ _ _ _ _ HJ eq_refl eq_refl) as E. cbn in E. now subst v'.
  - pose proof (store_new [] t v v' N) as E. cbn [app length] in E. unfold top_dst in HSt. rewrite E in HSt. now injection HSt as <-.
Qed.

Lemma reads_ev ws sk c t v p inp r v' k : c_bound c = top_dst t -> skips T c ws -> (sk = false -> ws = nows) -> peg_ok T sk default_req p = true -> tidy p = true ->
  Forall (tok T) inp -> shaped t v = true ->
  reads env ws p t v inp r v' k ->
  exists b s, ev env GRun c default_req (top_dst t) p inp (SW inp [v] []) b (SW s [v'] (rev k)) /\ related ws r b s.
Proof.
  intros Hc Hsk Hnw Hp Hs Ti Sh (x & HM). assert (HN := mb_apart _ _ _ _ _ _ _ _ _ _ _ HM). apply (complete_all_b env T HT Henv Htidy) in HM.
  destruct (cg_run env T _ _ _ _ _ _ _ _ _ _ _ HM c sk default_req (top_dst t) TNil inp (SW inp [v] [])) as (b & [s cs tr] & HE & HR & HSt & HK);
    cbn; auto with eqt; [rewrite Hc; now apply rep_top|].
  cbn [q_s q_c q_t] in *. rewrite app_nil_r in HK. subst tr. exists b, s. split; auto.
  rewrite Hc in HSt. apply wr_bind in HSt. cbn [o_bound] in *.
  destruct (nil_or t) as [->|N].
  - cbn in HSt. injection HSt as <-. rewrite (HN eq_refl eq_refl). exact HE.
  - pose proof (store_new [] t v v' N) as E. cbn [app length] in E. unfold top_dst in HSt. rewrite E in HSt. injection HSt as <-. exact HE.
Qed.

Lemma skips_top t : skips T (top_ctx t) nows. Proof. reflexivity. Qed.

Theorem does_reads p t v inp : inclass T false p = true -> tidy p = true -> Forall (tok T) inp -> shaped t v = true ->
  (forall s v' k, does env p t v inp SUCCESS s v' k <-> reads env nows p t v inp (Some s) v' k) /\
  (forall v' k, (exists s, does env p t v inp FAILURE s v' k) <-> reads env nows p t v inp None v' k).
Proof.
  unfold inclass. intros Hp Hs Ti Sh. apply andb_prop in Hp as [Hp1 Hp2].
  assert (HD : forall r s v' k, does env p t v inp r s v' k -> exists b, r = res b /\
            ev env GRun (top_ctx t) default_req (top_dst t) p inp (SW inp [v] []) b (SW s [v'] (rev k))).
  { intros r s v' k (n & w & H & <- & <- & <-). apply parse_ev in H; auto. }
  assert (HE : forall b s v' k, ev env GRun (top_ctx t) default_req (top_dst t) p inp (SW inp [v] []) b (SW s [v'] (rev k)) ->
            does env p t v inp (res b) s v' k).
  { intros b s v' k H. apply (ev_parse env Hmok) in H; auto. destruct H as (w & <- & E1 & E2 & n & H). exists n, w. split; auto. }
  split.
  - intros s v' k. split.
    + intros D. destruct (HD _ _ _ _ D) as (b & E & H). destruct b; [|discriminate].
      destruct (ev_reads nows false (top_ctx t) t _ _ _ _ _ _ _ eq_refl (skips_top t) (fun _ => eq_refl) Hp2 Hs Ti Sh H) as (r & v1 & k1 & HM & HR & [= <-] & Ek).
      apply (f_equal (@rev event)) in Ek. rewrite !rev_involutive in Ek. subst k1. destruct r; cbn in HR; [|contradiction]. apply eqt_nows in HR. now subst.
    + intros HM. destruct (reads_ev nows false (top_ctx t) t _ _ _ _ _ _ eq_refl (skips_top t) (fun _ => eq_refl) Hp2 Hs Ti Sh HM) as (b & s' & H & HR).
      destruct b; cbn in HR; [|contradiction]. apply eqt_nows in HR. subst s'. exact (HE _ _ _ _ H).
  - intros v' k. split.
    + intros (s & D). destruct (HD _ _ _ _ D) as (b & E & H). destruct b; [discriminate|].
      destruct (ev_reads nows false (top_ctx t) t _ _ _ _ _ _ _ eq_refl (skips_top t) (fun _ => eq_refl) Hp2 Hs Ti Sh H) as (r & v1 & k1 & HM & HR & [= <-] & Ek).
      apply (f_equal (@rev event)) in Ek. rewrite !rev_involutive in Ek. subst k1. destruct r; cbn in HR; [contradiction|]. exact HM.
    + intros HM. destruct (reads_ev nows false (top_ctx t) t _ _ _ _ _ _ eq_refl (skips_top t) (fun _ => eq_refl) Hp2 Hs Ti Sh HM) as (b & s' & H & HR).
      destruct b; cbn in HR; [contradiction|]. exists s'. exact (HE _ _ _ _ H).
Qed.

Section Skipper.
Context (skp : pat) (ws : gap).
Hypothesis Hcs : skipper T skp = true.
Hypothesis Hws : forall s, Forall (tok T) s -> ws s = passes skp s.
Notation skipped p := (WithSkipper p skp).

Lemma skipped_ev t d p q x w b w' :
  ev env GRun (Ctx q (top_dst t)) default_req d p x w b w' -> ev env GRun (top_ctx t) default_req d (WithSkipper p q) x w b w'.
Proof.
  intros H. apply ev_noskip; [reflexivity|reflexivity|]. apply ev_cln_no; [reflexivity|]. apply ev_atm_no; [reflexivity|]. apply ev_skipper. exact H.
Qed.

Theorem does_reads_sk p t v inp : inclass T true p = true -> tidy p = true -> Forall (tok T) inp -> shaped t v = true ->
  (forall s v' k, does env (skipped p) t v inp SUCCESS s v' k ->
     exists s', reads env ws p t v inp (Some s') v' k /\ trim ws s = trim ws s') /\
  (forall s' v' k, reads env ws p t v inp (Some s') v' k ->
     exists s, does env (skipped p) t v inp SUCCESS s v' k /\ trim ws s = trim ws s') /\
  (forall v' k, (exists s, does env (skipped p) t v inp FAILURE s v' k) <-> reads env ws p t v inp None v' k).
Proof.
  unfold inclass. intros Hp Hs Ti Sh. assert (Hm := plain_sk_mok T skp Hcs p Hp). apply andb_prop in Hp as [Hp1 Hp2].
  assert (HSk : skips T (Ctx skp (top_dst t)) (passes skp)) by exact (skips_passes T HT skp (top_dst t) Hcs).
  assert (TE : forall r s v' k, does env (skipped p) t v inp r s v' k -> Forall (tok T) s).
  { intros r s v' k (n & w & H & <- & _). apply parse_ev in H; auto. destruct H as (b & _ & H). apply (toks_ev env T) in H; auto. }
  assert (HD : forall r s v' k, does env (skipped p) t v inp r s v' k -> exists b, r = res b /\
            ev env GRun (Ctx skp (top_dst t)) default_req (top_dst t) p inp (SW inp [v] []) b (SW s [v'] (rev k))).
  { intros r s v' k (n & w & H & <- & <- & <-). apply parse_ev in H; auto. destruct H as (b & -> & H). exists b. split; auto. apply ev_skipped in H; congruence. }
  assert (HE : forall b s v' k, ev env GRun (Ctx skp (top_dst t)) default_req (top_dst t) p inp (SW inp [v] []) b (SW s [v'] (rev k)) ->
            does env (skipped p) t v inp (res b) s v' k).
  { intros b s v' k H. apply skipped_ev in H. apply (ev_parse env Hmok) in H; auto. destruct H as (w & <- & E1 & E2 & n & H). exists n, w. split; auto. }
  assert (X1 : forall r v' k, reads env (passes skp) p t v inp r v' k -> reads env ws p t v inp r v' k).
  { intros r v' k (x & H). exists x. eapply mb_ext; eauto. intros. symmetry. auto. }
  assert (X2 : forall r v' k, reads env ws p t v inp r v' k -> reads env (passes skp) p t v inp r v' k).
  { intros r v' k (x & H). exists x. eapply mb_ext; eauto. }
  assert (XT : forall r v' k, reads env ws p t v inp (Some r) v' k -> Forall (tok T) r).
  { intros r v' k (x & H). apply mb_m in H. destruct (m_ext_on env (tok T) _ _ _ _ H ws) as [_ H1]; auto. }
  assert (TV : forall s s', Forall (tok T) s -> Forall (tok T) s' -> eqt (passes skp) s' s -> trim ws s = trim ws s').
  { intros s s' H1 H2 E. rewrite !(trim_valid T skp ws Hws) by auto. now symmetry. }
  repeat split.
  - intros s v' k D. assert (Ts := TE _ _ _ _ D). destruct (HD _ _ _ _ D) as (b & E & H). destruct b; [|discriminate].
    destruct (ev_reads _ true (Ctx skp (top_dst t)) t _ _ _ _ _ _ _ eq_refl HSk ltac:(discriminate) Hp2 Hs Ti Sh H) as (r & v1 & k1 & HM & HR & [= <-] & Ek).
    apply (f_equal (@rev event)) in Ek. rewrite !rev_involutive in Ek. subst k1. destruct r as [s'|]; cbn in HR; [|contradiction].
    apply X1 in HM; auto. exists s'. split; auto. apply TV; auto. eapply XT; exact HM.
  - intros s' v' k HM. assert (Ts' := XT _ _ _ HM). apply X2 in HM; auto.
    destruct (reads_ev _ true (Ctx skp (top_dst t)) t _ _ _ _ _ _ eq_refl HSk ltac:(discriminate) Hp2 Hs Ti Sh HM) as (b & s & H & HR).
    destruct b; cbn in HR; [|contradiction]. assert (D := HE _ _ _ _ H). exists s. split; [exact D|]. apply TV; auto. eapply TE; eauto.
  - intros (s & D). destruct (HD _ _ _ _ D) as (b & E & H). destruct b; [discriminate|].
    destruct (ev_reads _ true (Ctx skp (top_dst t)) t _ _ _ _ _ _ _ eq_refl HSk ltac:(discriminate) Hp2 Hs Ti Sh H) as (r & v1 & k1 & HM & HR & [= <-] & Ek).
    apply (f_equal (@rev event)) in Ek. rewrite !rev_involutive in Ek. subst k1. destruct r; cbn in HR; [contradiction|]. now apply X1.
  - intros HM. apply X2 in HM; auto. destruct (reads_ev _ true (Ctx skp (top_dst t)) t _ _ _ _ _ _ eq_refl HSk ltac:(discriminate) Hp2 Hs Ti Sh HM) as (b & s' & H & HR).
    destruct b; cbn in HR; [contradiction|]. exists s'. exact (HE _ _ _ _ H).
Qed.
End Skipper.
End Run.

(** ** One value, and text in pieces *)
Section More.
Context (T : char_ty) (env : nat -> option pat) (Hk : known T env) (Htidy : all_tidy env).

Theorem reads_one p t v inp : inclass T false p = true -> tidy p = true -> Forall (tok T) inp -> shaped t v = true ->
  forall r1 v1 k1 r2 v2 k2, reads env nows p t v inp r1 v1 k1 -> reads env nows p t v inp r2 v2 k2 ->
  r1 = r2 /\ v1 = v2 /\ k1 = k2.
Proof.
  intros Hc Hs Ti Sh. destruct (does_reads T env Hk Htidy p t v inp Hc Hs Ti Sh) as [HS HF].
  assert (X : forall r v' k, reads env nows p t v inp r v' k ->
    exists s, does env p t v inp (match r with Some _ => SUCCESS | None => FAILURE end) s v' k /\ forall s', r = Some s' -> s = s').
  { intros [s|] v' k H; [apply HS in H; exists s; split; [auto|congruence]|]. apply HF in H as (s & H). exists s. split; [auto|discriminate]. }
  intros r1 v1 k1 r2 v2 k2 H1 H2. apply X in H1 as (s1 & H1 & E1). apply X in H2 as (s2 & H2 & E2).
  destruct (does_fun _ _ _ _ _ _ _ _ _ _ _ _ _ H1 H2) as (Er & Es & Ev & Ek). split; auto.
  destruct r1, r2; try discriminate; auto. rewrite <- (E1 _ eq_refl), <- (E2 _ eq_refl). now subst.
Qed.

Theorem delivers_reads p t v l : inclass T false p = true -> tidy p = true -> complete l -> Forall (tok T) (fed l) -> shaped t v = true ->
  (forall v' k, delivers env p t v l SUCCESS v' k <-> exists s, reads env nows p t v (fed l) (Some s) v' k) /\
  (forall v' k, delivers env p t v l FAILURE v' k <-> reads env nows p t v (fed l) None v' k).
Proof.
  intros Hc Hs Hl Ti Sh. destruct (does_reads T env Hk Htidy p t v (fed l) Hc Hs Ti Sh) as [HS HF].
  split; intros v' k; rewrite (pieces env p t v l _ v' k Hl); [|apply HF].
  split; intros (s & H); exists s; now apply HS.
Qed.

Theorem delivers_reads_sk skp ws : skipper T skp = true -> (forall s, Forall (tok T) s -> ws s = passes skp s) ->
  forall p t v l, inclass T true p = true -> tidy p = true -> complete l -> Forall (tok T) (fed l) -> shaped t v = true ->
  (forall v' k, delivers env (WithSkipper p skp) t v l SUCCESS v' k <-> exists s, reads env ws p t v (fed l) (Some s) v' k) /\
  (forall v' k, delivers env (WithSkipper p skp) t v l FAILURE v' k <-> reads env ws p t v (fed l) None v' k).
Proof.
  intros Hf Hw p t v l Hc Hs Hl Ti Sh. destruct (does_reads_sk T env Hk Htidy skp ws Hf Hw p t v (fed l) Hc Hs Ti Sh) as (H1 & H2 & HF).
  split; intros v' k; rewrite (pieces env _ t v l _ v' k Hl); [|apply HF].
  split; intros (s & H); [apply H1 in H as (s' & H & _)|apply H2 in H as (s' & H & _)]; eauto.
Qed.
End More.

(** ** Without such callbacks it is the reading of SpecAttr.v *)
Lemma simple_tidy p : simple p = true -> tidy p = true.
Proof.
  induction p using pat_ind'; cbn [simple tidy]; auto; try (intros E; apply andb_prop in E as [E1 E2]; rewrite ?IHp, ?IHp1, ?IHp2 by assumption; auto; fail).
  - destruct l; auto. rewrite !forallb_forall. intros E q Hq. rewrite Forall_forall in H. auto.
  - destruct l; auto. rewrite !forallb_forall. intros E q Hq. rewrite Forall_forall in H. auto.
Qed.
Lemma all_simple_tidy env : all_simple env -> all_tidy env.
Proof. intros H id q E. apply simple_tidy. eapply H; eauto. Qed.

Theorem reads_mv T env p t v inp : known T env -> all_simple env -> inclass T false p = true -> simple p = true -> Forall (tok T) inp -> shaped t v = true ->
  forall r v' k, reads env nows p t v inp r v' k <-> mv env nows (VOne false p) t v inp r v' k.
Proof.
  intros Hk Hs Hc Hp Ti Sh [s|] v' k.
  - rewrite <- (proj1 (does_mv T env Hk Hs p t v inp Hc Hp Ti Sh)). symmetry.
    apply (proj1 (does_reads T env Hk (all_simple_tidy _ Hs) p t v inp Hc (simple_tidy _ Hp) Ti Sh)).
  - rewrite <- (proj2 (does_mv T env Hk Hs p t v inp Hc Hp Ti Sh)). symmetry.
    apply (proj2 (does_reads T env Hk (all_simple_tidy _ Hs) p t v inp Hc (simple_tidy _ Hp) Ti Sh)).
Qed.
