(** What the requirements of a parser change: asking for a clean failure changes nothing
    but the place where a failing parser stops. *)
From Coq Require Import List ZArith Bool Arith Lia.
From Verif Require Import Base CharSet Source Dst Pattern Parser Big.
Import ListNotations.

Section Req.
Context (env : nat -> option pat).
Notation ev := (ev env).

(** ** Text skipped in front *)

Inductive skipping (sk : pat) : list Z -> list Z -> Prop :=
| skp_end s : skip1 sk s = None -> skipping sk s s
| skp_more s s1 s' : skip1 sk s = Some s1 -> skipping sk s1 s' -> skipping sk s s'.

Definition ahead (c : ctx) (s s' : list Z) : Prop :=
  if is_fail (c_skip c) then s' = s else skipping (c_skip c) s s'.

Lemma at_at s s' w : at_ s (at_ s' w) = at_ s w. Proof. reflexivity. Qed.
Lemma at_same w : at_ (q_s w) w = w. Proof. now destruct w. Qed.

Lemma skip_cln c rq d p x w r w' :
  ev GSkip c rq d p x w r w' <->
  exists s, skipping (c_skip c) (q_s w) s /\ ev GCln c rq d p x (at_ s w) r w'.
Proof.
  split.
  - intros H. remember GSkip as g eqn:Eg. revert Eg. induction H; intros Eg; try discriminate.
    + destruct (IHev eq_refl) as (s' & A & B). exists s'. split; auto. eapply skp_more; eauto.
    + exists (q_s w). rewrite at_same. split; auto. now constructor.
  - intros (s & Hs & H). remember (q_s w) as s0 eqn:E0. revert w E0 H. induction Hs; intros w E0 H'; subst.
    + rewrite at_same in H'. now apply ev_skip_end.
    + eapply ev_skip_more; [eassumption|]. apply IHHs; auto.
Qed.

Lemma run_cln c rq d p x w r w' : r_recur rq = false ->
  (ev GRun c rq d p x w r w' <->
   exists s, ahead c (q_s w) s /\ ev GCln c rq d p x (at_ s w) r w').
Proof.
  intros Hr. unfold ahead. split.
  - intros H. inversion H; subst; try congruence.
    + rewrite H1. exists (q_s w). now rewrite at_same.
    + rewrite H1. now apply skip_cln.
  - intros (s & Hs & H). destruct (is_fail (c_skip c)) eqn:E.
    + subst. rewrite at_same in H. now apply ev_noskip.
    + apply ev_skip; auto. apply skip_cln. eauto.
Qed.

Lemma cln_atm c rq d p x w r w' :
  ev GCln c rq d p x w r w' <->
  if wants_clean rq p
  then exists w1, ev GAtm c (unclean_req rq) d p x w r w1 /\ w' = if r then w1 else at_ x w1
  else ev GAtm c rq d p x w r w'.
Proof.
  split.
  - intros H. inversion H; subst; rewrite H0; eauto.
  - destruct (wants_clean rq p) eqn:E.
    + intros (w1 & H & ->). destruct r; [now apply ev_cln_ok|now apply ev_cln_ko].
    + now apply ev_cln_no.
Qed.

Lemma atm_raw c rq d p x w r w' :
  ev GAtm c rq d p x w r w' <->
  if wants_atomic rq p
  then exists s cs v tr,
    ev GRaw c (unatomic_req rq) (dst_cell (length (q_c w)) (dst_value_ty d)) p x
       (with_c (q_c w ++ [default_init (dst_value_ty d)]) w) r (SW s (cs ++ [v]) tr) /\
    length cs = length (q_c w) /\
    if r then exists cs', assign cs d v = Done cs' /\ w' = SW s cs' tr else w' = SW s cs tr
  else ev GRaw c rq d p x w r w'.
Proof.
  split.
  - intros H. inversion H; subst; match goal with H : wants_atomic _ _ = _ |- _ => rewrite H end; auto.
    + exists s, cs, v, tr. eauto.
    + exists s, cs, v, tr. eauto.
  - destruct (wants_atomic rq p) eqn:E.
    + intros (s & cs & v & tr & H & Hl & Hr). destruct r.
      * destruct Hr as (cs' & Ha & ->). eapply ev_atm_ok; eauto.
      * subst. eapply ev_atm_ko; eauto.
    + now apply ev_atm_no.
Qed.

(** ** Clean failure *)

Definition cleanly (rq rq2 : req) : Prop :=
  r_atomic rq = r_atomic rq2 /\ r_consumes rq = r_consumes rq2 /\ r_recur rq = r_recur rq2.

Definition same_but_place (r : bool) (a b : sw) : Prop :=
  q_c a = q_c b /\ q_t a = q_t b /\ (r = true -> q_s a = q_s b).

Lemma sbp_refl r a : same_but_place r a a. Proof. repeat split; auto. Qed.
Hint Resolve sbp_refl : core.

Lemma cleanly_un rq rq2 : cleanly rq rq2 -> cleanly (unatomic_req rq) (unatomic_req rq2).
Proof. unfold cleanly. cbn. tauto. Qed.

Lemma cleanly_wants rq rq2 p : cleanly rq rq2 -> wants_atomic rq2 p = wants_atomic rq p.
Proof. intros (H & _). unfold wants_atomic. now rewrite H. Qed.

Lemma sbp_split r s cs v tr w2 : same_but_place r (SW s (cs ++ [v]) tr) w2 ->
  exists s2, w2 = SW s2 (cs ++ [v]) tr /\ (r = true -> s2 = s).
Proof. destruct w2. intros (A & B & C). cbn in *. subst. eexists. split; [reflexivity|]. intros. now rewrite C. Qed.

Theorem ev_cleanly g c rq d p x w r w' : ev g c rq d p x w r w' ->
  match g with GSkip | GCln | GAtm => r_recur rq = false | _ => True end ->
  forall rq2, cleanly rq rq2 ->
  exists w2, ev g c rq2 d p x w r w2 /\ same_but_place r w' w2.
Proof.
  induction 1; intros Hg rq2 Hc; pose proof Hc as (C1 & C2 & C3).
  all: try assert (alt_req rq2 = alt_req rq) as EA by (unfold alt_req; congruence).
  all: try assert (not_req rq2 = not_req rq) as EN by (unfold not_req; congruence).
  all: try assert (opt_req rq2 = opt_req rq) as EO by (unfold opt_req; congruence).
  all: try assert (except_req rq2 = except_req rq) as EE by (unfold except_req; congruence).
  all: try assert (forall lo hi, repeat_req lo hi rq2 = repeat_req lo hi rq) as ER by (intros; unfold repeat_req; congruence).
  all: try (eexists; split; [econstructor; rewrite ?EA, ?EN, ?EO, ?EE, ?ER; eauto; congruence|auto]; fail).
  (* the stages *)
  - destruct (IHev I rq2 Hc) as (w2 & A & B). exists w2. split; auto. apply ev_recur; congruence.
  - destruct (IHev H rq2 Hc) as (w2 & A & B). exists w2. split; auto. apply ev_noskip; congruence.
  - destruct (IHev H rq2 Hc) as (w2 & A & B). exists w2. split; auto. apply ev_skip; congruence.
  - destruct (IHev Hg rq2 Hc) as (w2 & A & B). exists w2. split; auto. eapply ev_skip_more; eauto.
  - destruct (IHev Hg rq2 Hc) as (w2 & A & B). exists w2. split; auto. eapply ev_skip_end; eauto.
  - destruct (wants_clean rq2 p) eqn:E.
    + destruct (IHev Hg (unclean_req rq2)) as (w2 & A & B); [unfold cleanly; cbn; intuition congruence|].
      destruct r.
      * exists w2. split; auto. now apply ev_cln_ok.
      * exists (at_ x w2). split; [now apply ev_cln_ko|]. destruct B as (B1 & B2 & _). repeat split; auto. discriminate.
    + destruct (IHev Hg rq2 Hc) as (w2 & A & B). exists w2. split; auto. now apply ev_cln_no.
  - destruct (wants_clean rq2 p) eqn:E.
    + destruct (IHev eq_refl (unclean_req rq2)) as (w2 & A & B); [unfold cleanly; cbn; intuition congruence|].
      exists w2. split; auto. now apply ev_cln_ok.
    + destruct (IHev eq_refl rq2) as (w2 & A & B); [unfold cleanly; cbn; intuition congruence|].
      exists w2. split; auto. now apply ev_cln_no.
  - destruct (wants_clean rq2 p) eqn:E.
    + destruct (IHev eq_refl (unclean_req rq2)) as (w2 & A & B); [unfold cleanly; cbn; intuition congruence|].
      exists (at_ x w2). split; [now apply ev_cln_ko|]. destruct B as (B1 & B2 & _). repeat split; auto; try discriminate.
    + destruct (IHev eq_refl rq2) as (w2 & A & B); [unfold cleanly; cbn; intuition congruence|].
      exists w2. split; [now apply ev_cln_no|]. destruct B as (B1 & B2 & _). repeat split; auto. discriminate.
  - destruct (IHev I rq2 Hc) as (w2 & A & B). exists w2. split; auto. apply ev_atm_no; auto. now rewrite (cleanly_wants rq).
  - destruct (IHev I (unatomic_req rq2) (cleanly_un _ _ Hc)) as (w2 & A & B).
    apply sbp_split in B. destruct B as (s2 & -> & Hs). rewrite (Hs eq_refl) in A.
    eexists. split; [eapply ev_atm_ok; eauto; now rewrite (cleanly_wants rq)|auto].
  - destruct (IHev I (unatomic_req rq2) (cleanly_un _ _ Hc)) as (w2 & A & B).
    apply sbp_split in B. destruct B as (s2 & -> & Hs).
    exists (SW s2 cs tr). split; [eapply ev_atm_ko; eauto; now rewrite (cleanly_wants rq)|]. repeat split; auto; try discriminate.
  (* sequences, alternatives, repetitions: the parts are asked for the same *)
  - destruct (IHev I rq2 Hc) as (w2 & A & B). exists w2. split; auto. now apply ev_seq.
  - destruct (IHev2 I rq2 Hc) as (w2 & A & B). exists w2. split; auto. eapply ev_seq_next; eauto.
  - destruct (IHev I rq2 Hc) as (w2 & A & B). exists w2. split; auto. now apply ev_alt.
  - destruct (IHev2 I rq2 Hc) as (w2 & A & B). exists w2. split; auto. eapply ev_alt_next; rewrite ?EA; eauto.
  - destruct (IHev I rq2 Hc) as (w2 & A & B). exists w2. split; auto. apply ev_rep; auto. now rewrite <- C2.
  - destruct (IHev2 I rq2 Hc) as (w2 & A & B). exists w2. split; auto. eapply ev_rep_more; rewrite ?ER; eauto.
  - destruct (IHev I rq2 Hc) as (w2 & A & B). exists w2. split; auto. now apply ev_discard.
  - destruct (IHev I rq2 Hc) as (w2 & A & B). exists w2. split; auto. now apply ev_lexeme.
  - destruct (IHev I rq2 Hc) as (w2 & A & B). exists w2. split; auto. now apply ev_skipper.
  - destruct (IHev I (unatomic_req rq2) (cleanly_un _ _ Hc)) as (w2 & A & B). exists w2. split; auto. now apply ev_bind.
  - destruct (IHev I (unatomic_req rq2) (cleanly_un _ _ Hc)) as (w2 & A & B).
    apply sbp_split in B. destruct B as (s2 & -> & Hs). rewrite (Hs eq_refl) in A.
    eexists. split; [eapply ev_construct_ok; eauto|auto].
  - destruct (IHev I (unatomic_req rq2) (cleanly_un _ _ Hc)) as (w2 & A & B).
    apply sbp_split in B. destruct B as (s2 & -> & Hs).
    exists (SW s2 cs tr). split; [eapply ev_construct_ko; eauto|]. repeat split; auto; try discriminate.
  - destruct (IHev I (action_req rq2)) as (w2 & A & B); [unfold cleanly; cbn; auto|].
    apply sbp_split in B. destruct B as (s2 & -> & Hs). rewrite (Hs eq_refl) in A.
    eexists. split; [eapply ev_act_ok; eauto|auto].
  - destruct (IHev I (action_req rq2)) as (w2 & A & B); [unfold cleanly; cbn; auto|].
    apply sbp_split in B. destruct B as (s2 & -> & Hs).
    exists (SW s2 cs tr). split; [eapply ev_act_ko; eauto|]. repeat split; auto; try discriminate.
  - destruct (IHev I rq2 Hc) as (w2 & A & B). exists w2. split; auto. now apply ev_list.
  - destruct (IHev2 I rq2 Hc) as (w2 & A & B). exists w2. split; auto. eapply ev_elem_next; eauto.
  - destruct (IHev2 I rq2 Hc) as (w2 & A & B). exists w2. split; auto. eapply ev_sep_next; eauto.
Qed.

End Req.
