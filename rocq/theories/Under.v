(** A skipper around a pattern is a skipper around each of its parts. *)
From Coq Require Import List ZArith Bool Arith Lia.
From Verif Require Import Base CharSet Source Dst Pattern Parser Session Rel Safety Limit SpecSession SessionThms.
From Verif Require Import Big BigMk BigLeaf BigSound BigComplete SpecRun Run Blind BlindThms Local SpecValue LocalThms Unary.
From Verif Require Import EvDoes EvReq SpecCollect SpecSkip Collect.
From Verif Require Import PegSound.
Import ListNotations.

Section Under.
Context (env : nat -> option pat).
Hypothesis Hmok : forall id q, env id = Some q -> mok true recur_req q = true.
Notation ev := (ev env).

(** ** Where the skipper is set makes no difference *)
Lemma ahead_fail c s s' : is_fail (c_skip c) = true -> ahead c s s' <-> s' = s.
Proof. intros H. unfold ahead. rewrite H. tauto. Qed.

Lemma wants_raw rq p : r_recur rq = false ->
  wants_clean (raw_req rq p) p = false /\ wants_atomic (raw_req rq p) p = false /\ r_recur (raw_req rq p) = false.
Proof.
  intros Hr. unfold raw_req, wants_clean, wants_atomic. rewrite Hr.
  destruct (r_clean rq) eqn:E1, (r_atomic rq) eqn:E2, (f_clean p) eqn:E3, (f_atomic p) eqn:E4; cbn; rewrite ?E1, ?E2, ?E3, ?E4, ?Hr; cbn; rewrite ?Hr; rewrite ?E1, ?E2; auto.
Qed.

Lemma under_any c sk d rq p x w r w' : is_fail (c_skip c) = true ->
  (ev GRun c rq d (WithSkipper p sk) x w r w' <-> ev GRun (Ctx sk (c_bound c)) rq d p x w r w').
Proof.
  intros Hc. destruct (r_recur rq) eqn:Hr.
  { split; intros H.
    - inversion H; subst; try congruence. match goal with H : ev GRaw _ _ _ _ _ _ _ _ |- _ => inversion H; subst end. assumption.
    - apply ev_recur; auto. now apply ev_skipper. }
  assert (forall rq d x w r w', ev GRaw c rq d (WithSkipper p sk) x w r w' <-> ev GRun (Ctx sk (c_bound c)) rq d p x w r w') as HW.
  { clear. intros. split; intros H; [inversion H; subst; assumption|now apply ev_skipper]. }
  rewrite !run_cln by auto.
  assert (wants_clean rq (WithSkipper p sk) = wants_clean rq p) as EC by reflexivity.
  assert (forall rq, r_recur rq = false -> wants_clean rq p = false -> forall d x w r w',
    ev GAtm c rq d (WithSkipper p sk) x w r w' <-> exists s, ahead (Ctx sk (c_bound c)) (q_s w) s /\ ev GAtm (Ctx sk (c_bound c)) rq d p x (at_ s w) r w') as HA.
  { clear - HW. intros rq Hr Hk d x w r w'. rewrite atm_raw.
    assert (wants_atomic rq (WithSkipper p sk) = wants_atomic rq p) as EA by reflexivity. rewrite EA.
    assert (forall rq d x w r w', r_recur rq = false -> wants_clean rq p = false -> wants_atomic rq p = false ->
       (ev GRun (Ctx sk (c_bound c)) rq d p x w r w' <-> exists s, ahead (Ctx sk (c_bound c)) (q_s w) s /\ ev GRaw (Ctx sk (c_bound c)) rq d p x (at_ s w) r w')) as HX.
    { clear. intros rq d x w r w' H1 H2 H3. rewrite run_cln by auto.
      split; intros (s & A & H); exists s; (split; [exact A|]).
      - apply cln_atm in H. rewrite H2 in H. apply atm_raw in H. now rewrite H3 in H.
      - apply cln_atm. rewrite H2. apply atm_raw. now rewrite H3. }
    destruct (wants_atomic rq p) eqn:Ew.
    - assert (wants_clean (unatomic_req rq) p = false /\ wants_atomic (unatomic_req rq) p = false) as [K1 K2] by (unfold wants_clean, wants_atomic in *; cbn; auto).
      split.
      + intros (s & cs & v & tr & H & HL & HR). apply HW, HX in H; auto. destruct H as (s0 & A & H). exists s0. split; [exact A|].
        apply atm_raw. rewrite Ew. exists s, cs, v, tr. auto.
      + intros (s0 & A & H). apply atm_raw in H. rewrite Ew in H. destruct H as (s & cs & v & tr & H & HL & HR). exists s, cs, v, tr.
        split; [|auto]. apply HW, HX; auto. exists s0. auto.
    - rewrite HW, HX by auto. split; intros (s0 & A & H); exists s0; (split; [exact A|]); [apply atm_raw; now rewrite Ew|apply atm_raw in H; now rewrite Ew in H]. }
  split.
  - intros (s & A & H). apply ahead_fail in A; auto. subst s. rewrite at_same in H. apply cln_atm in H. rewrite EC in H. destruct (wants_clean rq p) eqn:E.
    + destruct H as (w1 & H & ->). apply HA in H; auto. destruct H as (s & A & H). exists s. split; auto. apply cln_atm. rewrite E. eauto.
    + apply HA in H; auto. destruct H as (s & A & H). exists s. split; auto. apply cln_atm. now rewrite E.
  - intros (s & A & H). exists (q_s w). split; [now apply ahead_fail|]. rewrite at_same. apply cln_atm in H. apply cln_atm. rewrite EC. destruct (wants_clean rq p) eqn:E.
    + destruct H as (w1 & H & ->). exists w1. split; auto. apply HA; eauto.
    + apply HA; eauto.
Qed.

Lemma mok_under h rq sk p : mok h rq (WithSkipper p sk) = (is_fail sk || sfree sk) && mok h rq p.
Proof.
  assert (forall h h2 rq rq2, h || (negb (r_recur rq) && wants_clean rq p) = h2 || (negb (r_recur rq2) && wants_clean rq2 p) -> raw_req rq p = raw_req rq2 p ->
    match p with Discard _ | Lexeme _ | _ => mok h rq p = mok h2 rq2 p end) as HX.
  { intros h0 h2 rq0 rq2 E1 E2. destruct p; auto; cbn [mok]; rewrite ?E1, ?E2; reflexivity. }
  cbn [mok]. f_equal. specialize (HX (h || (negb (r_recur rq) && wants_clean rq p)) h (raw_req rq p) rq).
  assert (mok (h || negb (r_recur rq) && wants_clean rq p) (raw_req rq p) p = mok h rq p) as <-.
  { destruct (r_recur rq) eqn:Er.
    - cbn. unfold raw_req. rewrite Er. now rewrite orb_false_r.
    - destruct (wants_raw rq p Er) as (A & B & C). destruct p; apply HX; rewrite ?A, ?C; cbn [negb andb]; rewrite ?orb_false_r; auto;
      unfold raw_req at 1; rewrite C, A, B; reflexivity. }
  reflexivity.
Qed.

(** ** The parts *)
Lemma ignores_under sk p : ignores (under sk p) = ignores p. Proof. reflexivity. Qed.

Lemma seq_dst_under sk l i d : seq_dst (map (under sk) l) i d = seq_dst l i d.
Proof.
  unfold seq_dst. rewrite nth_error_map. destruct (nth_error l i) as [p|]; [|reflexivity]. cbn [option_map].
  rewrite ignores_under.
  assert (forall l i, tuple_index1 (map (under sk) l) i = tuple_index1 l i) as E.
  { clear. intros l. induction l as [|p l IH]; intros [|i]; cbn [map tuple_index1]; rewrite ?ignores_under, ?IH; auto. }
  rewrite ?E. reflexivity.
Qed.

Definition inner (g : stage) : bool := match g with GRaw | GSeq _ | GAlt _ | GRep _ | GElem _ | GSep _ => true | _ => false end.

Lemma inside_fwd sk b g c rq d p x w r w' : ev g c rq d p x w r w' -> inner g = true -> made_of_parts p = true ->
  c = Ctx sk b -> ev g (Ctx Fail b) rq d (inside sk p) x w r w'.
Proof.
  assert (forall rq d p x w r w', ev GRun (Ctx sk b) rq d p x w r w' -> ev GRun (Ctx Fail b) rq d (under sk p) x w r w') as HU.
  { intros. now apply under_any. }
  assert (forall l i p, nth_error l i = Some p -> nth_error (map (under sk) l) i = Some (under sk p)) as HN.
  { intros l i p0 E. now rewrite nth_error_map, E. }
  assert (forall l i, nth_error l i = None -> nth_error (map (under sk) l) i = None) as HN0.
  { intros l i E. now rewrite nth_error_map, E. }
  induction 1; intros Hg Hp Hc; try discriminate Hg; try discriminate Hp; subst c; cbn [inside c_bound c_skip] in *.
  - apply ev_seq; auto.
  - eapply ev_seq_ko; eauto. now rewrite seq_dst_under.
  - eapply ev_seq_end; eauto. now rewrite seq_dst_under.
  - eapply ev_seq_next; eauto. now rewrite seq_dst_under.
  - apply ev_alt; auto.
  - eapply ev_alt_ok; eauto.
  - eapply ev_alt_ko; eauto.
  - eapply ev_alt_next; eauto.
  - apply ev_rep; auto.
  - apply ev_rep_stop; auto.
  - eapply ev_rep_full; eauto.
  - eapply ev_rep_more; eauto.
  - apply ev_not; auto.
  - apply ev_opt_ok; auto.
  - apply ev_opt_ko; auto.
  - apply ev_discard; auto.
  - apply ev_bind. cbn [c_skip]. now apply (under_any (Ctx Fail d)).
  - eapply ev_construct_ok; eauto.
  - eapply ev_construct_ko; eauto.
  - eapply ev_act_ok; eauto.
  - eapply ev_act_ko; eauto.
  - apply ev_exc_hit; auto.
  - eapply ev_exc_go; eauto.
  - apply ev_list; auto.
  - apply ev_elem_end; auto.
  - eapply ev_elem_next; eauto.
  - apply ev_sep_end; auto.
  - eapply ev_sep_next; eauto.
Qed.

Lemma inside_bwd sk b g c rq d p' x w r w' : ev g c rq d p' x w r w' -> inner g = true -> forall p, made_of_parts p = true ->
  c = Ctx Fail b -> p' = inside sk p -> ev g (Ctx sk b) rq d p x w r w'.
Proof.
  assert (forall rq d p x w r w', ev GRun (Ctx Fail b) rq d (under sk p) x w r w' -> ev GRun (Ctx sk b) rq d p x w r w') as HU.
  { intros rq0 d0 p0 x0 w0 r0 w0' H. apply under_any in H; auto. }
  assert (forall l i q, nth_error (map (under sk) l) i = Some q -> exists p, nth_error l i = Some p /\ q = under sk p) as HN.
  { intros l i p0 E. rewrite nth_error_map in E. destruct (nth_error l i); [|discriminate]. injection E as <-. eauto. }
  assert (forall l i, nth_error (map (under sk) l) i = None -> nth_error l i = None) as HN0.
  { intros l i E. rewrite nth_error_map in E. destruct (nth_error l i); [discriminate|auto]. }
  induction 1; intros Hg p0 Hp Hc E; try discriminate Hg; subst c; destruct p0; try discriminate Hp; try discriminate E; cbn [inside] in E; injection E; intros; subst; cbn [c_bound c_skip] in *;
    repeat match goal with H : nth_error (map _ _) _ = Some _ |- _ => apply HN in H; destruct H as (? & H & ->) | H : nth_error (map _ _) _ = None |- _ => apply HN0 in H end;
    rewrite ?seq_dst_under in *.
  - apply ev_seq; auto.
  - eapply ev_seq_ko; eauto.
  - eapply ev_seq_end; eauto.
  - eapply ev_seq_next; eauto.
  - apply ev_alt; auto.
  - eapply ev_alt_ok; eauto.
  - eapply ev_alt_ko; eauto.
  - eapply ev_alt_next; eauto.
  - apply ev_rep; auto.
  - apply ev_rep_stop; auto.
  - eapply ev_rep_full; eauto.
  - eapply ev_rep_more; eauto.
  - apply ev_not; auto.
  - apply ev_opt_ok; auto.
  - apply ev_opt_ko; auto.
  - apply ev_discard; auto.
  - apply ev_bind. cbn [c_skip]. exact (proj1 (under_any (Ctx Fail d) sk d _ p0 x w r w' eq_refl) H).
  - eapply ev_construct_ok; eauto.
  - eapply ev_construct_ko; eauto.
  - eapply ev_act_ok; eauto.
  - eapply ev_act_ko; eauto.
  - apply ev_exc_hit; auto.
  - eapply ev_exc_go; eauto.
  - apply ev_list; auto.
  - apply ev_elem_end; auto.
  - eapply ev_elem_next; eauto.
  - apply ev_sep_end; auto.
  - eapply ev_sep_next; eauto.
Qed.


Lemma mok_inside sk p : made_of_parts p = true -> mok false default_req (under sk p) = true -> mok false default_req (inside sk p) = true.
Proof.
  intros Hp H. unfold under in H. rewrite mok_under in H. apply andb_prop in H. destruct H as [Hs H].
  assert (forall h rq q, mok h rq q = true -> mok h rq (under sk q) = true) as HU.
  { intros h rq q E. unfold under. now rewrite mok_under, Hs, E. }
  destruct p; try discriminate Hp; cbn [inside mok] in *; auto;
    try (rewrite forallb_forall in *; intros q Hq; apply in_map_iff in Hq; destruct Hq as (q0 & <- & Hq); apply HU, H, Hq).
  - apply andb_prop in H. destruct H as [H1 H2]. apply andb_true_intro. split; [exact H1|apply HU, H2].
  - apply andb_prop in H. destruct H as [H1 H2]. apply andb_true_intro. split; apply HU; auto.
  - apply andb_prop in H. destruct H as [H1 H2]. apply andb_true_intro. split; apply HU; auto.
Qed.

Lemma raw_twice sk b d p x w r w' : made_of_parts p = true ->
  (ev GRaw (Ctx sk b) default_req d p x w r w' <->
   exists s0, ahead (Ctx sk b) (q_s w) s0 /\ ev GRaw (Ctx sk b) default_req d p x (at_ s0 w) r w').
Proof.
  intros Hp. destruct (is_fail sk) eqn:Hk.
  { split.
    - intros H. exists (q_s w). rewrite at_same. split; auto. now apply ahead_fail.
    - intros (s0 & A & H). apply ahead_fail in A; auto. subst. now rewrite at_same in H. }
  assert (forall rq d q x w r w', r_recur rq = false ->
    (ev GRun (Ctx sk b) rq d q x w r w' <-> exists s0, ahead (Ctx sk b) (q_s w) s0 /\ ev GRun (Ctx sk b) rq d q x (at_ s0 w) r w')) as HT.
  { intros. now apply run_twice. }
  assert (forall d2 rq d q x w r w', r_recur rq = false ->
    (ev GRun (Ctx sk d2) rq d q x w r w' <-> exists s0, ahead (Ctx sk b) (q_s w) s0 /\ ev GRun (Ctx sk d2) rq d q x (at_ s0 w) r w')) as HT2.
  { intros. now apply (run_twice env (Ctx sk d2)). }
  split.
  - intros H. inversion H; subst; try discriminate Hp.
    + match goal with H : ev (GSeq 0) _ _ _ _ _ _ _ _ |- _ => inversion H; subst end;
      match goal with H : ev GRun _ seq_req _ _ _ _ _ _ |- _ => apply HT in H; [|reflexivity]; destruct H as (s0 & A & H) end; exists s0; (split; [exact A|]); apply ev_seq;
      [eapply ev_seq_ko|eapply ev_seq_end|eapply ev_seq_next]; eauto.
    + match goal with H : ev (GAlt 0) _ _ _ _ _ _ _ _ |- _ => inversion H; subst end;
      match goal with H : ev GRun _ (alt_req _) _ _ _ _ _ _ |- _ => apply HT in H; [|reflexivity]; destruct H as (s0 & A & H) end; exists s0; (split; [exact A|]); apply ev_alt;
      [eapply ev_alt_ok|eapply ev_alt_ko|eapply ev_alt_next]; eauto.
    + match goal with H : ev (GRep 0) _ _ _ _ _ _ _ _ |- _ => apply rep_twice in H; auto; destruct H as (s0 & A & H) end. exists s0. split; auto. now apply ev_rep.
    + match goal with H : ev GRun _ _ _ _ _ _ _ _ |- _ => apply HT in H; [|reflexivity]; destruct H as (s0 & A & H) end. exists s0. split; auto. now apply ev_not.
    + match goal with H : ev GRun _ _ _ _ _ _ _ _ |- _ => apply HT in H; [|reflexivity]; destruct H as (s0 & A & H) end. exists s0. split; auto. now apply ev_opt_ok.
    + match goal with H : ev GRun _ _ _ _ _ _ _ _ |- _ => apply HT in H; [|reflexivity]; destruct H as (s0 & A & H) end. exists s0. split; auto. now apply ev_opt_ko.
    + match goal with H : ev GRun _ _ _ _ _ _ _ _ |- _ => apply HT in H; [|reflexivity]; destruct H as (s0 & A & H) end. exists s0. split; auto. now apply ev_discard.
    + match goal with H : ev GRun _ _ _ _ _ _ _ _ |- _ => apply HT2 in H; [|reflexivity]; destruct H as (s0 & A & H) end. exists s0. split; auto. now apply ev_bind.
    + match goal with H : ev GRun _ _ _ _ _ _ _ _ |- _ => apply HT in H; [|reflexivity]; destruct H as (s0 & A & H) end. exists s0. split; auto. eapply ev_construct_ok; eauto.
    + match goal with H : ev GRun _ _ _ _ _ _ _ _ |- _ => apply HT in H; [|reflexivity]; destruct H as (s0 & A & H) end. exists s0. split; auto. eapply ev_construct_ko; eauto.
    + match goal with H : ev GRun _ _ _ _ _ _ _ _ |- _ => apply HT in H; [|reflexivity]; destruct H as (s0 & A & H) end. exists s0. split; auto. eapply ev_act_ok; eauto.
    + match goal with H : ev GRun _ _ _ _ _ _ _ _ |- _ => apply HT in H; [|reflexivity]; destruct H as (s0 & A & H) end. exists s0. split; auto. eapply ev_act_ko; eauto.
    + match goal with H : ev GRun _ _ _ _ _ _ _ _ |- _ => apply HT in H; [|reflexivity]; destruct H as (s0 & A & H) end. exists s0. split; auto. eapply ev_exc_hit; eauto.
    + match goal with H : ev GRun _ neg_req _ _ _ _ _ _ |- _ => apply HT in H; [|reflexivity]; destruct H as (s0 & A & H) end. exists s0. split; auto. eapply ev_exc_go; eauto.
    + match goal with H : ev (GElem _) _ _ _ _ _ _ _ _ |- _ => apply elem_twice in H; auto; destruct H as (s0 & A & H) end. exists s0. split; auto. now apply ev_list.
  - intros (s0 & A & H). inversion H; subst; try discriminate Hp.
    + match goal with H : ev (GSeq 0) _ _ _ _ _ _ _ _ |- _ => inversion H; subst end;
      match goal with H : ev GRun _ seq_req ?d ?q ?x (at_ s0 w) ?r ?w' |- _ => assert (ev GRun (Ctx sk b) seq_req d q x w r w') as H' by (apply HT; eauto) end; apply ev_seq;
      [eapply ev_seq_ko|eapply ev_seq_end|eapply ev_seq_next]; eauto.
    + match goal with H : ev (GAlt 0) _ _ _ _ _ _ _ _ |- _ => inversion H; subst end;
      match goal with H : ev GRun _ (alt_req _) ?d ?q ?x (at_ s0 w) ?r ?w' |- _ => assert (ev GRun (Ctx sk b) (alt_req default_req) d q x w r w') as H' by (apply HT; eauto) end; apply ev_alt;
      [eapply ev_alt_ok|eapply ev_alt_ko|eapply ev_alt_next]; eauto.
    + apply ev_rep; auto. apply rep_twice; eauto.
    + apply ev_not. apply HT; eauto.
    + apply ev_opt_ok. apply HT; eauto.
    + apply (ev_opt_ko env (Ctx sk b)). apply HT; eauto.
    + apply ev_discard. apply HT; eauto.
    + apply ev_bind. apply HT2; eauto.
    + eapply ev_construct_ok; eauto. apply HT; eauto.
    + eapply ev_construct_ko; eauto. apply HT; eauto.
    + eapply ev_act_ok; eauto. apply HT; eauto.
    + eapply ev_act_ko; eauto. apply HT; eauto.
    + eapply ev_exc_hit; eauto. apply HT; eauto.
    + eapply ev_exc_go; eauto. apply HT; eauto.
    + apply ev_list. apply elem_twice; eauto.
Qed.

Theorem under_inside sk p t v s r s' v' k : made_of_parts p = true -> mok false default_req (under sk p) = true ->
  (does env (under sk p) t v s (res r) s' v' k <-> does env (inside sk p) t v s (res r) s' v' k).
Proof.
  intros Hp Hm. rewrite under_top by auto. rewrite (ev_does_top env Hmok (inside sk p)) by (now apply mok_inside).
  unfold top_ctx. rewrite (default_run env (Ctx Fail (top_dst t))). cbn [q_s].
  rewrite <- (raw_twice sk (top_dst t) (top_dst t) p s (SW s [v] [])) by auto. split.
  - intros H. exists s. split; [reflexivity|]. cbn. eapply inside_fwd; eauto.
  - intros (s0 & A & H). apply ahead_fail in A; auto. subst s0. eapply inside_bwd; eauto.
Qed.

(** ** What is skipped *)
(** A block, from where it is made. *)
Definition evb (rq : req) (p : pat) : Prop := forall c s cs tr, is_fail (c_skip c) = true ->
  match skip1 p s with
  | Some t => ev GRun c rq DNil p s (SW s cs tr) true (SW t cs tr)
  | None => exists t, (r_clean rq = true -> t = s) /\ ev GRun c rq DNil p s (SW s cs tr) false (SW t cs tr)
  end.

Lemma evb_raw rq p : r_recur rq = false -> wants_atomic rq p = false ->
  (forall c s cs tr, is_fail (c_skip c) = true ->
   match skip1 p s with
   | Some t => ev GRaw c (raw_req rq p) DNil p s (SW s cs tr) true (SW t cs tr)
   | None => exists t, (r_clean (raw_req rq p) = true -> t = s) /\ ev GRaw c (raw_req rq p) DNil p s (SW s cs tr) false (SW t cs tr)
   end) -> evb rq p.
Proof.
  intros Hr Ha H c s cs tr Hc. specialize (H c s cs tr Hc).
  assert (raw_req rq p = if wants_clean rq p then unclean_req rq else rq) as E.
  { destruct (wants_clean rq p) eqn:Ew.
    - rewrite (raw_clean _ _ Hr Ew). unfold areq. change (wants_atomic (unclean_req rq) p) with (wants_atomic rq p). now rewrite Ha.
    - rewrite (raw_noclean _ _ Hr Ew). unfold areq. now rewrite Ha. }
  rewrite E in H. destruct (wants_clean rq p) eqn:Ew.
  - destruct (skip1 p s) as [t|].
    + apply ev_noskip; auto. apply ev_cln_ok; auto. apply ev_atm_no; auto.
    + destruct H as (t & _ & H). exists s. split; auto. apply ev_noskip; auto. change (SW s cs tr) with (at_ s (SW t cs tr)) at 2.
      apply ev_cln_ko; auto. apply ev_atm_no; auto.
  - destruct (skip1 p s) as [t|].
    + apply ev_noskip; auto. apply ev_cln_no; auto. apply ev_atm_no; auto.
    + destruct H as (t & Ht & H). exists t. split; auto. apply ev_noskip; auto. apply ev_cln_no; auto. apply ev_atm_no; auto.
Qed.

Lemma raw_unclean rq p : r_recur rq = false -> f_clean p = false -> r_clean (raw_req rq p) = false.
Proof.
  intros Hr Hf. unfold raw_req. rewrite Hr. unfold wants_clean. rewrite Hf, andb_true_r. destruct (r_clean rq) eqn:E; cbn -[wants_atomic].
  - now destruct (wants_atomic (unclean_req rq) p).
  - now destruct (wants_atomic rq p).
Qed.
Lemma raw_consumes rq p : r_consumes (raw_req rq p) = r_consumes rq.
Proof. unfold raw_req. destruct (r_recur rq), (wants_clean rq p); auto; [destruct (wants_atomic (unclean_req rq) p)|destruct (wants_atomic rq p)]; auto. Qed.

Lemma nth_mid {A} (l1 : list A) q k : nth_error (l1 ++ q :: k) (length l1) = Some q.
Proof. now rewrite nth_error_app2, Nat.sub_diag by lia. Qed.
Lemma nth_after {A} (l1 : list A) q k : nth_error (l1 ++ q :: k) (S (length l1)) = nth_error k 0.
Proof. rewrite nth_error_app2 by lia. now replace (S (length l1) - length l1) with 1 by lia. Qed.
Lemma seq_dst_nil l i : nth_error l i <> None -> seq_dst l i DNil = Done DNil.
Proof. destruct l as [|q [|q' l]]; cbn; auto. Qed.

Lemma blk_ev p : forall rq, sblk rq p = true -> r_recur rq = false -> evb rq p.
Proof.
  induction p using pat_ind'; intros rq Hs Hr; try discriminate Hs.
  - apply evb_raw; auto; [unfold wants_atomic; apply andb_false_r|]. intros c s0 cs tr Hc. cbn [skip1].
    destruct s0 as [|y l]; [exists []; split; auto; now apply ev_char_ko|]. destruct (is_valid s y) eqn:E.
    + eapply ev_char_ok; eauto.
    + exists (y :: l). split; auto. now apply ev_char_ko.
  - apply evb_raw; auto; [unfold wants_atomic; apply andb_false_r|]. intros c s0 cs tr Hc. cbn [skip1].
    destruct s0 as [|y l]; [exists []; split; auto; now apply ev_csym_ko|]. destruct (assoc y m) eqn:E.
    + eapply ev_csym_ok; eauto.
    + exists (y :: l). split; auto. now apply ev_csym_ko.
  - apply evb_raw; auto; [unfold wants_atomic; apply andb_false_r|]. intros c s0 cs tr Hc. cbn [skip1]. destruct s0 as [|y l].
    + exact (ev_eoi env c _ DNil [] (SW [] cs tr)).
    + exists (y :: l). split; auto. exact (ev_eoi env c _ DNil (y :: l) (SW (y :: l) cs tr)).
  - apply evb_raw; auto; [unfold wants_atomic; apply andb_false_r|]. intros c s0 cs tr Hc. exists s0. split; auto. apply ev_fail.
  - apply evb_raw; auto; [unfold wants_atomic; apply andb_false_r|]. intros c s0 cs tr Hc. pose proof (skip1_lit s s0) as E. destruct (skip1 (Lit s) s0) as [t|].
    + change (SW t cs tr) with (at_ t (SW s0 cs tr)). now apply ev_lit.
    + destruct E as [t E]. exists t. split.
      * now rewrite raw_unclean.
      * change (SW t cs tr) with (at_ t (SW s0 cs tr)). now apply ev_lit.
  - cbn [sblk] in Hs. destruct l as [|q0 l0] eqn:El; [discriminate|]. rewrite <- El in *. apply andb_prop in Hs as [Ha Hs]. apply negb_true_iff in Ha.
    apply evb_raw; auto; [unfold wants_atomic; now rewrite Ha|]. intros c s0 cs tr Hc. rewrite skip1_seq.
    assert (forall k l1 s0, l = l1 ++ k -> k <> [] -> match skip_all k s0 with
      | Some t => ev (GSeq (length l1)) c (raw_req rq (Seq l)) DNil (Seq l) s0 (SW s0 cs tr) true (SW t cs tr)
      | None => exists t, ev (GSeq (length l1)) c (raw_req rq (Seq l)) DNil (Seq l) s0 (SW s0 cs tr) false (SW t cs tr) end) as HA.
    { induction k as [|q k IHk]; intros l1 s1 E Hk; [congruence|].
      assert (nth_error l (length l1) = Some q) as En by (rewrite E; apply nth_mid).
      assert (nth_error l (S (length l1)) = nth_error k 0) as En1 by (rewrite E; apply nth_after).
      pose proof (nth_error_In _ _ En) as Hin. rewrite Forall_forall in H. rewrite forallb_forall in Hs.
      pose proof (H q Hin seq_req (Hs _ Hin) eq_refl c s1 cs tr Hc) as Hq. cbn [skip_all].
      assert (seq_dst l (length l1) DNil = Done DNil) as Ed by (apply seq_dst_nil; congruence).
      destruct (skip1 q s1) as [t|].
      - destruct k as [|q' k].
        + cbn [skip_all]. eapply ev_seq_end; eauto.
        + assert (l = (l1 ++ [q]) ++ q' :: k) as El2 by (rewrite <- app_assoc; exact E). specialize (IHk (l1 ++ [q]) t El2 ltac:(discriminate)).
          rewrite app_length in IHk. replace (length l1 + length [q]) with (S (length l1)) in IHk by (cbn; lia).
          destruct (skip_all (q' :: k) t) as [t2|].
          * eapply ev_seq_next; eauto.
          * destruct IHk as [t2 IHk]. exists t2. eapply ev_seq_next; eauto.
      - destruct Hq as (t & _ & Hq). exists t. eapply ev_seq_ko; eauto. }
    specialize (HA l [] s0 eq_refl). rewrite El in HA at 1. specialize (HA ltac:(discriminate)). destruct (skip_all l s0) as [t|].
    + now apply ev_seq.
    + destruct HA as [t HA]. exists t. split; [|now apply ev_seq]. now rewrite raw_unclean.
  - cbn [sblk] in Hs. destruct l as [|q0 l0] eqn:El; [discriminate|]. rewrite <- El in *.
    apply evb_raw; auto; [unfold wants_atomic; apply andb_false_r|]. intros c s0 cs tr Hc. rewrite skip1_alt.
    assert (raw_req rq (Alt l) = rq) as Er. { unfold raw_req. rewrite Hr. unfold wants_clean, wants_atomic. cbn. now rewrite !andb_false_r. }
    rewrite Er.
    assert (forall k l1, l = l1 ++ k -> k <> [] -> match skip_any k s0 with
      | Some t => ev (GAlt (length l1)) c rq DNil (Alt l) s0 (SW s0 cs tr) true (SW t cs tr)
      | None => ev (GAlt (length l1)) c rq DNil (Alt l) s0 (SW s0 cs tr) false (SW s0 cs tr) end) as HA.
    { induction k as [|q k IHk]; intros l1 E Hk; [congruence|].
      assert (nth_error l (length l1) = Some q) as En by (rewrite E; apply nth_mid).
      assert (nth_error l (S (length l1)) = nth_error k 0) as En1 by (rewrite E; apply nth_after).
      pose proof (nth_error_In _ _ En) as Hin. rewrite Forall_forall in H. rewrite forallb_forall in Hs.
      pose proof (H q Hin (alt_req rq) (Hs _ Hin) eq_refl c s0 cs tr Hc) as Hq. cbn [skip_any].
      destruct (skip1 q s0) as [t|]; [eapply ev_alt_ok; eauto|]. destruct Hq as (t & Ht & Hq). rewrite (Ht eq_refl) in Hq.
      destruct k as [|q' k].
      - cbn [skip_any]. eapply ev_alt_ko; eauto.
      - assert (l = (l1 ++ [q]) ++ q' :: k) as El2 by (rewrite <- app_assoc; exact E). specialize (IHk (l1 ++ [q]) El2 ltac:(discriminate)).
        rewrite app_length in IHk. replace (length l1 + length [q]) with (S (length l1)) in IHk by (cbn; lia).
        destruct (skip_any (q' :: k) s0) as [t2|]; eapply ev_alt_next; eauto. }
    specialize (HA l [] eq_refl). rewrite El in HA at 1. specialize (HA ltac:(discriminate)). destruct (skip_any l s0) as [t|].
    + now apply ev_alt.
    + exists s0. split; auto. now apply ev_alt.
  - cbn [sblk] in Hs. repeat (apply andb_prop in Hs; destruct Hs as [Hs ?]). apply negb_true_iff in Hs, H2. apply Nat.eqb_eq in H1. subst hi.
    assert (Hw : wants_atomic rq (Repeat lo 0 p) = false) by (unfold wants_atomic; now rewrite Hs).
    apply evb_raw; auto. intros c s0 cs tr Hc. rewrite skip1_rep. set (rr := raw_req rq (Repeat lo 0 p)).
    assert (r_consumes rr = r_consumes rq /\ r_clean rr = false) as [E1 E2].
    { split; [apply raw_consumes|now apply raw_unclean]. }
    assert (sblk (repeat_req lo 0 rr) p = true) as Hb by (unfold repeat_req in *; now rewrite E1).
    assert (r_clean (repeat_req lo 0 rr) = true) as Hcl by (cbn; apply orb_true_r).
    specialize (IHp _ Hb eq_refl). clearbody rr.
    assert (forall f n s0, length s0 < f -> match skip_rep lo p f n s0 with
      | Some t => ev (GRep n) c rr DNil (Repeat lo 0 p) s0 (SW s0 cs tr) true (SW t cs tr)
      | None => exists t, ev (GRep n) c rr DNil (Repeat lo 0 p) s0 (SW s0 cs tr) false (SW t cs tr) end) as HA.
    { clear s0. induction f as [|f IH]; intros n s0 Hf; [lia|]. cbn [skip_rep]. specialize (IHp c s0 cs tr Hc). destruct (skip1 p s0) as [t|] eqn:Ep.
      - destruct (skip_suffix _ _ _ Ep) as (k & Ek & N). specialize (N H0).
        assert (length t < f) as Hlt by (rewrite Ek, app_length in Hf; destruct k; [easy|cbn in Hf; lia]).
        specialize (IH (S n) t Hlt). destruct (skip_rep lo p f (S n) t) as [t2|].
        + eapply ev_rep_more; eauto.
        + destruct IH as [t2 IH]. exists t2. eapply ev_rep_more; eauto.
      - destruct IHp as (t & Ht & IHp). rewrite (Ht Hcl) in IHp. apply (ev_rep_stop env c rr DNil lo 0 p n) in IHp. destruct (lo <=? n); eauto. }
    specialize (HA (S (length s0)) 0 s0 (Nat.lt_succ_diag_r _)).
    assert (r_consumes rr && (lo =? 0) = false) as Hcn by now rewrite E1.
    destruct (skip_rep lo p (S (length s0)) 0 s0).
    + now apply ev_rep.
    + destruct HA as [t HA]. exists t. split; [congruence|now apply ev_rep].
  - apply evb_raw; auto; [unfold wants_atomic; apply andb_false_r|]. intros c s0 cs tr Hc. cbn [skip1]. cbn [sblk] in Hs.
    assert (raw_req rq (Discard p) = rq) as Er. { unfold raw_req. rewrite Hr. unfold wants_clean, wants_atomic. cbn. now rewrite !andb_false_r. }
    rewrite Er. specialize (IHp rq Hs Hr c s0 cs tr Hc). destruct (skip1 p s0); [now apply ev_discard|]. destruct IHp as (t & Ht & IHp). exists t. split; auto. now apply ev_discard.
  - apply evb_raw; auto; [unfold wants_atomic; apply andb_false_r|]. intros c s0 cs tr Hc. cbn [skip1]. cbn [sblk] in Hs.
    assert (raw_req rq (Lexeme p) = rq) as Er. { unfold raw_req. rewrite Hr. unfold wants_clean, wants_atomic. cbn. now rewrite !andb_false_r. }
    rewrite Er. specialize (IHp rq Hs Hr (Ctx Fail (c_bound c)) s0 cs tr eq_refl). destruct (skip1 p s0); [now apply ev_lexeme|]. destruct IHp as (t & Ht & IHp). exists t. split; auto. now apply ev_lexeme.
  - apply evb_raw; auto; [unfold wants_atomic; apply andb_false_r|]. intros c s0 cs tr Hc. cbn [skip1]. cbn [sblk] in Hs. apply andb_prop in Hs as [Hn Hq].
    set (rr := raw_req rq (Except p1 p2)).
    assert (except_req rr = except_req rq /\ r_clean rr = false) as [E1 E2].
    { split; [|now apply raw_unclean]. unfold except_req, rr. rewrite raw_consumes. f_equal. unfold raw_req. rewrite Hr. unfold wants_atomic. cbn [f_atomic negb]. rewrite !andb_false_r. now destruct (wants_clean rq (Except p1 p2)). }
    specialize (IHp2 neg_req Hn eq_refl c s0 cs tr Hc). specialize (IHp1 _ Hq eq_refl c s0 cs tr Hc). rewrite <- E1 in IHp1. destruct (skip1 p2 s0) as [t|].
    + exists t. split; [congruence|]. now apply ev_exc_hit.
    + destruct IHp2 as (t & Ht & IHp2). rewrite (Ht eq_refl) in IHp2. destruct (skip1 p1 s0) as [t1|].
      * eapply ev_exc_go; eauto.
      * destruct IHp1 as (t1 & _ & IHp1). exists t1. split; [congruence|]. eapply ev_exc_go; eauto.
Qed.

Lemma sblk_less q : forall rq rq', sblk rq q = true -> r_atomic rq' = r_atomic rq -> (r_consumes rq' = true -> r_consumes rq = true) -> sblk rq' q = true.
Proof.
  induction q using pat_ind'; intros rq rq' Hq Ha Hc; try discriminate; cbn [sblk] in *; auto.
  - destruct l; auto. now rewrite Ha.
  - destruct l as [|q0 l0]; auto. rewrite forallb_forall in *. intros q Hin. rewrite Forall_forall in H. eapply H; eauto; cbn; auto.
  - repeat (apply andb_prop in Hq; destruct Hq as [Hq ?]). apply andb_true_iff. split; [|eapply IHq; eauto; cbn; auto]. rewrite H0, H1, Ha, Hq.
    destruct (r_consumes rq'); [rewrite (Hc eq_refl) in H2|]; cbn in *; rewrite ?H2; auto.
  - eauto.
  - eauto.
  - apply andb_prop in Hq as [H1 H2]. apply andb_true_iff. split; auto. eapply IHq1; eauto; cbn; auto.
Qed.

Lemma skip_ev q : sfree q = true -> forall c rq x s cs tr, is_fail (c_skip c) = true -> r_recur rq = false -> r_atomic rq = false ->
  ev GRun c rq DNil q x (SW s cs tr) (match skip1 q s with Some _ => true | None => false end)
     (SW (match skip1 q s with Some s1 => s1 | None => s end) cs tr).
Proof.
  intros Hq c rq x s cs tr Hc Hr Ha.
  assert (forall q, sfree q = true -> forall c rq x w r w', is_fail (c_skip c) = true -> r_recur rq = false ->
    ev GRaw c rq DNil q x w r w' -> ev GRun c rq DNil q x w r w') as HR.
  { clear. intros q Hq c rq x w r w' Hc Hr H. apply ev_noskip; auto.
    assert (f_clean q = true /\ f_atomic q = true) as [E1 E2] by (destruct q; try discriminate; auto).
    apply ev_cln_no; [unfold wants_clean; rewrite E1; apply andb_false_r|]. apply ev_atm_no; [unfold wants_atomic; rewrite E2; apply andb_false_r|]. exact H. }
  revert Hq c rq x s Hc Hr Ha. induction q using pat_ind'; intros Hq c rq x s0 Hc Hr Ha; try discriminate Hq; apply HR; auto; cbn [sfree] in Hq.
  - cbn [skip1]. destruct s0 as [|y l]; [now apply ev_char_ko|]. destruct (is_valid s y) eqn:E.
    + eapply ev_char_ok; eauto.
    + now apply ev_char_ko.
  - cbn [skip1]. destruct s0 as [|y l]; [now apply ev_csym_ko|]. destruct (assoc y m) eqn:E.
    + eapply ev_csym_ok; eauto.
    + now apply ev_csym_ko.
  - cbn [skip1]. destruct s0 as [|y l].
    + exact (ev_eoi env c rq DNil x (SW [] cs tr)).
    + exact (ev_eoi env c rq DNil x (SW (y :: l) cs tr)).
  - cbn. apply ev_fail.
  - destruct l as [|q0 l0]; [discriminate|]. apply andb_prop in Hq as [Hq0 Hl0]. inversion H as [|? ? IH0 _]; subst.
    apply ev_alt. rewrite skip1_alt. cbn [skip_any]. specialize (IH0 Hq0 c (alt_req rq) x s0 Hc eq_refl Ha).
    destruct (skip1 q0 s0) as [t|]; [eapply ev_alt_ok; [reflexivity|exact IH0]|].
    assert (forall k l1, q0 :: l0 = l1 ++ k -> l1 <> [] -> k <> [] ->
      ev (GAlt (length l1)) c rq DNil (Alt (q0 :: l0)) s0 (SW s0 cs tr) (match skip_any k s0 with Some _ => true | None => false end)
         (SW (match skip_any k s0 with Some s1 => s1 | None => s0 end) cs tr)) as HA.
    { induction k as [|q k IHk]; intros l1 E Hl1 Hk; [congruence|].
      assert (nth_error (q0 :: l0) (length l1) = Some q) as En by (rewrite E; apply nth_mid).
      assert (nth_error (q0 :: l0) (S (length l1)) = nth_error k 0) as En1 by (rewrite E; apply nth_after).
      assert (In q l0) as Hin by (destruct l1; [congruence|injection E as _ ->; apply in_or_app; right; now left]).
      rewrite forallb_forall in Hl0.
      assert (evb (alt_req rq) q) as Hb by (apply blk_ev; auto; apply (sblk_less q skip_req); auto; now rewrite <- Ha).
      specialize (Hb c s0 cs tr Hc). cbn [skip_any]. destruct (skip1 q s0) as [t|]; [eapply ev_alt_ok; eauto|].
      destruct Hb as (t & Ht & Hb). rewrite (Ht eq_refl) in Hb. destruct k as [|q' k].
      - cbn [skip_any]. eapply ev_alt_ko; eauto.
      - assert (q0 :: l0 = (l1 ++ [q]) ++ q' :: k) as El2 by (rewrite <- app_assoc; exact E).
        specialize (IHk (l1 ++ [q]) El2 ltac:(now destruct l1) ltac:(discriminate)).
        rewrite app_length in IHk. replace (length l1 + length [q]) with (S (length l1)) in IHk by (cbn; lia). eapply ev_alt_next; eauto. }
    destruct l0 as [|q1 l1]; [cbn [skip_any]; eapply ev_alt_ko; [reflexivity|reflexivity|exact IH0]|].
    eapply ev_alt_next; [reflexivity|reflexivity|exact IH0|]. exact (HA (q1 :: l1) [q0] eq_refl ltac:(discriminate) ltac:(discriminate)).
  - cbn [skip1]. apply ev_discard. apply IHq; auto.
  - cbn [skip1]. apply ev_lexeme. apply IHq; auto.
Qed.

Lemma sblk_mok q : forall rq, sblk rq q = true -> forall h rq', mok h rq' q = true.
Proof.
  induction q using pat_ind'; intros rq Hq h rq'; try discriminate; cbn [mok]; auto.
  - destruct l as [|q0 l0] eqn:El; [reflexivity|]. rewrite <- El in *. cbn [sblk] in Hq. rewrite El in Hq. rewrite <- El in Hq. apply andb_prop in Hq as [_ Hq].
    rewrite forallb_forall in *. intros q Hin. rewrite Forall_forall in H. eapply H; eauto.
  - destruct l as [|q0 l0] eqn:El; [reflexivity|]. rewrite <- El in *. cbn [sblk] in Hq. rewrite El in Hq. rewrite <- El in Hq.
    rewrite forallb_forall in *. intros q Hin. rewrite Forall_forall in H. eapply H; eauto.
  - cbn [sblk] in Hq. apply andb_prop in Hq as [_ Hq]. eauto.
  - cbn [sblk] in Hq. eauto.
  - cbn [sblk] in Hq. eauto.
  - cbn [sblk] in Hq. apply andb_prop in Hq as [H1 H2]. erewrite IHq1, IHq2; eauto.
Qed.
Lemma sfree_mok q : sfree q = true -> forall h rq, mok h rq q = true.
Proof. intros Hq. apply (sblk_mok q skip_req). now apply sfree_blk. Qed.

Lemma checks_skip sk s : sfree sk = true ->
  does env sk TNil VNil s (res (match skip1 sk s with Some _ => true | None => false end)) (match skip1 sk s with Some s1 => s1 | None => s end) VNil [].
Proof.
  intros Hs. apply ev_does_top; auto; [now apply sfree_mok|]. apply skip_ev; auto.
Qed.

Lemma checks_skip_yes sk s s1 : sfree sk = true -> checks env sk SUCCESS s s1 [] <-> skip1 sk s = Some s1.
Proof.
  intros Hs. unfold checks. pose proof (checks_skip sk s Hs) as H. split.
  - intros H2. destruct (skip1 sk s) as [s2|]; destruct (does_fun _ _ _ _ _ _ _ _ _ _ _ _ _ H H2) as (A & B & _); [congruence|discriminate].
  - intros E. now rewrite E in H.
Qed.
Lemma checks_skip_no sk s : sfree sk = true -> (exists s1, checks env sk FAILURE s s1 []) <-> skip1 sk s = None.
Proof.
  intros Hs. unfold checks. pose proof (checks_skip sk s Hs) as H. split.
  - intros (s1 & H2). destruct (skip1 sk s) as [s2|]; auto. destruct (does_fun _ _ _ _ _ _ _ _ _ _ _ _ _ H H2) as (A & B & _); discriminate.
  - intros E. rewrite E in H. eauto.
Qed.

Lemma skipped_skipping sk s s' : sfree sk = true -> skipped env sk s s' <-> skipping sk s s'.
Proof.
  intros Hs. split.
  - induction 1.
    + constructor. apply checks_skip_no; eauto.
    + eapply skp_more; eauto. now apply checks_skip_yes.
  - induction 1.
    + apply checks_skip_no in H; auto. destruct H as (s1 & H). econstructor; eauto.
    + eapply skd_more; eauto. now apply checks_skip_yes.
Qed.

Lemma skipped_ahead sk b s s' : is_fail sk || sfree sk = true -> skipped env sk s s' <-> ahead (Ctx sk b) s s'.
Proof.
  intros Hs. unfold ahead. cbn [c_skip]. destruct (is_fail sk) eqn:Ef.
  - destruct sk; try discriminate. rewrite skipped_skipping by reflexivity. split.
    + intros H. inversion H; subst; auto. discriminate.
    + intros ->. now constructor.
  - now apply skipped_skipping.
Qed.

(** ** Leaves *)
Lemma leaf_raw p c c2 rq d x x2 w r w' : leaf p = true -> ev GRaw c rq d p x w r w' -> ev GRaw c2 rq d p x2 w r w'.
Proof. intros Hp H. destruct p; try discriminate Hp; inversion H; subst; econstructor; eauto. Qed.

Theorem leaf_under sk p t v s r s' v' k : leaf p = true -> is_fail sk || sfree sk = true ->
  (does env (under sk p) t v s (res r) s' v' k <-> exists s0, skipped env sk s s0 /\ does env p t v s0 (res r) s' v' k).
Proof.
  intros Hp Hs. assert (mok false default_req p = true) as Hm by (destruct p; try discriminate; reflexivity).
  rewrite under_top by (auto; unfold under; rewrite mok_under, Hs; exact Hm).
  split; intros (s0 & A & H); exists s0; (split; [now apply (skipped_ahead sk (top_dst t))|]).
  - apply ev_does_top; auto. apply default_run. exists s0. split; [reflexivity|]. eapply leaf_raw; eauto.
  - apply ev_does_top in H; auto. apply default_run in H. destruct H as (s1 & A1 & H). apply ahead_fail in A1; auto. cbn in A1. subst s1. eapply leaf_raw; eauto.
Qed.

(** ** Recur *)
Lemma recur_default g c rq d p x w r w' : ev g c rq d p x w r w' -> rq = recur_req ->
  match g with
  | GRun | GRaw => sets_skipper p = false /\ ahead c (q_s w) (q_s w)
  | GSkip | GCln | GAtm => False
  | _ => True
  end -> ev g c default_req d p x w r w'.
Proof.
  induction 1; intros E Hg; subst rq; try contradiction; try discriminate; try (econstructor; eauto; fail).
  - destruct Hg as [Hg Ha]. apply default_run. exists (q_s w). rewrite at_same. split; auto.
  - destruct Hg as [Hg Ha]. cbn [sets_skipper] in Hg. apply ev_lexeme. apply IHev; auto. split; auto. reflexivity.
  - destruct Hg as [Hg Ha]. cbn [sets_skipper] in Hg. apply orb_false_iff in Hg. destruct Hg as [Hg1 Hg]. apply ev_skipper. apply IHev; auto. split; auto. apply ahead_fail; auto. cbn [c_skip]. now apply negb_false_iff in Hg1.
Qed.
Lemma default_recur g c rq d p x w r w' : ev g c rq d p x w r w' -> rq = default_req ->
  match g with
  | GRun | GRaw => sets_skipper p = false /\ ahead c (q_s w) (q_s w)
  | GSkip | GCln | GAtm => sets_skipper p = false /\ ahead c (q_s w) (q_s w)
  | _ => True
  end -> match g with GRun | GSkip | GCln | GAtm => ev GRun c recur_req d p x w r w' | _ => ev g c recur_req d p x w r w' end.
Proof.
  induction 1; intros E Hg; subst rq; try discriminate; auto; try (econstructor; eauto; fail).
  - destruct Hg as [Hg Ha]. exfalso. unfold ahead in Ha. destruct (is_fail (c_skip c)) eqn:Ef.
    + destruct (c_skip c); discriminate.
    + apply skipping_end in Ha. congruence.
  - destruct Hg as [Hg Ha]. apply ev_lexeme. apply IHev; auto. split; auto. now apply ahead_fail.
  - destruct Hg as [Hg Ha]. cbn [sets_skipper] in Hg. apply orb_false_iff in Hg. destruct Hg as [Hg1 Hg]. apply ev_skipper. apply IHev; auto. split; auto. apply ahead_fail; auto. cbn [c_skip]. now apply negb_false_iff in Hg1.
Qed.

Theorem recur_under sk id b q t v s r s' v' k : env id = Some q -> sets_skipper q = false -> is_fail sk || sfree sk = true ->
  mok false default_req q = true ->
  (does env (under sk (Recur id b)) t v s (res r) s' v' k <-> exists s0, skipped env sk s s0 /\ does env (under sk q) t v s0 (res r) s' v' k).
Proof.
  intros He Hq Hs Hm. assert (mok false default_req (under sk q) = true) as Hm' by (unfold under; now rewrite mok_under, Hs, Hm).
  rewrite under_top by (auto; unfold under; rewrite mok_under, Hs; reflexivity).
  assert (forall s0 s1, ahead (Ctx sk (top_dst t)) s0 s1 -> ahead (Ctx sk (top_dst t)) s1 s1) as HA.
  { intros s0 s1 A. apply (ahead_again _ _ _ _ A). exact A. }
  split; intros (s0 & A & H); exists s0; (split; [now apply (skipped_ahead sk (top_dst t))|]).
  - apply ev_does_top; auto. unfold under. apply ev_under; [reflexivity|]. cbn [c_bound top_ctx].
    inversion H; subst. assert (q0 = q) as -> by congruence. cbn [q_s] in *. eapply (recur_default GRun); eauto.
  - apply ev_does_top in H; auto. unfold under in H. apply ev_under in H; [|reflexivity]. cbn [c_bound top_ctx] in H.
    eapply ev_rec; eauto. cbn [q_s]. apply (default_recur GRun) in H; eauto. split; auto. cbn [q_s]. eapply HA. eapply skipped_ahead; eauto.
Qed.

(** ** lexeme *)
Lemma mark_free g c rq d p x w r w' : ev g c rq d p x w r w' -> smk0 g rq p = true ->
  (match g with GSkip | GCln | GAtm => r_recur rq = false | _ => True end) -> forall x2, ev g c rq d p x2 w r w'.
Proof.
  induction 1; intros Hs Hr x2; cbn [smk0 mk0r] in *; try discriminate; try (econstructor; eauto; fail).
  - apply ev_recur; auto. apply IHev; auto. rewrite mk0_eq in Hs. apply andb_prop in Hs. destruct Hs as [_ Hs]. unfold raw_req in Hs. now rewrite H in Hs.
  - apply ev_noskip; auto. apply IHev; auto. rewrite mk0_eq, H in Hs. cbn [orb] in Hs. apply andb_prop in Hs. destruct Hs as [H2 Hs]. rewrite H2. cbn [andb].
    rewrite raw_noclean in Hs; auto. now destruct (wants_clean rq p).
  - apply ev_skip_end; auto. apply IHev; auto. rewrite mk0_eq, Hr in Hs. cbn [orb] in Hs. apply andb_prop in Hs. destruct Hs as [H2 Hs]. rewrite H2. cbn [andb].
    rewrite raw_noclean in Hs; auto. now destruct (wants_clean rq p).
  - apply ev_cln_no; auto. apply IHev; auto. now apply andb_prop in Hs.
  - rewrite H in Hs. discriminate.
  - rewrite H in Hs. discriminate.
  - apply ev_atm_no; auto. apply IHev; auto. unfold areq in Hs. now rewrite H in Hs.
  - eapply ev_atm_ok; eauto. apply IHev; auto. unfold areq in Hs. now rewrite H in Hs.
  - eapply ev_atm_ko; eauto. apply IHev; auto. unfold areq in Hs. now rewrite H in Hs.
  - apply ev_seq. apply IHev; auto. destruct l; auto.
  - rewrite H in Hs. eapply ev_seq_ko; eauto.
  - rewrite H in Hs. eapply ev_seq_end; eauto.
  - rewrite H in Hs. eapply ev_seq_next; eauto.
  - apply ev_alt. apply IHev; auto. destruct l; auto.
  - rewrite H in Hs. eapply ev_alt_ok; eauto.
  - rewrite H in Hs. eapply ev_alt_ko; eauto.
  - rewrite H in Hs. eapply ev_alt_next; eauto.
Qed.

Theorem lexeme_under sk q t v s r s' v' k : mk0 default_req q = true -> is_fail sk || sfree sk = true -> mok false default_req q = true ->
  (does env (under sk (Lexeme q)) t v s (res r) s' v' k <-> exists s0, skipped env sk s s0 /\ does env q t v s0 (res r) s' v' k).
Proof.
  intros Hq Hs Hm.
  rewrite under_top by (auto; unfold under; rewrite mok_under, Hs; exact Hm).
  split; intros (s0 & A & H); exists s0; (split; [now apply (skipped_ahead sk (top_dst t))|]).
  - apply ev_does_top; auto. inversion H; subst. eapply mark_free; eauto.
  - apply ev_does_top in H; auto. apply ev_lexeme. eapply mark_free; eauto.
Qed.
End Under.
