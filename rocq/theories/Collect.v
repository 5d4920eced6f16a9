(** Laws for repetitions, lists, optionals, alternatives and Not, destination included. *)
From Coq Require Import List ZArith Bool Arith Lia.
From Verif Require Import Base CharSet Source Dst Pattern Parser Session Rel Safety Limit SpecSession SessionThms.
From Verif Require Import Big BigMk BigLeaf BigSound BigComplete SpecRun Run Blind BlindThms Local SpecValue LocalThms Unary.
From Verif Require Import EvDoes EvReq SpecCollect.
Import ListNotations.

(** ** Marks: less is asked of a part on its own *)
Lemma mok_less p : forall h h2 rq rq2, (h2 = true -> h = true) -> (r_clean rq2 = true -> r_clean rq = true) ->
  r_recur rq = false -> r_recur rq2 = false -> mok h rq p = true -> mok h2 rq2 p = true.
Proof.
  assert (forall p rq rq2, (r_clean rq2 = true -> r_clean rq = true) -> r_recur rq = false -> r_recur rq2 = false ->
     (r_clean (raw_req rq2 p) = true -> r_clean (raw_req rq p) = true) /\ r_recur (raw_req rq p) = false /\ r_recur (raw_req rq2 p) = false) as HR.
  { intros p0 rq rq2 Hc Hr Hr2. unfold raw_req, wants_clean, wants_atomic. rewrite Hr, Hr2.
    destruct (r_clean rq) eqn:E1, (r_clean rq2) eqn:E2, (f_clean p0) eqn:E3; cbn; rewrite ?E1, ?E2, ?E3; cbn;
    repeat match goal with |- context [if ?b then _ else _] => destruct b; cbn end; rewrite ?E1, ?E2; auto; try (intuition congruence). }
  assert (forall p h h2 rq rq2, (h2 = true -> h = true) -> (r_clean rq2 = true -> r_clean rq = true) -> r_recur rq = false -> r_recur rq2 = false ->
     h2 || (negb (r_recur rq2) && wants_clean rq2 p) = true -> h || (negb (r_recur rq) && wants_clean rq p) = true) as HH.
  { intros p0 h h2 rq rq2 H1 H2 H3 H4. rewrite H3, H4. unfold wants_clean. cbn. intros E. apply orb_prop in E. destruct E as [E|E].
    - now rewrite H1.
    - apply andb_prop in E. destruct E as [E1 E2]. rewrite H2, E2; auto. apply orb_true_r. }
  induction p using pat_ind'; intros h h2 rq rq2 H1 H2 H3 H4; cbn [mok]; auto;
  match goal with |- context [raw_req rq ?p] => pose proof (HR p rq rq2 H2 H3 H4) as (HR1 & HR2 & HR3); pose proof (HH p h h2 rq rq2 H1 H2 H3 H4) as HH1;
     try (set (k := h || _) in *; set (k2 := h2 || _) in * ) | _ => idtac end.
  all: try (match goal with IH : forall h h2 rq rq2, _ |- _ => eapply IH; eauto end; fail).
  all: try (match goal with IH : Forall _ _ |- _ => rewrite !forallb_forall; intros HA q Hq; rewrite Forall_forall in IH; eapply (IH q Hq); [| | | |apply HA, Hq]; eauto end; fail).
  - intros E. apply andb_prop in E. destruct E as [E1 E2]. apply andb_true_intro. split.
    + destruct k2; auto. now rewrite HH1 in E1.
    + revert E2. apply IHp; auto.
  - intros E. apply andb_prop in E. destruct E as [E1 E2]. rewrite E1. revert E2. apply IHp1; auto.
  - intros E. apply andb_prop in E. destruct E as [E1 E2]. apply andb_true_intro. split.
    + revert E1. apply IHp2; auto.
    + revert E2. apply IHp1; auto.
Qed.

Section Collect.
Context (env : nat -> option pat).
Hypothesis Hmok : forall id q, env id = Some q -> mok true recur_req q = true.
Notation ev := (ev env).

(** ** Skipping twice *)
Lemma skipping_end sk s s' : skipping sk s s' -> skip1 sk s' = None.
Proof. induction 1; auto. Qed.
Lemma skipping_fun sk s s1 s2 : skipping sk s s1 -> skipping sk s s2 -> s1 = s2.
Proof.
  intros H. revert s2. induction H; intros s2 H2; inversion H2; subst; try congruence.
  rewrite H in H1. injection H1 as <-. auto.
Qed.
Lemma ahead_again c s s1 s2 : ahead c s s1 -> (ahead c s1 s2 <-> ahead c s s2).
Proof.
  unfold ahead. destruct (is_fail _); [intros ->; tauto|]. intros H. split; intros H2.
  - inversion H2; subst; auto. apply skipping_end in H. congruence.
  - rewrite (skipping_fun _ _ _ _ H2 H). constructor. eapply skipping_end; eauto.
Qed.

Lemma run_again c rq d p x w s s' r w' : r_recur rq = false -> ahead c s s' ->
  (ev GRun c rq d p x (at_ s' w) r w' <-> ev GRun c rq d p x (at_ s w) r w').
Proof.
  intros Hr Ha. rewrite !run_cln by auto. cbn [q_s at_].
  split; intros (s2 & A & B); rewrite at_at in B; exists s2; rewrite at_at; (split; [|exact B]); now apply (ahead_again _ _ _ _ Ha).
Qed.

Context (sk : pat) (t : ty).

(** ** Above the first element *)
Lemma default_run c d p x w r w' :
  ev GRun c default_req d p x w r w' <-> exists s0, ahead c (q_s w) s0 /\ ev GRaw c default_req d p x (at_ s0 w) r w'.
Proof.
  rewrite run_cln by reflexivity. split; intros (s & A & H); exists s; (split; [exact A|]).
  - apply cln_atm in H. cbn in H. apply atm_raw in H. exact H.
  - apply cln_atm. cbn. apply atm_raw. exact H.
Qed.

Lemma run_twice c rq d p x w r w' : r_recur rq = false ->
  (ev GRun c rq d p x w r w' <-> exists s0, ahead c (q_s w) s0 /\ ev GRun c rq d p x (at_ s0 w) r w').
Proof.
  intros Hr. split.
  - intros H. pose proof H as H'. apply run_cln in H; auto. destruct H as (s0 & A & _). exists s0. split; auto.
    apply (run_again _ _ _ _ _ _ _ _ _ _ Hr A). now rewrite at_same.
  - intros (s0 & A & H). apply (run_again _ _ _ _ _ _ _ _ _ _ Hr A) in H. now rewrite at_same in H.
Qed.

Lemma rep_twice c rq d lo hi q n x w r w' :
  ev (GRep n) c rq d (Repeat lo hi q) x w r w' <->
  exists s0, ahead c (q_s w) s0 /\ ev (GRep n) c rq d (Repeat lo hi q) x (at_ s0 w) r w'.
Proof.
  split.
  - intros H. inversion H; subst; match goal with H : ev GRun _ _ _ _ _ _ _ _ |- _ => apply run_twice in H; auto; destruct H as (s0 & A & H) end;
      exists s0; (split; [exact A|]).
    + eapply ev_rep_stop; eauto.
    + eapply ev_rep_full; eauto.
    + eapply ev_rep_more; eauto.
  - intros (s0 & A & H). inversion H; subst;
      match goal with H : ev GRun _ ?rq ?d ?q ?x _ ?r ?w' |- _ => 
        assert (ev GRun c rq d q x w r w') by (apply run_twice; eauto) end.
    + eapply ev_rep_stop; eauto.
    + eapply ev_rep_full; eauto.
    + eapply ev_rep_more; eauto.
Qed.

Lemma elem_twice c rq d q sep m x w r w' :
  ev (GElem m) c rq d (PList q sep) x w r w' <->
  exists s0, ahead c (q_s w) s0 /\ ev (GElem m) c rq d (PList q sep) x (at_ s0 w) r w'.
Proof.
  split.
  - intros H. inversion H; subst; match goal with H : ev GRun _ _ _ _ _ _ _ _ |- _ => apply run_twice in H; auto; destruct H as (s0 & A & H) end;
      exists s0; (split; [exact A|]).
    + eapply ev_elem_end; eauto.
    + eapply ev_elem_next; eauto.
  - intros (s0 & A & H). inversion H; subst;
      match goal with H : ev GRun _ ?rq ?d ?q ?x _ ?r ?w' |- _ => 
        assert (ev GRun c rq d q x w r w') by (apply run_twice; eauto) end.
    + eapply ev_elem_end; eauto.
    + eapply ev_elem_next; eauto.
Qed.

Lemma under_top p v s r s' v' k : mok false default_req (under sk p) = true ->
  (does env (under sk p) t v s (res r) s' v' k <->
   exists s0, ahead (Ctx sk (top_dst t)) s s0 /\
     ev GRaw (Ctx sk (top_dst t)) default_req (top_dst t) p s (SW s0 [v] []) r (SW s' [v'] (rev k))).
Proof.
  intros Hm. rewrite ev_does_top by auto. unfold under. rewrite ev_under by reflexivity. now rewrite default_run.
Qed.

Lemma rep_top lo hi q v s r s' v' k : mok false default_req (under sk (Repeat lo hi q)) = true ->
  (does env (under sk (Repeat lo hi q)) t v s (res r) s' v' k <->
   ev (GRep 0) (Ctx sk (top_dst t)) default_req (top_dst t) (Repeat lo hi q) s (SW s [v] []) r (SW s' [v'] (rev k))).
Proof.
  intros Hm. rewrite under_top, rep_twice by auto. cbn [q_s]. split; intros (s0 & A & H); exists s0; (split; [exact A|]).
  - inversion H; subst; auto.
  - apply ev_rep; auto.
Qed.

Lemma mok_rep lo hi q : mok false default_req (under sk (Repeat lo hi q)) = true -> mok false default_req (under sk q) = true.
Proof.
  cbn [under mok]. intros H. apply andb_prop in H. destruct H as [H1 H2]. rewrite H1. cbn [andb].
  eapply mok_less; [| | | |exact H2]; auto; discriminate.
Qed.

(** ** Back at the start *)
Lemma uint_back b lo d cs s s' cs' : uint_run b lo 1 d 0 cs s = Done (false, s', cs') -> s' = s.
Proof.
  destruct s as [|x l]; cbn; [congruence|]. destruct (digit_valid b x); [|congruence].
  repeat match goal with |- obind ?o _ = _ -> _ => destruct o; cbn [obind]; try discriminate end.
Qed.

Lemma alt_back l g c rq d p x w r w' : ev g c rq d p x w r w' -> forall i, g = GAlt i -> p = Alt l -> r = false -> x = q_s w ->
  (forall q, In q l -> forall w w', ev GRun c (alt_req rq) d q (q_s w) w false w' -> q_s w' = q_s w) -> q_s w' = q_s w.
Proof.
  induction 1; intros i0 Eg Ep Er Ex HQ; try discriminate; injection Ep as ->; subst.
  - eapply HQ; eauto. eapply nth_error_In; eauto.
  - assert (q_s w1 = q_s w) as E1 by (eapply HQ; eauto; eapply nth_error_In; eauto).
    rewrite <- E1. eapply IHev2; eauto.
Qed.

Lemma list_never_fails g c rq d p x w r w' : ev g c rq d p x w r w' -> (exists m, g = GElem m \/ g = GSep m) -> r = true.
Proof. induction 1; intros (m0 & [E|E]); try discriminate; eauto. Qed.

Lemma back_x p : forall c rq d x w w', returns p = true -> r_clean rq = true -> r_recur rq = false ->
  ev GRun c rq d p x w false w' -> q_s w' = x.
Proof.
  assert (forall p,
    (forall c rq d x w w', r_clean rq = true -> r_recur rq = false -> f_clean p = true ->
       ev GRaw c rq d p x w false w' -> q_s w' = x) ->
    forall c rq d x w w', r_clean rq = true -> r_recur rq = false ->
       ev GRun c rq d p x w false w' -> q_s w' = x) as HA.
  { intros p0 HR c rq d x w w' Hc Hr H. apply run_cln in H; auto. destruct H as (s0 & A & H).
    apply cln_atm in H. unfold wants_clean in H. rewrite Hc in H. destruct (f_clean p0) eqn:Ef; cbn in H.
    - apply atm_raw in H. destruct (wants_atomic rq p0).
      + destruct H as (s & cs & v & tr & H & _ & ->). exact (HR c (unatomic_req rq) _ _ _ _ Hc eq_refl eq_refl H).
      + apply HR in H; auto.
    - destruct H as (w1 & _ & ->). reflexivity. }
  induction p using pat_ind'; intros c rq d x w w' Hs Hc Hr Hev; revert Hev; apply HA; auto; clear c rq d x w w' Hc Hr;
    intros c rq d x w w' Hc Hr Hf Hev; cbn [returns] in Hs; rewrite Hf in Hs; cbn [negb orb] in Hs; try discriminate Hs.
  all: inversion Hev; subst; auto; try congruence; try discriminate.
  - destruct l as [|p0 l]; [discriminate|]. set (L := p0 :: l) in *. rewrite forallb_forall in Hs. rewrite Forall_forall in H.
    assert (forall g c0 rq0 d p x w r w', ev g c0 rq0 d p x w r w' -> forall i, g = GAlt i -> c0 = c -> rq0 = rq -> p = Alt L -> r = false -> q_s w' = x) as HL.
    { clear - H Hs. induction 1; intros i0 Eg Ec Er Ep Ef; try discriminate; injection Ep as ->; subst.
      - pose proof (nth_error_In _ _ H0) as Hin. eapply (H _ Hin c (alt_req rq)); [exact (Hs _ Hin)|reflexivity|reflexivity|exact H2].
      - pose proof (nth_error_In _ _ H0) as Hin. assert (q_s w1 = x) as Ex by (eapply (H _ Hin c (alt_req rq)); [exact (Hs _ Hin)|reflexivity|reflexivity|eassumption]). rewrite Ex in *. eauto. }
    eapply HL; eauto.
  - eapply IHp; eauto.
  - eapply IHp; [| | |eassumption]; auto.
  - eapply IHp1; [| | |eassumption]; auto.
  - eapply IHp; [| | |eassumption]; auto.
  - match goal with H : ev GRun _ _ _ _ _ _ _ _ |- _ => eapply IHp in H; auto end.
  - match goal with H : ev GRun _ _ _ _ _ _ _ _ |- _ => eapply IHp in H; auto end.
  - match goal with H : ev (GElem _) _ _ _ _ _ _ _ _ |- _ => apply list_never_fails in H; [discriminate|eauto] end.
Qed.

Lemma back p : forall c rq d w w', steady p = true -> is_fail (c_skip c) = true -> r_clean rq = true -> r_recur rq = false ->
  ev GRun c rq d p (q_s w) w false w' -> q_s w' = q_s w.
Proof.
  assert (forall p, steady p = true ->
    (forall c rq d w w', is_fail (c_skip c) = true -> r_clean rq = true -> r_recur rq = false -> f_clean p = true ->
       ev GRaw c rq d p (q_s w) w false w' -> q_s w' = q_s w) ->
    forall c rq d w w', is_fail (c_skip c) = true -> r_clean rq = true -> r_recur rq = false ->
       ev GRun c rq d p (q_s w) w false w' -> q_s w' = q_s w) as HA.
  { intros p0 Hs HR c rq d w w' Hk Hc Hr H. apply run_cln in H; auto. destruct H as (s0 & A & H). unfold ahead in A. rewrite Hk in A. subst s0.
    rewrite at_same in H. apply cln_atm in H. unfold wants_clean in H. rewrite Hc in H. destruct (f_clean p0) eqn:Ef; cbn in H.
    - apply atm_raw in H. destruct (wants_atomic rq p0).
      + destruct H as (s & cs & v & tr & H & _ & ->). exact (HR c (unatomic_req rq) _ (with_c (q_c w ++ [default_init (dst_value_ty d)]) w) _ Hk Hc eq_refl eq_refl H).
      + apply HR in H; auto.
    - destruct H as (w1 & _ & ->). reflexivity. }
  induction p using pat_ind'; intros c rq d w w' Hs Hk Hc Hr Hev; revert Hev; apply (HA _ Hs); auto; clear c rq d w w' Hk Hc Hr;
    intros c rq d w w' Hk Hc Hr Hf Hev; try discriminate Hf; cbn in Hs.
  all: inversion Hev; subst; auto; try congruence; try discriminate.
  - cbn in Hf. apply Z.eqb_eq in Hf. subst. eapply uint_back; eauto.
  - cbn in Hf. rewrite Hf in Hs. discriminate.
  - rewrite forallb_forall in Hs. rewrite Forall_forall in H. eapply alt_back; eauto.
    intros q Hin w0 w1 HE. exact (H _ Hin c (alt_req rq) d w0 w1 (Hs _ Hin) Hk eq_refl eq_refl HE).
  - eapply IHp; eauto.
  - eapply IHp; [| | | |eassumption]; auto.
  - apply orb_prop in Hs. destruct Hs as [Hs|Hs].
    + match goal with H : ev GRun _ _ _ _ _ _ _ _ |- _ => eapply back_x in H; eauto end.
    + apply andb_prop in Hs. destruct Hs. eapply IHp1; [| | | |eassumption]; auto.
  - eapply IHp; [| | | |eassumption]; auto.
  - match goal with H : ev GRun _ _ _ _ _ _ _ _ |- _ => eapply (IHp _ _ _ (with_c _ w)) in H; auto end.
  - match goal with H : ev GRun _ _ _ _ _ _ _ _ |- _ => eapply (IHp _ _ _ (with_c _ w)) in H; auto end.
  - exfalso. match goal with H : ev (GElem ?m) _ _ _ _ _ _ _ _ |- _ => rename H into HX; remember (GElem m) as g eqn:Eg end.
    assert (forall m, g = GElem m \/ g = GSep m -> False) as HF; [|eapply HF; eauto].
    clear - HX. remember false as r eqn:Er. induction HX; intros m0 [E|E]; try discriminate; eauto.
Qed.


(** ** One element, where it stands *)
Lemma place_top v : place [v] (top_dst t) t v.
Proof. destruct t; cbn [top_dst dst_cell place]; auto; split; auto; split; auto; discriminate. Qed.
Lemma store_top v v' : store [v] (top_dst t) v' = Done [match t with TNil => v | _ => v' end].
Proof. destruct t; reflexivity. Qed.

Lemma ev_at_top p s v tr r w' : mok false default_req p = true ->
  (ev GRun (top_ctx t) default_req (top_dst t) p s (SW s [v] tr) r w' <->
   exists v' k, does env p t v s (res r) (q_s w') v' k /\ q_c w' = [v'] /\ q_t w' = rev k ++ tr).
Proof.
  intros Hm. unfold top_ctx. 
  pose proof (ev_does env Hmok (top_dst t) (top_dst t) p t v (SW s [v] tr) r w' Hm (place_top v) (or_introl eq_refl)) as HE.
  cbn [q_s q_c q_t] in HE. rewrite HE.
  split; intros (v' & k & A & B & D); exists v', k; (split; [exact A|]).
  - rewrite store_top in B. injection B as B. split; auto. rewrite <- B. destruct t; auto. now rewrite (does_nil _ _ _ _ _ _ _ _ A).
  - split; auto. rewrite B, store_top. destruct t; auto. now rewrite (does_nil _ _ _ _ _ _ _ _ A).
Qed.

Lemma back_under c rq d q w w' : steady (under (c_skip c) q) = true -> r_clean rq = true -> r_recur rq = false ->
  ev GRun c rq d q (q_s w) w false w' -> q_s w' = q_s w.
Proof.
  intros Hs Hc Hr H. cbn [under steady] in Hs. apply orb_prop in Hs. destruct Hs as [Hs|Hs].
  - eapply back_x in H; eauto.
  - apply andb_prop in Hs. destruct Hs. eapply back in H; eauto.
Qed.

Lemma mok_once q : mok false default_req (under sk q) = true -> mok true list_req q = true -> mok false default_req (under sk (once q)) = true.
Proof.
  intros H1 H2. cbn [under mok once] in *. apply andb_prop in H1. destruct H1 as [H1 _]. rewrite H1. cbn [andb].
  eapply mok_less; [| | | |exact H2]; auto; discriminate.
Qed.

Definition one (q : pat) : Prop := mok false default_req (under sk (once q)) = true.

Lemma once_ev q s v tr r w' : one q ->
  (ev GRun (Ctx sk (top_dst t)) list_req (top_dst t) q s (SW s [v] tr) r w' <->
   exists v' k, does env (under sk (once q)) t v s (res r) (q_s w') v' k /\ q_c w' = [v'] /\ q_t w' = rev k ++ tr).
Proof.
  intros Hm. rewrite <- ev_at_top by auto. unfold under, top_ctx. rewrite ev_under by reflexivity. cbn [c_bound].
  rewrite default_run. cbn [q_s]. split.
  - intros H. apply run_twice in H; auto. destruct H as (s0 & A & H). exists s0. split; auto. apply ev_rep; auto.
    destruct r; [eapply ev_rep_full; [exact H|reflexivity]|].
    exact (ev_rep_stop _ _ default_req _ 1 1 _ 0 _ _ _ H).
  - intros (s0 & A & H). apply run_twice; auto. exists s0. split; auto. inversion H; subst.
    match goal with H : ev (GRep 0) _ _ _ _ _ _ _ _ |- _ => inversion H; subst end; auto. discriminate.
Qed.

(** The same when more is asked: only the place where a failing element stops is another. *)
Lemma elem_fwd rq q w v r w' : r_atomic rq = true -> r_consumes rq = false -> r_recur rq = false -> one q ->
  ev GRun (Ctx sk (top_dst t)) rq (top_dst t) q (q_s w) w r w' -> q_c w = [v] ->
  exists s2 v' k, does env (under sk (once q)) t v (q_s w) (res r) s2 v' k /\
    w' = SW (q_s w') [v'] (rev k ++ q_t w) /\ (r = true \/ r_clean rq = false -> q_s w' = s2).
Proof.
  intros Ha Hc Hr Hm H Hv. assert (w = SW (q_s w) [v] (q_t w)) as Ew by (destruct w; cbn in *; congruence).
  destruct (r_clean rq) eqn:Ec.
  - destruct (ev_cleanly env _ _ _ _ _ _ _ _ _ H I list_req) as (w2 & H2 & A & B & D); [unfold cleanly; cbn; auto|].
    rewrite Ew in H2. apply once_ev in H2; auto. destruct H2 as (v' & k & K1 & K2 & K3).
    exists (q_s w2), v', k. split; auto. split; [destruct w'; cbn in *; congruence|]. intros [E|E]; [auto|discriminate].
  - assert (rq = list_req) as -> by (destruct rq; cbn in *; subst; reflexivity).
    rewrite Ew in H. apply once_ev in H; auto. destruct H as (v' & k & K1 & K2 & K3).
    exists (q_s w'), v', k. split; auto. split; auto. destruct w'; cbn in *; congruence.
Qed.

Lemma elem_bwd rq q s v tr r s2 v' k : r_atomic rq = true -> r_consumes rq = false -> r_recur rq = false -> one q ->
  does env (under sk (once q)) t v s (res r) s2 v' k ->
  exists s', ev GRun (Ctx sk (top_dst t)) rq (top_dst t) q s (SW s [v] tr) r (SW s' [v'] (rev k ++ tr)) /\
    (r = true \/ r_clean rq = false -> s' = s2).
Proof.
  intros Ha Hc Hr Hm H.
  assert (ev GRun (Ctx sk (top_dst t)) list_req (top_dst t) q s (SW s [v] tr) r (SW s2 [v'] (rev k ++ tr))) as H1.
  { apply once_ev; auto. exists v', k. auto. }
  destruct (r_clean rq) eqn:Ec.
  - destruct (ev_cleanly env _ _ _ _ _ _ _ _ _ H1 I rq) as (w2 & H2 & A & B & D); [unfold cleanly; cbn; auto|].
    exists (q_s w2). cbn in *. split; [destruct w2; cbn in *; congruence|]. intros [E|E]; [symmetry; auto|discriminate].
  - assert (rq = list_req) as -> by (destruct rq; cbn in *; subst; reflexivity). exists s2. auto.
Qed.

Notation yes q := (parses env (under sk (once q)) t SUCCESS).
Notation no q := (parses env (under sk (once q)) t FAILURE).
Notation D := (top_dst t).
Notation C := (Ctx sk (top_dst t)).

(** ** Repetitions *)
Lemma rep_fwd lo hi q n x w r w' v : one q ->
  ev (GRep n) C default_req D (Repeat lo hi q) x w r w' ->
  x = q_s w -> q_c w = [v] -> hi = 0 \/ n < hi ->
  exists j s1 v1 k, matches (yes q) v (q_s w) j s1 v1 k /\
   ((hi <> 0 /\ n + j = hi /\ r = true /\ w' = SW s1 [v1] (rev k ++ q_t w)) \/
    ((hi = 0 \/ n + j < hi) /\ r = (lo <=? n + j) /\ exists s2 v2 k2 wl,
       no q s1 v1 s2 v2 k2 /\ w' = SW (q_s w') [v2] (rev (k ++ k2) ++ q_t w) /\
       (r_clean (repeat_req lo hi default_req) = false -> q_s w' = s2) /\
       q_s wl = s1 /\ ev GRun C (repeat_req lo hi default_req) D q s1 wl false w')).
Proof.
  intros Hm H. remember (GRep n) as g eqn:Eg. remember (Repeat lo hi q) as p eqn:Ep. remember D as d eqn:Ed.
  remember (Ctx sk d) as c eqn:Ec. remember default_req as rq eqn:Er.
  revert n v Eg. induction H; intros nn vz Eg Ex Hv Hn; try discriminate; try (subst rq; discriminate); injection Eg as ->; injection Ep as -> -> ->; subst.
  - pose proof H as H'. eapply elem_fwd in H; eauto. destruct H as (s2 & v2 & k & K1 & K2 & K3).
    exists 0, (q_s w), vz, []. split; [constructor|]. right. rewrite Nat.add_0_r. split; auto. split; auto.
    exists s2, v2, k, w. split; [exact K1|]. split; [exact K2|]. split; auto.
  - eapply elem_fwd in H; eauto. destruct H as (s2 & v1 & k & K1 & K2 & K3). rewrite <- (K3 (or_introl eq_refl)) in K1.
    apply andb_prop in H0. destruct H0 as [H1 H2]. apply negb_true_iff, Nat.eqb_neq in H1. apply Nat.eqb_eq in H2.
    exists 1, (q_s w'), v1, (k ++ []). split; [econstructor; [exact K1|constructor]|]. left.
    rewrite app_nil_r. repeat split; auto. lia.
  - eapply elem_fwd in H; eauto. destruct H as (s2 & v1 & k & K1 & K2 & K3). rewrite <- (K3 (or_introl eq_refl)) in K1.
    assert (hi = 0 \/ S nn < hi) as Hn'.
    { destruct Hn; auto. destruct hi; auto. right. cbn [Nat.eqb negb andb] in H0. apply Nat.eqb_neq in H0. lia. }
    destruct (IHev2 eq_refl eq_refl eq_refl eq_refl _ v1 eq_refl eq_refl ltac:(rewrite K2; reflexivity) Hn') as (j & s1 & v' & k' & M1 & M3).
    exists (S j), s1, v', (k ++ k'). split; [econstructor; eauto|].
    assert (q_t w1 = rev k ++ q_t w) as K4 by (rewrite K2; reflexivity).
    replace (nn + S j) with (S nn + j) by lia.
    destruct M3 as [(N1 & N2 & N3 & N4)|(N1 & N2 & z2 & z & kz & wl & N3 & N4 & N5)].
    + left. repeat split; auto. rewrite N4, K4, rev_app_distr, app_assoc. reflexivity.
    + right. split; auto. split; auto. exists z2, z, kz, wl. split; auto. split; auto.
      rewrite N4 at 1. rewrite K4, <- app_assoc, rev_app_distr with (x := k), app_assoc. reflexivity.
Qed.

Lemma rep_bwd lo hi q j v s s1 v1 k : one q -> matches (yes q) v s j s1 v1 k -> forall n tr,
  (hi <> 0 -> 0 < j -> n + j = hi ->
   ev (GRep n) C default_req D (Repeat lo hi q) s (SW s [v] tr) true (SW s1 [v1] (rev k ++ tr))) /\
  (hi = 0 \/ n + j < hi -> forall s2 v2 k2, no q s1 v1 s2 v2 k2 ->
   exists s', (r_clean (repeat_req lo hi default_req) = false -> s' = s2) /\
     (exists wl, q_s wl = s1 /\ ev GRun C (repeat_req lo hi default_req) D q s1 wl false (SW s' [v2] (rev (k ++ k2) ++ tr))) /\
     ev (GRep n) C default_req D (Repeat lo hi q) s (SW s [v] tr) (lo <=? n + j) (SW s' [v2] (rev (k ++ k2) ++ tr))).
Proof.
  intros Hm. induction 1; intros nn tr; split.
  - lia.
  - intros Hn s2 v2 k2 He. destruct (elem_bwd (repeat_req lo hi default_req) q s v tr false _ _ _ eq_refl eq_refl eq_refl Hm He) as (s' & K1 & K2).
    exists s'. split; auto. cbn [app]. split; [eexists; split; [|exact K1]; reflexivity|]. rewrite Nat.add_0_r. eapply ev_rep_stop. exact K1.
  - intros Hh _ En. destruct (elem_bwd (repeat_req lo hi default_req) q s v tr true _ _ _ eq_refl eq_refl eq_refl Hm H) as (s2 & He & Es).
    rewrite (Es (or_introl eq_refl)) in He. rewrite rev_app_distr, <- app_assoc. destruct n.
    + inversion H0; subst. eapply ev_rep_full; [exact He|]. apply andb_true_intro; split; [apply negb_true_iff, Nat.eqb_neq|apply Nat.eqb_eq]; lia.
    + eapply ev_rep_more; [exact He| |].
      * destruct hi; auto. cbn [Nat.eqb negb andb]. apply Nat.eqb_neq. lia.
      * apply IHmatches; auto; lia.
  - intros Hn s2 v2 k2 Hz. destruct (elem_bwd (repeat_req lo hi default_req) q s v tr true _ _ _ eq_refl eq_refl eq_refl Hm H) as (s3 & He & Es).
    rewrite (Es (or_introl eq_refl)) in He.
    destruct (IHmatches (S nn) (rev k1 ++ tr)) as [_ IH2]. destruct (IH2 ltac:(lia) _ _ _ Hz) as (s'' & E1 & E3 & E2).
    rewrite app_assoc, <- rev_app_distr, app_assoc in E3.
    exists s''. split; auto. split; [exact E3|]. replace (nn + S n) with (S nn + n) by lia. eapply ev_rep_more; [exact He| |].
    + destruct hi; auto. cbn [Nat.eqb negb andb]. apply Nat.eqb_neq. lia.
    + rewrite <- app_assoc, rev_app_distr with (x := k1), <- app_assoc. exact E2.
Qed.

Lemma res_le lo n : res (lo <=? n) = if lo <=? n then SUCCESS else FAILURE.
Proof. destruct (lo <=? n); reflexivity. Qed.
Lemma rev_eq (a b : list event) : rev a = rev b ++ [] -> a = b.
Proof. rewrite app_nil_r. intros H. apply (f_equal (@rev _)) in H. now rewrite !rev_involutive in H. Qed.

Lemma one_rep lo hi q : mok false default_req (under sk (Repeat lo hi q)) = true -> one q.
Proof.
  unfold one. cbn [under mok once]. intros H. apply andb_prop in H. destruct H as [H1 H2]. rewrite H1. cbn [andb].
  eapply mok_less; [| | | |exact H2]; auto. discriminate.
Qed.

Theorem repeat_place lo hi q v s r s' v' k : steady (under sk q) = true ->
  mok false default_req (under sk (Repeat lo hi q)) = true ->
  (does env (under sk (Repeat lo hi q)) t v s (res r) s' v' k <->
   repeated (yes q) (no q) lo hi (back_unless_fixed lo hi) v s (res r) s' v' k).
Proof.
  intros Hst Hm. rewrite rep_top by auto. pose proof (one_rep _ _ _ Hm) as Hm'.
  assert ((lo =? hi) && negb (hi =? 0) = false -> r_clean (repeat_req lo hi default_req) = true) as Hcl.
  { cbn. destruct (lo =? hi), (hi =? 0); cbn in *; auto. }
  assert ((lo =? hi) && negb (hi =? 0) = true -> r_clean (repeat_req lo hi default_req) = false) as Hcl2.
  { cbn. destruct (lo =? hi), (hi =? 0); cbn in *; auto. }
  split.
  - intros H. eapply rep_fwd in H; eauto; [|reflexivity|destruct hi; [auto|right; lia]].
    destruct H as (j & s1 & v1 & kk & M & [(A & B & E & F)|(A & B & s2 & v2 & k2 & wl & E & F & G & J & K)]); cbn in *.
    + injection F as -> -> F. apply rev_eq in F. subst. now apply rpt_full.
    + injection F as -> F. apply rev_eq in F. subst. rewrite res_le.
      eapply rpt_stop; eauto. unfold back_unless_fixed.
      destruct ((lo =? hi) && negb (hi =? 0)); auto. apply back_under in K; auto.
  - intros H. inversion H as [? ? ? H0 H1 E0|n s1 v1 k1 s2 ? k2 ? H0 H1 H2 H3 E0]; subst.
    + destruct (rep_bwd lo hi q _ _ _ _ _ _ Hm' H1 0 []) as [HB _]. rewrite app_nil_r in HB.
      destruct r; [|discriminate]. apply HB; auto. lia.
    + destruct (rep_bwd lo hi q _ _ _ _ _ _ Hm' H1 0 []) as [_ HB]. cbn [plus] in HB.
      destruct (HB ltac:(lia) _ _ _ H2) as (sz & E1 & (wl & E3 & E4) & E2). rewrite app_nil_r in E2.
      assert (r = (lo <=? n)) as -> by (destruct r, (lo <=? n); auto; discriminate).
      assert (s' = sz) as ->; [|exact E2]. unfold back_unless_fixed in H3. subst s'.
      destruct ((lo =? hi) && negb (hi =? 0)); [symmetry; auto|].
      subst s1. apply back_under in E4; auto.
Qed.

Theorem repeat_outcome lo hi q v s r v' k :
  mok false default_req (under sk (Repeat lo hi q)) = true ->
  ((exists s', does env (under sk (Repeat lo hi q)) t v s (res r) s' v' k) <->
   (exists s', repeated (yes q) (no q) lo hi anywhere v s (res r) s' v' k)).
Proof.
  intros Hm. pose proof (one_rep _ _ _ Hm) as Hm'. split.
  - intros (s' & H). apply rep_top in H; auto. eapply rep_fwd in H; eauto; [|reflexivity|destruct hi; [auto|right; lia]].
    destruct H as (j & s1 & v1 & kk & M & [(A & B & E & F)|(A & B & s2 & v2 & k2 & wl & E & F & G & J & K)]); cbn in *.
    + injection F as -> -> F. apply rev_eq in F. subst. eexists. apply rpt_full; [assumption|eassumption].
    + injection F as -> F. apply rev_eq in F. subst. rewrite res_le. exists s'. eapply rpt_stop; eauto. exact I.
  - intros (s' & H). inversion H as [? ? ? H0 H1 E0|n s1 v1 k1 s2 ? k2 ? H0 H1 H2 H3 E0]; subst.
    + destruct (rep_bwd lo hi q _ _ _ _ _ _ Hm' H1 0 []) as [HB _]. rewrite app_nil_r in HB.
      destruct r; [|discriminate]. exists s'. refine (proj2 (rep_top _ _ _ _ _ true _ _ _ Hm) _). apply HB; auto. lia.
    + destruct (rep_bwd lo hi q _ _ _ _ _ _ Hm' H1 0 []) as [_ HB]. cbn [plus] in HB.
      destruct (HB ltac:(lia) _ _ _ H2) as (sz & E1 & _ & E2). rewrite app_nil_r in E2.
      assert (r = (lo <=? n)) as -> by (destruct r, (lo <=? n); auto; discriminate).
      exists sz. exact (proj2 (rep_top _ _ _ _ _ (lo <=? n) _ _ _ Hm) E2).
Qed.

(** ** Optionals *)
Theorem opt_law q v s r s' v' k : mok false default_req (under sk (Opt q)) = true ->
  (does env (under sk (Opt q)) t v s (res r) s' v' k <->
   r = true /\ (yes q s v s' v' k \/ (s' = s /\ exists s2, no q s v s2 v' k))).
Proof.
  intros Hm. assert (one q) as Hm'.
  { unfold one. revert Hm. cbn [under mok once]. intros H. apply andb_prop in H. destruct H as [H1 H]. apply andb_prop in H. destruct H as [_ H].
    rewrite H1. cbn [andb]. eapply mok_less; [| | | |exact H]; auto; try discriminate. }
  rewrite under_top by auto. split.
  - intros (s0 & A & H). remember (SW s' [v'] (rev k)) as wz eqn:Ez. inversion H; subst r; match goal with H : ev GRun _ _ _ _ _ _ _ _ |- _ => rename H into HE end.
    + assert (ev GRun C (opt_req default_req) D q s (SW s [v] []) true wz) as HE' by (apply run_twice; auto; exists s0; auto).
      apply (elem_fwd (opt_req default_req) q (SW s [v] []) v) in HE'; auto. destruct HE' as (s2 & v2 & k2 & K1 & K2 & K3). subst wz. cbn in *.
      rewrite <- (K3 (or_introl eq_refl)) in K1. injection K2 as <- K2. apply rev_eq in K2. subst. auto.
    + assert (ev GRun C (opt_req default_req) D q s (SW s [v] []) false w') as HE' by (apply run_twice; auto; exists s0; auto).
      apply (elem_fwd (opt_req default_req) q (SW s [v] []) v) in HE'; auto. destruct HE' as (s2 & v2 & k2 & K1 & K2 & K3). subst wz.
      match goal with H : at_ _ _ = _ |- _ => rewrite K2 in H; injection H as E1 E2 E3 end. cbn in E3. symmetry in E3. apply rev_eq in E3. subst.
      split; auto. right. split; auto. exists s2. exact K1.
  - intros (-> & [K1|(-> & s2 & K1)]).
    + destruct (elem_bwd (opt_req default_req) q s v [] true _ _ _ eq_refl eq_refl eq_refl Hm' K1) as (s3 & He & Es). rewrite (Es (or_introl eq_refl)) in He.
      apply run_twice in He; auto. destruct He as (s0 & A & He). exists s0. split; auto. apply ev_opt_ok. rewrite app_nil_r in He. exact He.
    + destruct (elem_bwd (opt_req default_req) q s v [] false _ _ _ eq_refl eq_refl eq_refl Hm' K1) as (s3 & He & Es).
      apply run_twice in He; auto. destruct He as (s0 & A & He). exists s0. split; auto. rewrite app_nil_r in He.
      exact (ev_opt_ko _ _ _ _ _ _ _ _ He).
Qed.

(** ** Not *)
Lemma under_run p v s r s' v' k : mok false default_req (under sk p) = true ->
  (does env (under sk p) t v s (res r) s' v' k <->
   ev GRun C default_req D p s (SW s [v] []) r (SW s' [v'] (rev k))).
Proof. intros Hm. rewrite ev_does_top by auto. unfold under. now rewrite ev_under by reflexivity. Qed.

Theorem not_law q v s r s' v' k : mok false default_req (under sk (Not q)) = true ->
  (does env (under sk (Not q)) t v s (res r) s' v' k <->
   s' = s /\ exists s1, does env (under sk q) t v s (res (negb r)) s1 v' k).
Proof.
  intros Hm. assert (mok false default_req (under sk q) = true) as Hm'.
  { revert Hm. cbn [under mok]. intros H. apply andb_prop in H. destruct H as [H1 H].
    rewrite H1. cbn [andb]. eapply mok_less; [| | | |exact H]; auto; try discriminate. }
  rewrite under_top by auto. split.
  - intros (s0 & A & H). remember (SW s' [v'] (rev k)) as wz eqn:Ez. inversion H; match goal with H : ev GRun _ _ _ _ _ _ _ _ |- _ => rename H into HE end.
    destruct w' as [s1 c1 t1]. subst wz. match goal with H : at_ _ _ = _ |- _ => injection H as E1 E2 E3 end. cbn in E2, E3. subst c1 t1 r.
    rewrite negb_involutive. split; auto. exists s1. apply under_run; auto. apply run_twice; auto. exists s0. split; auto.
  - intros (-> & s1 & H). apply under_run in H; auto. apply run_twice in H; auto. destruct H as (s0 & A & H). exists s0. split; auto.
    apply (ev_not env C default_req) in H. rewrite negb_involutive in H. exact H.
Qed.

(** ** Lists *)
Context (Hub : all_unbound env).

Lemma sep_fwd q w r w' : unbound q = true -> mok false default_req (under sk q) = true ->
  ev GRun C sep_req DNil q (q_s w) w r w' ->
  exists k, checks env (under sk q) (res r) (q_s w) (q_s w') k /\ q_c w' = q_c w /\ q_t w' = rev k ++ q_t w.
Proof.
  intros Hu Hm H. apply (ev_under env (Ctx Fail D)) in H; auto.
  apply (ev_does env Hmok _ D _ TNil VNil) in H; auto; [|reflexivity|right; auto].
  destruct H as (y & k & A & B & E). cbn in B. injection B as B. exists k. unfold checks.
  rewrite (does_nil _ _ _ _ _ _ _ _ A) in A. auto.
Qed.
Lemma sep_bwd q s cs tr r s' k : unbound q = true -> mok false default_req (under sk q) = true ->
  checks env (under sk q) (res r) s s' k ->
  ev GRun C sep_req DNil q s (SW s cs tr) r (SW s' cs (rev k ++ tr)).
Proof.
  intros Hu Hm H. apply (ev_under env (Ctx Fail D)); auto.
  apply (ev_does env Hmok _ D _ TNil VNil (SW s cs tr)); auto; [reflexivity|right; auto|].
  exists VNil, k. cbn. auto.
Qed.

Lemma list_fwd q sep g x w r w' : one q -> unbound sep = true -> mok false default_req (under sk sep) = true ->
  ev g C default_req D (PList q sep) x w r w' ->
  x = q_s w -> forall v, q_c w = [v] ->
   match g with
   | GElem m => r = true /\ exists s' v' k, w' = SW s' [v'] (rev k ++ q_t w) /\
       items (yes q) (no q) (checks env (under sk sep)) m v (q_s w) s' v' k
   | GSep m => r = true /\ exists s2 k2,
      (checks env (under sk sep) FAILURE (q_s w) s2 k2 /\ w' = SW m [v] (rev k2 ++ q_t w)) \/
      (checks env (under sk sep) SUCCESS (q_s w) s2 k2 /\ exists s' v' k3, w' = SW s' [v'] (rev (k2 ++ k3) ++ q_t w) /\
         items (yes q) (no q) (checks env (under sk sep)) m v s2 s' v' k3)
   | _ => True
   end.
Proof.
  intros Hm Hu Hm2 H. remember (PList q sep) as p eqn:Ep. remember D as d eqn:Ed.
  remember (Ctx sk d) as c eqn:Ec. remember default_req as rq eqn:Er.
  induction H; intros Ex vz Hv; try exact I; try discriminate; try (subst rq; discriminate); try (injection Ep as -> ->); subst.
  - split; auto. eapply elem_fwd in H; eauto. destruct H as (s2 & v2 & k & K1 & K2 & K3).
    exists m, v2, k. split; [rewrite K2; reflexivity|]. eapply itm_stop; eauto.
  - eapply elem_fwd in H; eauto. destruct H as (s2 & v1 & k & K1 & K2 & K3). rewrite <- (K3 (or_introl eq_refl)) in K1.
    assert (q_t w1 = rev k ++ q_t w) as K4 by (rewrite K2; reflexivity). assert (q_c w1 = [v1]) as K5 by (rewrite K2; reflexivity). clear K2.
    destruct (IHev2 eq_refl Hm2 eq_refl eq_refl eq_refl eq_refl v1 K5) as (-> & z2 & k2 & [(A & B)|(A & s' & v' & k3 & B & E)]).
    + split; auto. subst. exists (q_s w1), v1, (k ++ k2). split; [now rewrite K4, rev_app_distr, app_assoc|]. eapply itm_last; eauto.
    + split; auto. subst. exists s', v', (k ++ k2 ++ k3). split; [now rewrite K4, rev_app_distr with (x := k), app_assoc|]. eapply itm_next; eauto.
  - split; auto. apply sep_fwd in H; auto. destruct H as (k & A & B & E). exists (q_s w'), k. left. split; auto.
    unfold at_. congruence.
  - apply sep_fwd in H; auto. destruct H as (k & A & B & E).
    destruct (IHev2 eq_refl Hm2 eq_refl eq_refl eq_refl eq_refl vz ltac:(congruence)) as (-> & s' & v' & k3 & F & G).
    split; auto. exists (q_s w1), k. right. split; auto. exists s', v', k3. split; auto.
    rewrite F, E, rev_app_distr, app_assoc. reflexivity.
Qed.

Lemma list_bwd q sep m v s s' v' k : one q -> unbound sep = true -> mok false default_req (under sk sep) = true ->
  items (yes q) (no q) (checks env (under sk sep)) m v s s' v' k -> forall tr,
  ev (GElem m) C default_req D (PList q sep) s (SW s [v] tr) true (SW s' [v'] (rev k ++ tr)).
Proof.
  intros Hm Hu Hm2. induction 1; intros tr.
  - destruct (elem_bwd list_req q s v tr false _ _ _ eq_refl eq_refl eq_refl Hm H) as (s3 & He & _).
    exact (ev_elem_end _ _ _ _ _ _ _ _ _ _ He).
  - destruct (elem_bwd list_req q s v tr true _ _ _ eq_refl eq_refl eq_refl Hm H) as (s3 & He & Es). rewrite (Es (or_introl eq_refl)) in He.
    eapply ev_elem_next; [exact He|]. rewrite rev_app_distr, <- app_assoc.
    exact (ev_sep_end _ _ _ _ _ _ _ _ _ _ (sep_bwd sep s1 [v1] (rev k1 ++ tr) false _ _ Hu Hm2 H0)).
  - destruct (elem_bwd list_req q s v tr true _ _ _ eq_refl eq_refl eq_refl Hm H) as (s3 & He & Es). rewrite (Es (or_introl eq_refl)) in He.
    eapply ev_elem_next; [exact He|]. rewrite rev_app_distr, rev_app_distr, <- !app_assoc.
    eapply ev_sep_next; [exact (sep_bwd sep s1 [v1] (rev k1 ++ tr) true _ _ Hu Hm2 H0)|]. apply IHitems.
Qed.

Theorem list_law q sep v s r s' v' k : unbound sep = true -> mok false default_req (under sk (PList q sep)) = true ->
  (does env (under sk (PList q sep)) t v s (res r) s' v' k <->
   r = true /\ items (yes q) (no q) (checks env (under sk sep)) s v s s' v' k).
Proof.
  intros Hu Hm. assert (one q /\ mok false default_req (under sk sep) = true) as [Hm1 Hm2].
  { unfold one. revert Hm. cbn [under mok once]. intros H. apply andb_prop in H. destruct H as [H1 H]. apply andb_prop in H. destruct H as [H2 H3].
    rewrite H1. cbn [andb]. split; (eapply mok_less; [| | | |eassumption]; auto; try discriminate). }
  assert (does env (under sk (PList q sep)) t v s (res r) s' v' k <->
    ev (GElem s) C default_req D (PList q sep) s (SW s [v] []) r (SW s' [v'] (rev k))) as ->.
  { rewrite under_top, elem_twice by auto. cbn [q_s]. split; intros (s0 & A & H); exists s0; (split; [exact A|]).
    - inversion H; subst; auto.
    - apply ev_list; auto. }
  split.
  - intros H. eapply list_fwd in H; eauto; [|reflexivity]. destruct H as (-> & s1 & v1 & k1 & E & H). split; auto.
    injection E as -> -> E. apply rev_eq in E. now subst.
  - intros (-> & H). eapply list_bwd in H; eauto. rewrite app_nil_r in H. exact H.
Qed.
End Collect.

(** ** Alternatives *)
Section Alternatives.
Context (env : nat -> option pat).
Hypothesis Hmok : forall id q, env id = Some q -> mok true recur_req q = true.
Context (t : ty).
Notation ev := (ev env).

Lemma part_fwd q w v r w' : mok false default_req q = true -> steady q = true -> q_c w = [v] ->
  ev GRun (top_ctx t) (alt_req default_req) (top_dst t) q (q_s w) w r w' ->
  exists s1 v' k, does env q t v (q_s w) (res r) s1 v' k /\
    w' = SW (if r then s1 else q_s w) [v'] (rev k ++ q_t w).
Proof.
  intros Hm Hs Hv H. destruct (ev_cleanly env _ _ _ _ _ _ _ _ _ H I default_req) as (w2 & H2 & A & B & E); [unfold cleanly; cbn; auto|].
  assert (w = SW (q_s w) [v] (q_t w)) as Ew by (destruct w; cbn in *; congruence).
  rewrite Ew in H2. apply (ev_at_top env Hmok) in H2; auto. destruct H2 as (v' & k & K1 & K2 & K3).
  exists (q_s w2), v', k. split; auto.
  assert (q_s w' = if r then q_s w2 else q_s w) as <-; [|destruct w'; cbn in *; congruence].
  destruct r; auto. eapply back in H; eauto.
Qed.
Lemma part_bwd q s v tr r s1 v' k : mok false default_req q = true -> steady q = true ->
  does env q t v s (res r) s1 v' k ->
  ev GRun (top_ctx t) (alt_req default_req) (top_dst t) q s (SW s [v] tr) r (SW (if r then s1 else s) [v'] (rev k ++ tr)).
Proof.
  intros Hm Hs H.
  assert (ev GRun (top_ctx t) default_req (top_dst t) q s (SW s [v] tr) r (SW s1 [v'] (rev k ++ tr))) as H1.
  { apply (ev_at_top env Hmok); auto. exists v', k. auto. }
  destruct (ev_cleanly env _ _ _ _ _ _ _ _ _ H1 I (alt_req default_req)) as (w2 & H2 & A & B & E); [unfold cleanly; cbn; auto|].
  assert (q_s w2 = if r then s1 else s) as <-; [|destruct w2; cbn in *; subst; exact H2].
  destruct r; [symmetry; apply E; auto|]. apply (back env q _ _ _ (SW s [v] tr)) in H2; auto.
Qed.

Lemma nth_skip {A} (l : list A) i q : nth_error l i = Some q -> skipn i l = q :: skipn (S i) l.
Proof. revert l. induction i; intros [|a l] H; cbn in *; try discriminate; [congruence|]. now apply IHi. Qed.
Lemma nth_skip_none {A} (l : list A) i : nth_error l i = None -> skipn i l = [].
Proof. intros H. apply skipn_all2. now apply nth_error_None. Qed.

Lemma alt_fwd l g d0 p x w r w' rq c : ev g c rq d0 p x w r w' ->
  (forall q, In q l -> mok false default_req q = true /\ steady q = true) ->
  c = top_ctx t -> rq = default_req -> d0 = top_dst t -> p = Alt l -> x = q_s w ->
  forall i v, g = GAlt i -> q_c w = [v] -> exists s' v' k,
    w' = SW s' [v'] (rev k ++ q_t w) /\ tried env t (q_s w) (skipn i l) v (res r) s' v' k.
Proof.
  induction 1; intros HQ Ec Er Ed Ep Ex i0 vz Eg Hv; try discriminate; injection Ep as ->; injection Eg as ->; subst.
  all: destruct (HQ q (nth_error_In _ _ H)) as [Q1 Q2].
  all: rewrite (nth_skip _ _ _ H).
  - eapply part_fwd in H0; eauto. destruct H0 as (s1 & v' & k & K1 & K2). exists s1, v', k. split; auto. now apply try_this.
  - eapply part_fwd in H1; eauto. destruct H1 as (s1 & v' & k & K1 & K2). exists (q_s w), v', (k ++ []). split; [now rewrite app_nil_r|].
    rewrite (nth_skip_none _ _ H0). eapply try_next; [exact K1|constructor].
  - eapply part_fwd in H1; eauto. destruct H1 as (s1 & v1 & k & K1 & K2). subst w1.
    destruct (IHev2 HQ eq_refl eq_refl eq_refl eq_refl eq_refl _ v1 eq_refl eq_refl) as (s' & v' & k' & E & F).
    exists s', v', (k ++ k'). split; [rewrite E; cbn; now rewrite rev_app_distr, app_assoc|]. eapply try_next; eauto.
Qed.

Lemma alt_bwd l L v s r s' v' k : (forall q, In q L -> mok false default_req q = true /\ steady q = true) ->
  tried env t s l v r s' v' k -> forall i tr, l = skipn i L -> l <> [] -> exists b, r = res b /\
  ev (GAlt i) (top_ctx t) default_req (top_dst t) (Alt L) s (SW s [v] tr) b (SW s' [v'] (rev k ++ tr)).
Proof.
  intros HQ. induction 1; intros i tr El Hl; [congruence|..].
  all: assert (nth_error L i = Some p) as Hn by (clear - El; revert L El; induction i; intros [|a L] El; cbn in *; try discriminate; [congruence|now apply IHi]).
  all: destruct (HQ p (nth_error_In _ _ Hn)) as [Q1 Q2].
  - exists true. split; auto. eapply ev_alt_ok; [exact Hn|]. exact (part_bwd p s v tr true _ _ _ Q1 Q2 H).
  - pose proof (part_bwd p s v tr false _ _ _ Q1 Q2 H) as HP. pose proof (nth_skip _ _ _ Hn) as El2. rewrite <- El in El2. clear El.
    assert (l = skipn (S i) L) as El by congruence. clear El2.
    destruct (nth_error L (S i)) as [q'|] eqn:Hn'.
    + assert (l <> []) as Hl' by (rewrite (nth_skip _ _ _ Hn') in El; congruence).
      destruct (IHtried (S i) (rev k1 ++ tr) El Hl') as (b & -> & HE). exists b. split; auto.
      rewrite rev_app_distr, <- app_assoc. eapply ev_alt_next; [exact Hn|exact Hn'|exact HP|exact HE].
    + rewrite (nth_skip_none _ _ Hn') in El. subst l. inversion H0; subst. exists false. split; auto. rewrite app_nil_r.
      eapply ev_alt_ko; [exact Hn|exact Hn'|exact HP].
Qed.

Theorem alt_law l v s r s' v' k : l <> [] -> forallb steady l = true -> mok false default_req (Alt l) = true ->
  (does env (Alt l) t v s (res r) s' v' k <-> tried env t s l v (res r) s' v' k).
Proof.
  intros Hl Hs Hm. assert (forall q, In q l -> mok false default_req q = true /\ steady q = true) as HQ.
  { intros q Hq. rewrite forallb_forall in Hs. split; auto. cbn [mok] in Hm. rewrite forallb_forall in Hm.
    eapply mok_less; [| | | |apply Hm, Hq]; auto; try discriminate. }
  rewrite ev_does_top by auto. rewrite (default_run env). cbn [q_s at_ q_c q_t]. split.
  - intros (s0 & A & H). cbn in A. subst s0. inversion H; subst.
    match goal with H : ev (GAlt 0) _ _ _ _ _ _ _ _ |- _ => eapply alt_fwd in H; eauto; [|reflexivity] end.
    match goal with H : exists _, _ |- _ => destruct H as (s1 & v1 & k1 & E & F) end.
    injection E as -> -> E. apply rev_eq in E. now subst.
  - intros H. exists s. split; [reflexivity|]. apply ev_alt.
    destruct (alt_bwd l l _ _ _ _ _ _ HQ H 0 [] eq_refl Hl) as (b & Eb & HE).
    assert (b = r) as -> by (destruct b, r; auto; discriminate). now rewrite app_nil_r in HE.
Qed.
End Alternatives.
