(** bind_dst(p[a] >> *q[b]). *)
From Coq Require Import List ZArith Bool Arith Lia.
From Verif Require Import Base CharSet Source Dst Pattern Parser Session SpecSession SpecRun SpecValue SpecCollect SpecSkip SpecFold.
From Verif Require Import Big BigLeaf Local LocalThms Unary Group EvDoes EvReq Collect Element Under.
Import ListNotations.

Section Fold.
Context (env : nat -> option pat).
Hypothesis Hmok : forall id q, env id = Some q -> mok true recur_req q = true.
Hypothesis Hub : all_unbound env.
Notation ev := (ev env).
Context (sk : pat) (t : ty).
Notation D := (top_dst t).
Notation C := (Ctx sk (top_dst t)).

Lemma act_run_void a l d v s tr w' : ac_void a = true ->
  (act_run a l d C (SW s [v] tr) = Done w' <->
   exists x v', conv (ac_land a) l = Done x /\ called a t v x v' /\ w' = SW s [v'] (Event (ac_id a) x :: tr)).
Proof.
  intros Hv. unfold act_run, act_dispatch. cbn [q_c q_t q_s c_bound w_cells w_src w_trace].
  assert (load [v] D = Done (match t with TNil => VNil | _ => v end)) as HL by (destruct t; reflexivity).
  destruct (conv (ac_land a) l) as [x|]; [|split; [discriminate|intros (x & v' & A & _); discriminate]].
  cbn [q_c q_t q_s c_bound w_cells w_src w_trace]. rewrite Hv. destruct (ac_param a) eqn:Hp; [rewrite HL|].
  - destruct (ac_fun a x _) as [r b] eqn:Ef. split.
    + intros H. exists x. destruct t eqn:Et; cbn [top_dst dst_cell] in H.
      all: try (destruct (has_ty _ b) eqn:Eh in H; [|discriminate]); cbn in H; injection H as <-; eexists; (split; [reflexivity|]); (split; [|reflexivity]).
      all: match goal with |- called _ ?T _ _ _ => exact (cal_bound_void a T v x r b Hp Hv Ef ltac:(intros; congruence)) end.
    + intros (x2 & v' & E & Hc & ->). injection E as <-. inversion Hc as [r1 b1|r1 b1|r1 b1 P1 P2 P3 P4|r1 b1 ? P1 P2]; subst; try congruence.
      assert (r1 = r /\ b1 = b) as [-> ->] by (split; congruence).
      destruct t; cbn [top_dst dst_cell]; try rewrite P4 by discriminate; reflexivity.
  - destruct (ac_fun a x VNil) as [r b] eqn:Ef. split.
    + intros H. cbn in H. injection H as <-. exists x, v. split; [reflexivity|]. split; [|reflexivity]. eapply cal_void; eauto.
    + intros (x2 & v' & E & Hc & ->). injection E as <-. inversion Hc; subst; try congruence. reflexivity.
Qed.

Lemma nil_default T : T = TNil -> default_init T = VNil.
Proof. intros ->. reflexivity. Qed.

Lemma does_bind q T v inp r s v' k : does env (BindDst q) T v inp r s v' k <-> does env q T v inp r s v' k.
Proof.
  split; intros (n & w & H & A).
  - destruct n as [|n]; [destruct (parse_0 _ _ _ _ _ _ _ H)|]. rewrite parse_bind in H. exists n, w. auto.
  - exists (S n), w. rewrite parse_bind. auto.
Qed.

(** An action as a part of something. *)
Lemma act_fwd rq d a q s v tr r w' : r_consumes rq = false -> r_recur rq = false -> ac_void a = true -> unbound q = true ->
  mok false default_req (under sk q) = true ->
  ev GRun C rq d (Act a q) s (SW s [v] tr) r w' ->
  if r then exists s' v' k, performs env a (under sk q) t v s s' v' k /\ w' = SW s' [v'] (rev k ++ tr)
  else exists s1 s' k, declines env a (under sk q) s s1 k /\ w' = SW s' [v] (rev k ++ tr) /\
       (r_clean rq = false -> s' = s1) /\ (r_clean rq = true -> steady (under sk q) = true -> s' = s).
Proof.
  intros Hc Hr Hv Hu Hm H. apply run_cln in H; auto. destruct H as (s0 & A & H). cbn [q_s at_ q_c q_t] in *.
  apply cln_atm in H. assert (wants_clean rq (Act a q) = false) as E by (unfold wants_clean; cbn; apply andb_false_r). rewrite E in H.
  apply atm_raw in H. assert (wants_atomic rq (Act a q) = false) as E2 by (unfold wants_atomic; cbn; apply andb_false_r). rewrite E2 in H.
  assert (forall s1 cs l tr1 r, ev GRun C (action_req rq) (dst_cell 1 (ac_land a)) q s (SW s0 ([v] ++ [default_init (ac_land a)]) tr) r (SW s1 (cs ++ [l]) tr1) -> length cs = 1 ->
    exists s2 k, does env (under sk q) (ac_land a) (default_init (ac_land a)) s (res r) s2 l k /\ cs = [v] /\ tr1 = rev k ++ tr /\
      (r = true -> s1 = s2) /\ (r_clean rq = false -> s1 = s2) /\ (r = false -> r_clean rq = true -> steady (under sk q) = true -> s1 = s)) as HE.
  { clear H r. intros s1 cs l tr1 r H Hlen.
    apply (run_again env C _ _ _ _ (SW s ([v] ++ [default_init (ac_land a)]) tr) s s0) in H; [|reflexivity|exact A]. cbn [at_ q_c q_t] in H.
    assert (r = false -> r_clean rq = true -> steady (under sk q) = true -> s1 = s) as Hb.
    { intros -> Hcl Hs. exact (back_under env C (action_req rq) _ _ (SW s ([v] ++ [default_init (ac_land a)]) tr) _ Hs Hcl eq_refl H). }
    assert (exists w2, ev GRun C default_req (dst_cell 1 (ac_land a)) q s (SW s ([v] ++ [default_init (ac_land a)]) tr) r w2 /\
      same_but_place r (SW s1 (cs ++ [l]) tr1) w2 /\ (r_clean rq = false -> q_s w2 = s1)) as (w2 & H2 & (B1 & B2 & B3) & B4).
    { destruct (r_clean rq) eqn:Hcl.
      - destruct (ev_cleanly _ _ _ _ _ _ _ _ _ _ H I default_req) as (w2 & H2 & B); [split; [reflexivity|split; [exact Hc|reflexivity]]|].
        exists w2. split; auto. split; auto. discriminate.
      - assert (action_req rq = default_req) as Er by (unfold action_req, unatomic_req, default_req; rewrite Hcl, Hc; reflexivity).
        rewrite Er in H. eexists. split; [exact H|]. split; [repeat split|reflexivity]. }
    apply (ev_under env (Ctx Fail D)) in H2; [|reflexivity]. cbn [c_bound] in H2.
    apply (ev_does env Hmok (dst_cell 1 (ac_land a)) D (under sk q) (ac_land a) (default_init (ac_land a)) (SW s ([v] ++ [default_init (ac_land a)]) tr)) in H2; auto.
    - destruct H2 as (l' & k & H2 & Hst & Ht). cbn [q_c q_t q_s] in *. rewrite <- B1 in Hst. change 1 with (length [v]) in Hst. rewrite store_new in Hst. injection Hst as Hst.
      assert (exists c0, cs = [c0]) as (c0 & ->) by (destruct cs as [|c0 [|]]; cbn in Hlen; try lia; eauto). injection Hst as Hst1 Hst2.
      exists (q_s w2), k. assert (l' = l) as ->.
      { rewrite <- Hst2. destruct (ac_land a) eqn:El; auto. exact (does_nil _ _ _ _ _ _ _ _ H2). }
      split; [exact H2|]. split; [congruence|]. split; [congruence|]. split; [intros E0; exact (B3 E0)|]. split; [intros E0; symmetry; auto|exact Hb].
    - change 1 with (length [v]). apply place_new. apply nil_default.
    - right. split; auto. }
  inversion H; subst; clear H; cbn [q_s q_c q_t with_c at_ length] in *.
  - match goal with H0 : ev _ _ _ _ _ _ _ _ _ |- _ => apply HE in H0; [|assumption]; destruct H0 as (s2 & k & H1 & -> & -> & B1 & _) end.
    rewrite (B1 eq_refl) in *. match goal with H0 : act_run _ _ _ _ _ = _ |- _ => apply act_run_void in H0; auto; destruct H0 as (x & v' & G1 & G2 & ->) end.
    exists s2, v', (k ++ [Event (ac_id a) x]). split; [exists v0, x, k; auto|]. now rewrite rev_app_distr.
  - match goal with H0 : ev _ _ _ _ _ _ _ _ _ |- _ => apply HE in H0; [|assumption]; destruct H0 as (s2 & k & H1 & -> & -> & _ & B2 & B3) end.
    exists s2, s1, k. split; [exists v0; auto|]. split; auto.
Qed.

Lemma act_bwd rq d a q s v tr r s1 l k : r_consumes rq = false -> r_recur rq = false -> ac_void a = true -> unbound q = true ->
  mok false default_req (under sk q) = true ->
  does env (under sk q) (ac_land a) (default_init (ac_land a)) s (res r) s1 l k ->
  if r then forall x v', conv (ac_land a) l = Done x -> called a t v x v' ->
    ev GRun C rq d (Act a q) s (SW s [v] tr) true (SW s1 [v'] (rev (k ++ [Event (ac_id a) x]) ++ tr))
  else exists s', ev GRun C rq d (Act a q) s (SW s [v] tr) false (SW s' [v] (rev k ++ tr)) /\
    (r_clean rq = false -> s' = s1) /\ (r_clean rq = true -> steady (under sk q) = true -> s' = s).
Proof.
  intros Hc Hr Hv Hu Hm H.
  assert (exists s', ev GRun C (action_req rq) (dst_cell 1 (ac_land a)) q s (SW s ([v] ++ [default_init (ac_land a)]) tr) r (SW s' ([v] ++ [l]) (rev k ++ tr))
     /\ (r = true -> s' = s1) /\ (r_clean rq = false -> s' = s1) /\ (r = false -> r_clean rq = true -> steady (under sk q) = true -> s' = s)) as (s' & H2 & B1 & B2 & B3).
  { assert (ev GRun C default_req (dst_cell 1 (ac_land a)) q s (SW s ([v] ++ [default_init (ac_land a)]) tr) r (SW s1 ([v] ++ [l]) (rev k ++ tr))) as H1.
    { apply (ev_under env (Ctx Fail D)); [reflexivity|]. cbn [c_bound].
      apply (ev_does env Hmok (dst_cell 1 (ac_land a)) D (under sk q) (ac_land a) (default_init (ac_land a)) (SW s ([v] ++ [default_init (ac_land a)]) tr)); auto.
      - change 1 with (length [v]). apply place_new. apply nil_default.
      - right. split; auto.
      - exists l, k. split; [exact H|]. split; [|reflexivity]. cbn [q_c]. change 1 with (length [v]). rewrite store_new.
        destruct (ac_land a) eqn:El; auto. now rewrite (does_nil _ _ _ _ _ _ _ _ H). }
    destruct (r_clean rq) eqn:Hcl.
    - destruct (ev_cleanly _ _ _ _ _ _ _ _ _ _ H1 I (action_req rq)) as (w2 & H2 & (A1 & A2 & A3)); [split; [reflexivity|split; [cbn; congruence|reflexivity]]|].
      destruct w2 as [s' c2 t2]. cbn [q_c q_t q_s] in *. subst. exists s'. split; [exact H2|]. split; [intros E; symmetry; auto|]. split; [discriminate|].
      intros -> _ Hs. exact (back_under env C (action_req rq) _ _ (SW s ([v] ++ [default_init (ac_land a)]) tr) _ Hs Hcl eq_refl H2).
    - assert (action_req rq = default_req) as Er by (unfold action_req, unatomic_req, default_req; rewrite Hcl, Hc; reflexivity).
      rewrite Er. exists s1. repeat (split; auto). discriminate. }
  assert (exists s0, ahead C s s0) as (s0 & Ha). { pose proof H2 as H3. apply run_cln in H3; [|reflexivity]. destruct H3 as (s0 & A & _). exists s0. exact A. }
  apply (run_again env C _ _ _ _ (SW s ([v] ++ [default_init (ac_land a)]) tr) s s0) in H2; [|reflexivity|exact Ha]. cbn [at_ q_c q_t] in H2.
  assert (forall r w, ev GRaw C rq d (Act a q) s (SW s0 [v] tr) r w -> ev GRun C rq d (Act a q) s (SW s [v] tr) r w) as HR.
  { intros r0 w0 H0. apply run_cln; auto. exists s0. split; [exact Ha|]. apply cln_atm. unfold wants_clean. cbn [f_clean negb]. rewrite andb_false_r.
    apply atm_raw. unfold wants_atomic. cbn [f_atomic negb]. rewrite andb_false_r. exact H0. }
  destruct r.
  - intros x v' Hx Hcl. apply HR. eapply ev_act_ok; [exact H2|reflexivity|]. apply act_run_void; auto. exists x, v'. rewrite (B1 eq_refl).
    split; [exact Hx|]. split; [exact Hcl|]. now rewrite rev_app_distr.
  - exists s'. split; [|auto]. apply HR. eapply ev_act_ko; [exact H2|reflexivity].
Qed.

Lemma rep_fold_fwd b q g c rq d p x w r w' : ac_void b = true -> unbound q = true -> mok false default_req (under sk q) = true ->
  steady (under sk q) = true -> ev g c rq d p x w r w' ->
  forall n0 u, g = GRep n0 -> c = C -> rq = default_req -> p = Repeat 0 0 (Act b q) -> x = q_s w -> q_c w = [u] ->
  r = true /\ exists s' v' k, folded env b (under sk q) t u (q_s w) s' v' k /\ w' = SW s' [v'] (rev k ++ q_t w).
Proof.
  intros Hv Hu Hm Hs. induction 1; intros n1 u Eg Ec Er Ep Ex Ev; try discriminate; injection Ep as -> -> ->; subst;
    destruct w as [s cs tr]; cbn [q_s q_c q_t] in *; subst cs.
  - apply act_fwd in H; auto. destruct H as (s1 & s' & k & A & -> & _ & B). rewrite (B eq_refl Hs). split; [reflexivity|].
    exists s, u, k. split; [eapply fld_end; eauto|reflexivity].
  - discriminate.
  - apply act_fwd in H; auto. destruct H as (s1 & v1 & k & A & ->). cbn [q_s q_c q_t] in *.
    destruct (IHev2 _ v1 eq_refl eq_refl eq_refl eq_refl eq_refl eq_refl) as (-> & s' & v' & k2 & F & ->). split; [reflexivity|].
    exists s', v', (k ++ k2). split; [eapply fld_more; eauto|]. now rewrite rev_app_distr, app_assoc.
Qed.

Lemma rep_fold_bwd b q v s s' v' k d : ac_void b = true -> unbound q = true -> mok false default_req (under sk q) = true ->
  steady (under sk q) = true -> folded env b (under sk q) t v s s' v' k -> forall n tr,
  ev (GRep n) C default_req d (Repeat 0 0 (Act b q)) s (SW s [v] tr) true (SW s' [v'] (rev k ++ tr)).
Proof.
  intros Hv Hu Hm Hs. induction 1 as [v s s1 k (l & H)|v s s1 v1 k1 s' v' k (l & x & k0 & H & Hx & Hc & ->) HF IH]; intros n tr.
  - apply (act_bwd (repeat_req 0 0 default_req) d b q s v tr false) in H; auto. destruct H as (s2 & H & _ & B).
    rewrite (B eq_refl Hs) in H. change true with (0 <=? n). apply ev_rep_stop. exact H.
  - pose proof (act_bwd (repeat_req 0 0 default_req) d b q s v tr true s1 l k0 eq_refl eq_refl Hv Hu Hm H x v1 Hx Hc) as H1.
    eapply ev_rep_more; [exact H1|reflexivity|]. cbn [q_s]. rewrite (rev_app_distr _ k), <- app_assoc. apply IH.
Qed.

Theorem left_fold a p b q v s r s' v' k : ac_void a = true -> ac_void b = true -> unbound p = true -> unbound q = true ->
  steady (under sk q) = true -> mok false default_req (under sk (Seq [Act a p; Repeat 0 0 (Act b q)])) = true ->
  (does env (under sk (BindDst (Seq [Act a p; Repeat 0 0 (Act b q)]))) t v s (res r) s' v' k <->
   (r = false /\ v' = v /\ declines env a (under sk p) s s' k) \/
   (r = true /\ exists s1 v1 k1 k2, performs env a (under sk p) t v s s1 v1 k1 /\
      folded env b (under sk q) t v1 s1 s' v' k2 /\ k = k1 ++ k2)).
Proof.
  intros Ha Hb Hp Hq Hs Hm.
  assert (is_fail sk || sfree sk = true /\ mok false default_req (under sk p) = true /\ mok false default_req (under sk q) = true) as (Hk & Hmp & Hmq).
  { unfold under in *. rewrite mok_under in Hm. rewrite !mok_under. apply andb_prop in Hm. destruct Hm as [-> Hm]. split; [reflexivity|]. cbn [andb].
    cbn [mok forallb] in Hm. cbn in Hm. apply andb_prop in Hm. destruct Hm as [H1 Hm]. apply andb_prop in Hm. destruct Hm as [H2 _]. split.
    - eapply mok_less; [| | | |exact H1]; auto; discriminate.
    - eapply mok_less; [| | | |exact H2]; auto; discriminate. }
  rewrite (under_inside env Hmok) by (auto; unfold under in *; rewrite mok_under in *; exact Hm). cbn [inside]. rewrite does_bind.
  rewrite (under_top env Hmok) by auto.
  assert (forall s0 r w', ahead C s s0 -> (ev GRun C seq_req DNil (Act a p) s (SW s0 [v] []) r w' <-> ev GRun C default_req DNil (Act a p) s (SW s [v] []) r w')) as HA.
  { intros s0 r0 w0 A. exact (run_again env C default_req DNil (Act a p) s (SW s [v] []) s s0 r0 w0 eq_refl A). }
  assert (seq_dst [Act a p; Repeat 0 0 (Act b q)] 0 D = Done DNil) as D0' by (unfold seq_dst; destruct t; cbn; rewrite ?Ha; reflexivity).
  assert (seq_dst [Act a p; Repeat 0 0 (Act b q)] 1 D = Done DNil) as D1' by (unfold seq_dst; destruct t; cbn; rewrite ?Hb; reflexivity).
  assert (forall di, seq_dst [Act a p; Repeat 0 0 (Act b q)] 0 D = Done di -> di = DNil) as D0 by (rewrite D0'; congruence).
  assert (forall di, seq_dst [Act a p; Repeat 0 0 (Act b q)] 1 D = Done di -> di = DNil) as D1 by (rewrite D1'; congruence).
  split.
  - intros (s0 & A & H). inversion H; subst. match goal with H : ev (GSeq 0) _ _ _ _ _ _ _ _ |- _ => inversion H; subst; clear H end.
    + match goal with H : nth_error _ 0 = _ |- _ => injection H as <- end. match goal with H : seq_dst _ _ _ = _ |- _ => apply D0 in H; subst end.
      match goal with H : ev GRun _ _ _ _ _ _ _ _ |- _ => apply HA in H; auto; apply act_fwd in H; auto; destruct H as (s1 & s2 & k1 & B1 & B2 & B3 & _) end.
      injection B2 as -> -> B2. apply rev_eq in B2. subst. rewrite (B3 eq_refl). left. auto.
    + discriminate.
    + match goal with H : nth_error _ 0 = _ |- _ => injection H as <- end. match goal with H : nth_error _ 1 = _ |- _ => injection H as <- end.
      match goal with H : seq_dst _ _ _ = _ |- _ => apply D0 in H; subst end.
      match goal with H : ev GRun _ _ _ _ _ _ _ _ |- _ => apply HA in H; auto; apply act_fwd in H; auto; destruct H as (s1 & v1 & k1 & B1 & ->) end. cbn [q_s] in *.
      right. match goal with H : ev (GSeq 1) _ _ _ _ _ _ _ _ |- _ => inversion H; subst; clear H end; try discriminate.
      all: match goal with H : nth_error _ 1 = _ |- _ => injection H as <- end; match goal with H : seq_dst _ _ _ = _ |- _ => apply D1 in H; subst end.
      all: match goal with H : ev GRun _ seq_req _ _ _ _ _ _ |- _ => apply (default_run env) in H; destruct H as (s2 & A2 & H); inversion H; subst; clear H end.
      all: match goal with H : ev (GRep 0) ?c ?rq ?d ?pp ?x _ ?r ?w |- _ =>
             assert (ev (GRep 0) c rq d pp x (SW s1 [v1] (rev k1 ++ [])) r w) as H1 by (apply (rep_twice env); exists s2; split; [exact A2|exact H]) end.
      all: destruct (rep_fold_fwd b q _ _ _ _ _ _ _ _ _ Hb Hq Hmq Hs H1 0 v1 eq_refl eq_refl eq_refl eq_refl eq_refl eq_refl) as (R & s3 & v3 & k3 & F & E); try discriminate.
      cbn [q_s q_t] in *. injection E as -> -> E. split; auto. exists s1, v1, k1, k3. split; auto. split; auto.
      rewrite app_nil_r, <- rev_app_distr in E. apply (f_equal (@rev _)) in E. now rewrite !rev_involutive in E.
  - assert (forall T v r s1 l k, does env (under sk p) T v s (res r) s1 l k -> exists s0, ahead C s s0) as HX.
    { intros T u r0 s1 l k0 H. apply (under_top env Hmok) in H; auto. destruct H as (s0 & A & _). exists s0. exact A. }
    intros [(-> & -> & l & H)|(-> & s1 & v1 & k1 & k2 & (l & x & k0 & H & Hx & Hc & ->) & HF & ->)]; [destruct (HX _ _ false _ _ _ H) as (s0 & A)|destruct (HX _ _ true _ _ _ H) as (s0 & A)]; exists s0; (split; [exact A|]); apply ev_seq.
    + eapply ev_seq_ko; [reflexivity|exact D0'|]. apply HA; auto.
      apply (act_bwd default_req DNil a p s v [] false) in H; auto. destruct H as (s2 & H & B & _). rewrite (B eq_refl), app_nil_r in H. exact H.
    + eapply ev_seq_next; [reflexivity|reflexivity|exact D0'| |].
      * apply HA; auto. exact (act_bwd default_req DNil a p s v [] true s1 l k0 eq_refl eq_refl Ha Hp Hmp H x v1 Hx Hc).
      * cbn [q_s]. eapply ev_seq_end; [reflexivity|reflexivity|exact D1'|].
        pose proof (rep_fold_bwd b q v1 s1 s' v' k2 DNil Hb Hq Hmq Hs HF 0 (rev (k0 ++ [Event (ac_id a) x]) ++ [])) as H1.
        apply (rep_twice env) in H1. destruct H1 as (s2 & A2 & H1). apply (default_run env). exists s2. split; [exact A2|]. apply ev_rep; [reflexivity|].
        rewrite app_nil_r, <- rev_app_distr in H1. rewrite app_nil_r. exact H1.
Qed.
End Fold.
