(** What one element stores: it is parsed into an object of its own, which is stored when
    the element matches; nothing is when it does not. *)
From Coq Require Import List ZArith Bool Arith Lia.
From Verif Require Import Base CharSet Source Dst Pattern Parser Session Rel Safety Limit SpecSession SessionThms.
From Verif Require Import Big BigMk BigLeaf BigSound BigComplete SpecRun Run Blind BlindThms Local SpecValue LocalThms Unary.
From Verif Require Import EvDoes EvReq Frame Fill Shape Atomic SpecCollect Collect.
Import ListNotations.

Section Element.
Context (env : nat -> option pat).
Hypothesis Hmok : forall id q, env id = Some q -> mok true recur_req q = true.
Hypothesis Hub : all_unbound env.
Hypothesis Hplain : forall id q, env id = Some q -> plain q = true.
Context (R : nat -> bool).
Hypothesis Hfills : forall id q, env id = Some q -> R id = true -> fills R q = true.
Notation ev := (ev env).

(** ** No destination: nothing to be atomic about *)
Definition sameq (rq rq2 : req) : Prop :=
  r_clean rq = r_clean rq2 /\ r_consumes rq = r_consumes rq2 /\ r_recur rq = r_recur rq2.


Lemma sameq_un rq rq2 : sameq rq rq2 -> unatomic_req rq = unatomic_req rq2.
Proof. intros (A & B & C). unfold unatomic_req. congruence. Qed.

Lemma nil_buffer c rq p x w r s v cs tr : unbound p = true -> length cs = length (q_c w) ->
  ev GRaw c rq DNil p x (with_c (q_c w ++ [VNil]) w) r (SW s (cs ++ [v]) tr) ->
  cs = q_c w /\ v = VNil /\ ev GRaw c rq DNil p x w r (SW s (q_c w) tr).
Proof.
  intros Hu HL H. destruct (nil_cell env Hub _ _ _ _ _ _ _ _ Hu H) as (E & F). cbn in E.
  apply app_inj_tail in E. destruct E as [-> ->]. split; auto. split; auto.
  specialize (F (q_c w)). destruct w. exact F.
Qed.

Lemma nil_atm c rq p x w r w' : unbound p = true -> r_recur rq = false ->
  (forall rq2, sameq rq rq2 -> ev GRaw c rq2 DNil p x w r w') -> ev GAtm c rq DNil p x w r w'.
Proof.
  intros Hu Hr H. destruct (wants_atomic rq p) eqn:E.
  - assert (ev GRaw c (unatomic_req rq) DNil p x w r w') as H1 by (apply H; unfold sameq; cbn; auto).
    destruct (nil_cell env Hub _ _ _ _ _ _ _ _ Hu H1) as (E1 & E2). specialize (E2 (q_c w ++ [VNil])).
    destruct w' as [s' c' t']. cbn in E1, E2. subst c'.
    destruct r; [eapply ev_atm_ok|eapply ev_atm_ko]; eauto.
  - apply ev_atm_no; auto. apply H. unfold sameq. auto.
Qed.

Lemma sameq_trans a b c : sameq a b -> sameq b c -> sameq a c.
Proof. unfold sameq. intuition congruence. Qed.
Lemma sameq_unatomic a : r_recur a = false -> sameq (unatomic_req a) a.
Proof. unfold sameq. cbn. auto. Qed.

Theorem nil_sameq g c rq d p x w r w' : ev g c rq d p x w r w' ->
  match g with GSkip | GCln | GAtm => r_recur rq = false | _ => True end -> d = DNil -> unbound p = true ->
  forall rq2, sameq rq rq2 -> ev g c rq2 d p x w r w'.
Proof.
  induction 1; intros Hg Ed Hu rq2 Hs; try subst d; pose proof Hs as (S1 & S2 & S3); pose proof (sameq_un _ _ Hs) as HU; cbn in Hu.
  all: try assert (not_req rq2 = not_req rq) as EN by (unfold not_req; congruence).
  all: try assert (opt_req rq2 = opt_req rq) as EO by (unfold opt_req; congruence).
  all: try assert (action_req rq2 = action_req rq) as EA by (unfold action_req; congruence).
  all: try assert (forall lo hi, repeat_req lo hi rq2 = repeat_req lo hi rq) as ER by (intros; unfold repeat_req; congruence).
  all: try assert (sameq (alt_req rq) (alt_req rq2)) as SA by (unfold sameq; cbn; auto).
  all: try assert (sameq (except_req rq) (except_req rq2)) as SE by (unfold sameq; cbn; auto).
  all: try assert (sameq (unclean_req rq) (unclean_req rq2)) as SU by (unfold sameq; cbn; auto).
  all: try assert (forall p, wants_clean rq2 p = wants_clean rq p) as EW by (intros; unfold wants_clean; congruence).
  all: try (econstructor; rewrite ?EN, ?EO, ?EA, ?ER, <- ?HU, ?EW; eauto; congruence).
  (* adapters/atomic.h *)
  1-3: apply nil_atm; auto; [congruence|]; intros rq3 Hs3.
  - eapply IHev; eauto. eapply sameq_trans; eauto.
  - cbn [dst_value_ty default_init value_init] in *.
    assert (sameq (unatomic_req rq) rq3) as S4 by (eapply sameq_trans; [apply sameq_unatomic; auto|eapply sameq_trans; eauto]).
    pose proof (IHev I eq_refl Hu rq3 S4) as H3. apply nil_buffer in H3; auto. destruct H3 as (-> & -> & H3).
    cbn in H2. injection H2 as <-. exact H3.
  - cbn [dst_value_ty default_init value_init] in *.
    assert (sameq (unatomic_req rq) rq3) as S4 by (eapply sameq_trans; [apply sameq_unatomic; auto|eapply sameq_trans; eauto]).
    pose proof (IHev I eq_refl Hu rq3 S4) as H3. apply nil_buffer in H3; auto. destruct H3 as (-> & -> & H3). exact H3.
  (* the parts of an alternative *)
  - rewrite forallb_forall in Hu. eapply ev_alt_ok; eauto. apply IHev; auto. eapply Hu, nth_error_In; eauto.
  - rewrite forallb_forall in Hu. eapply ev_alt_ko; eauto. apply IHev; auto. eapply Hu, nth_error_In; eauto.
  - pose proof Hu as Hu'. rewrite forallb_forall in Hu. eapply ev_alt_next; eauto. apply IHev1; auto. eapply Hu, nth_error_In; eauto.
  - apply andb_prop in Hu. destruct Hu. eapply ev_exc_go; eauto.
Qed.

(** ** One element *)
Definition fits (d : dst) (p : pat) : Prop :=
  unbound p = true /\
  match d with
  | DNil => True
  | _ => dst_value_ty d <> TNil /\ sized (dst_value_ty d) = true /\ single R (dst_value_ty d) p = true
  end.

Lemma elem_buffered c rq d p x w r w' : r_atomic rq = true -> r_recur rq = false -> fits d p ->
  (ev GRun c rq d p x w r w' <-> buffered env GRun c rq d p x w r w').
Proof.
  intros Ha Hr [Hu Hf]. destruct d as [|lv pa t].
  - unfold buffered. cbn [dst_value_ty dst_cell default_init value_init assign]. split.
    + intros H. assert (ev GRun c (unatomic_req rq) DNil p x w r w') as H1.
      { apply (nil_sameq _ _ rq _ _ _ _ _ _ H I eq_refl Hu). unfold sameq. cbn. auto. }
      destruct (nil_cell env Hub _ _ _ _ _ _ _ _ Hu H1) as (E1 & E2). exists VNil.
      specialize (E2 (q_c w ++ [VNil])). destruct w'. cbn in *. split; auto. destruct r; congruence.
    + intros (v & H & E). destruct (nil_cell env Hub _ _ _ _ _ _ _ _ Hu H) as (E1 & E2). cbn in E1.
      specialize (E2 (q_c w)). cbn in E2.
      assert (w' = SW (q_s w') (q_c w) (q_t w')) as -> by (destruct w', r; cbn in *; congruence).
      eapply nil_sameq; [destruct w; exact E2|exact I|auto|auto|]. unfold sameq. cbn. auto.
  - destruct Hf as (F1 & F2 & F3). apply (atomically env Hub Hplain R Hfills _ F1 F2 p Hu F3); auto. split; auto. discriminate.
Qed.

(** [w'] is what the part comes to: its answer [r], what it read, stored and called. *)
Definition elem_at (q : pat) (d : dst) (w : sw) (r : bool) (s : list Z) (w' : sw) : Prop :=
  exists v k, does env q (dst_value_ty d) (default_init (dst_value_ty d)) (q_s w) (res r) s v k /\
    q_t w' = rev k ++ q_t w /\
    if r then q_s w' = s /\ assign (q_c w) d v = Done (q_c w') else q_c w' = q_c w.

Lemma place_new C t v : (t = TNil -> v = VNil) -> place (C ++ [v]) (dst_cell (length C) t) t v.
Proof.
  intros Hv. assert (load (C ++ [v]) (DRef (length C) [] t) = Done v) as HL.
  { cbn. rewrite nth_error_app2, Nat.sub_diag by auto. reflexivity. }
  destruct t; cbn [dst_cell place]; auto; split; auto; split; auto; discriminate.
Qed.
Lemma store_new C t v v' : store (C ++ [v]) (dst_cell (length C) t) v' = Done (C ++ [match t with TNil => v | _ => v' end]).
Proof.
  assert (store (C ++ [v]) (DRef (length C) [] t) v' = Done (C ++ [v'])) as HL.
  { cbn. rewrite nth_error_app2, Nat.sub_diag by auto. cbn. now rewrite upd_last. }
  destruct t; auto.
Qed.

Lemma own_fwd sk b rq d q w r w' : r_atomic rq = true -> r_consumes rq = false -> r_recur rq = false -> fits d q ->
  mok false default_req (under sk q) = true ->
  ev GRun (Ctx sk b) rq d q (q_s w) w r w' -> exists s, elem_at (under sk q) d w r s w' /\ (r_clean rq = false -> s = q_s w').
Proof.
  intros Ha Hc Hr Hf Hm H. apply elem_buffered in H; auto. destruct H as (v & H & Hv).
  destruct (ev_cleanly env _ _ _ _ _ _ _ _ _ H I default_req) as (w2 & H2 & A & B & D); [unfold cleanly; cbn; auto|].
  cbn in A, B, D.
  assert (exists s2, ev GRun (Ctx sk b) default_req (dst_cell (length (q_c w)) (dst_value_ty d)) q (q_s w)
     (with_c (q_c w ++ [default_init (dst_value_ty d)]) w) r (SW s2 (q_c w ++ [v]) (q_t w')) /\
     (r = true -> s2 = q_s w') /\ (r_clean rq = false -> s2 = q_s w')) as (s2 & H3 & H4 & H5).
  { destruct (r_clean rq) eqn:Ec.
    - exists (q_s w2). destruct w2. cbn in *. subst. repeat split; auto; [|discriminate]. intros. symmetry; auto.
    - exists (q_s w'). repeat split; auto. assert (unatomic_req rq = default_req) as <- by (destruct rq; cbn in *; subst; reflexivity). exact H. }
  clear H2 A B D w2.
  apply (ev_under env (Ctx Fail b)) in H3; auto.
  apply (ev_does env Hmok _ b _ (dst_value_ty d) (default_init (dst_value_ty d)) (with_c (q_c w ++ [default_init (dst_value_ty d)]) w)) in H3; auto.
  - destruct H3 as (v' & k & K1 & K2 & K3). cbn in K1, K2, K3. exists s2. split; auto. exists v', k.
    rewrite store_new in K2. injection K2 as K2. apply app_inj_tail in K2. destruct K2 as [_ K2].
    split; [exact K1|]. split; auto. destruct r; auto. split; [symmetry; auto|].
    rewrite <- K2 in Hv. destruct d as [|lv pa t]; [exact Hv|]. destruct Hf as (_ & F & _).
    destruct (dst_value_ty _); auto. congruence.
  - cbn. apply place_new. intros ->. reflexivity.
  - right. split; auto. apply Hf.
Qed.

Lemma own_bwd sk b rq d q w r s w' : r_atomic rq = true -> r_consumes rq = false -> r_recur rq = false -> fits d q ->
  mok false default_req (under sk q) = true ->
  elem_at (under sk q) d w r s w' ->
  exists s', ev GRun (Ctx sk b) rq d q (q_s w) w r (at_ s' w') /\ (r = true -> s' = s) /\ (r_clean rq = false -> s' = s).
Proof.
  intros Ha Hc Hr Hf Hm (v & k & K1 & K2 & K3).
  set (i := default_init (dst_value_ty d)) in *. set (C := q_c w) in *.
  pose (vv := match dst_value_ty d with TNil => i | _ => v end).
  assert (ev GRun (Ctx Fail b) default_req (dst_cell (length C) (dst_value_ty d)) (under sk q) (q_s w) (with_c (C ++ [i]) w) r (SW s (C ++ [vv]) (q_t w'))) as H.
  { apply (ev_does env Hmok _ b _ (dst_value_ty d) i (with_c (C ++ [i]) w)); auto.
    - cbn. apply place_new. unfold i. intros ->. reflexivity.
    - right. split; auto. apply Hf.
    - cbn. exists v, k. split; auto. rewrite store_new. auto. }
  apply ev_under in H; auto. cbn [c_bound] in H.
  destruct (ev_cleanly env _ _ _ _ _ _ _ _ _ H I (unatomic_req rq)) as (w2 & H2 & A & B & D); [unfold cleanly; cbn; auto|].
  cbn in A, B, D.
  assert (exists s2, ev GRun (Ctx sk b) (unatomic_req rq) (dst_cell (length C) (dst_value_ty d)) q (q_s w)
     (with_c (C ++ [i]) w) r (SW s2 (C ++ [vv]) (q_t w')) /\ (r = true -> s2 = s) /\ (r_clean rq = false -> s2 = s)) as (s2 & H3 & H4 & H5).
  { destruct (r_clean rq) eqn:Ec.
    - exists (q_s w2). destruct w2. cbn in *. subst. repeat split; auto; [|discriminate]. intros. symmetry; auto.
    - exists s. repeat split; auto. assert (unatomic_req rq = default_req) as -> by (destruct rq; cbn in *; subst; reflexivity). exact H. }
  exists s2. repeat split; auto. apply elem_buffered; auto. unfold buffered. exists vv. cbn. split; [exact H3|].
  destruct r; auto. destruct K3 as [_ K3]. destruct d as [|lv pa t]; [exact K3|]. destruct Hf as (_ & F & _).
  unfold vv. destruct (dst_value_ty _); auto. congruence.
Qed.


(** ** The element of a repetition, a list or an optional *)
Context (sk : pat) (t : ty).

Lemma value_ty_top : dst_value_ty (top_dst t) = elem_ty t. Proof. destruct t; reflexivity. Qed.

Lemma assign_one v x cs : assign [v] (top_dst t) x = Done cs -> exists v', cs = [v'].
Proof.
  assert (forall t y c, store [v] (DRef 0 [] t) y = Done c -> exists v', c = [v']) as HS.
  { intros t0 y c H. cbn in H. injection H as <-. eauto. }
  destruct t; cbn -[store]; intros H.
  - injection H as <-. eauto.
  - match type of H with obind ?o _ = _ => destruct o; [|discriminate] end. exact (HS TNil _ _ H).
  - match type of H with obind ?o _ = _ => destruct o; [|discriminate] end. cbn -[store] in H. destruct v; try discriminate. exact (HS TNil _ _ H).
  - match type of H with obind ?o _ = _ => destruct o; [|discriminate] end. exact (HS TNil _ _ H).
  - match type of H with obind ?o _ = _ => destruct o; [|discriminate] end. exact (HS TNil _ _ H).
Qed.

Lemma one_mok q : one sk q -> mok false default_req (under sk q) = true.
Proof.
  unfold one. cbn [under mok once]. intros H. apply andb_prop in H. destruct H as [H1 H]. rewrite H1. cbn [andb].
  eapply mok_less; [| | | |exact H]; auto; try discriminate.
Qed.

Theorem once_yes q s v s' v' k : one sk q -> fits (top_dst t) q ->
  (parses env (under sk (once q)) t SUCCESS s v s' v' k <-> appends env (under sk q) t s v s' v' k).
Proof.
  intros Ho Hf. pose proof (one_mok _ Ho) as Hm. split.
  - intros H. assert (ev GRun (Ctx sk (top_dst t)) list_req (top_dst t) q s (SW s [v] []) true (SW s' [v'] (rev k ++ []))) as HE.
    { apply (once_ev env Hmok); auto. exists v', k. auto. }
    apply (own_fwd sk (top_dst t) list_req (top_dst t) q (SW s [v] [])) in HE; auto.
    destruct HE as (s2 & (x & k1 & K1 & K2 & K3 & K4) & _). cbn in K2, K3, K4. subst s2. apply rev_eq in K2 || (rewrite !app_nil_r in K2; apply (f_equal (@rev _)) in K2; rewrite !rev_involutive in K2). subst k1.
    rewrite value_ty_top in K1. exists x. split; [exact K1|]. now apply stored_assign.
  - intros (x & K1 & K2). apply stored_assign in K2.
    assert (elem_at (under sk q) (top_dst t) (SW s [v] []) true s' (SW s' [v'] (rev k ++ []))) as HE.
    { exists x, k. rewrite value_ty_top. split; [exact K1|]. cbn. auto. }
    apply (own_bwd sk (top_dst t) list_req) in HE; auto. destruct HE as (s2 & HE & E & _). rewrite (E eq_refl) in HE.
    apply (once_ev env Hmok) in HE; auto. destruct HE as (v2 & k2 & A & B & F). cbn in B, F. injection B as <-.
    apply app_inv_tail in F. apply (f_equal (@rev _)) in F. rewrite !rev_involutive in F. subst. exact A.
Qed.

Theorem once_no q s v s' v' k : one sk q -> fits (top_dst t) q ->
  (parses env (under sk (once q)) t FAILURE s v s' v' k <-> refuses env (under sk q) t s v s' v' k).
Proof.
  intros Ho Hf. pose proof (one_mok _ Ho) as Hm. split.
  - intros H. assert (ev GRun (Ctx sk (top_dst t)) list_req (top_dst t) q s (SW s [v] []) false (SW s' [v'] (rev k ++ []))) as HE.
    { apply (once_ev env Hmok); auto. exists v', k. auto. }
    apply (own_fwd sk (top_dst t) list_req (top_dst t) q (SW s [v] [])) in HE; auto.
    destruct HE as (s2 & (x & k1 & K1 & K2 & K3) & E). cbn in K2, K3, E. rewrite (E eq_refl) in K1. injection K3 as ->.
    rewrite !app_nil_r in K2; apply (f_equal (@rev _)) in K2; rewrite !rev_involutive in K2. subst k1.
    rewrite value_ty_top in K1. exists x. split; [exact K1|reflexivity].
  - intros (x & K1 & ->).
    assert (elem_at (under sk q) (top_dst t) (SW s [v] []) false s' (SW s' [v] (rev k ++ []))) as HE.
    { exists x, k. rewrite value_ty_top. split; [exact K1|]. cbn. auto. }
    apply (own_bwd sk (top_dst t) list_req) in HE; auto. destruct HE as (s2 & HE & _ & E). rewrite (E eq_refl) in HE.
    apply (once_ev env Hmok) in HE; auto. destruct HE as (v2 & k2 & A & B & F). cbn in B, F. injection B as <-.
    apply app_inv_tail in F. apply (f_equal (@rev _)) in F. rewrite !rev_involutive in F. subst. exact A.
Qed.

(** ** The laws for repetitions and lists, said with elements *)
Lemma matches_iff (y1 y2 : step) : (forall s v s' v' k, y1 s v s' v' k <-> y2 s v s' v' k) ->
  forall v s n s' v' k, matches y1 v s n s' v' k -> matches y2 v s n s' v' k.
Proof. intros H. induction 1; econstructor; eauto. now apply H. Qed.
Lemma repeated_iff (y1 y2 n1 n2 : step) lo hi st : (forall s v s' v' k, y1 s v s' v' k <-> y2 s v s' v' k) ->
  (forall s v s' v' k, n1 s v s' v' k <-> n2 s v s' v' k) ->
  forall v s r s' v' k, repeated y1 n1 lo hi st v s r s' v' k -> repeated y2 n2 lo hi st v s r s' v' k.
Proof.
  intros H1 H2 v s r s' v' k H. inversion H; subst.
  - apply rpt_full; auto. eapply matches_iff; eauto.
  - eapply rpt_stop; eauto; [eapply matches_iff; eauto|]. now apply H2.
Qed.
Lemma items_iff (y1 y2 n1 n2 : step) sp : (forall s v s' v' k, y1 s v s' v' k <-> y2 s v s' v' k) ->
  (forall s v s' v' k, n1 s v s' v' k <-> n2 s v s' v' k) ->
  forall m v s s' v' k, items y1 n1 sp m v s s' v' k -> items y2 n2 sp m v s s' v' k.
Proof.
  intros H1 H2. induction 1.
  - eapply itm_stop. apply H2; eauto.
  - eapply itm_last; eauto. now apply H1.
  - eapply itm_next; eauto. now apply H1.
Qed.

Notation yes q := (appends env (under sk q) t).
Notation no q := (refuses env (under sk q) t).

Theorem repeat_elems_place lo hi q v s r s' v' k : steady (under sk q) = true -> fits (top_dst t) q ->
  mok false default_req (under sk (Repeat lo hi q)) = true ->
  (does env (under sk (Repeat lo hi q)) t v s (res r) s' v' k <->
   repeated (yes q) (no q) lo hi (back_unless_fixed lo hi) v s (res r) s' v' k).
Proof.
  intros Hs Hf Hm. rewrite (repeat_place env Hmok) by auto. pose proof (one_rep _ _ _ _ Hm) as Ho.
  split; apply repeated_iff; intros; first [now apply once_yes|now apply once_no|symmetry; now apply once_yes|symmetry; now apply once_no].
Qed.
Theorem repeat_elems lo hi q v s r v' k : fits (top_dst t) q ->
  mok false default_req (under sk (Repeat lo hi q)) = true ->
  ((exists s', does env (under sk (Repeat lo hi q)) t v s (res r) s' v' k) <->
   (exists s', repeated (yes q) (no q) lo hi anywhere v s (res r) s' v' k)).
Proof.
  intros Hf Hm. rewrite (repeat_outcome env Hmok) by auto. pose proof (one_rep _ _ _ _ Hm) as Ho.
  split; intros (s' & H); exists s'; revert H; apply repeated_iff; intros; first [now apply once_yes|now apply once_no|symmetry; now apply once_yes|symmetry; now apply once_no].
Qed.
Theorem list_elems q sep v s r s' v' k : fits (top_dst t) q -> unbound sep = true ->
  mok false default_req (under sk (PList q sep)) = true ->
  (does env (under sk (PList q sep)) t v s (res r) s' v' k <->
   r = true /\ items (yes q) (no q) (checks env (under sk sep)) s v s s' v' k).
Proof.
  intros Hf Hu Hm. rewrite (list_law env Hmok) by auto.
  assert (one sk q) as Ho.
  { unfold one. revert Hm. cbn [under mok once]. intros H. apply andb_prop in H. destruct H as [H1 H]. apply andb_prop in H. destruct H as [H2 H3].
    rewrite H1. cbn [andb]. eapply mok_less; [| | | |exact H2]; auto; try discriminate. }
  split; (intros (E & H); split; [exact E|]); revert H; apply items_iff; intros; first [now apply once_yes|now apply once_no|symmetry; now apply once_yes|symmetry; now apply once_no].
Qed.
Theorem opt_elems q v s r s' v' k : fits (top_dst t) q -> mok false default_req (under sk (Opt q)) = true ->
  (does env (under sk (Opt q)) t v s (res r) s' v' k <->
   r = true /\ (yes q s v s' v' k \/ (s' = s /\ exists s2, no q s v s2 v' k))).
Proof.
  intros Hf Hm. rewrite (opt_law env Hmok) by auto.
  assert (one sk q) as Ho.
  { unfold one. revert Hm. cbn [under mok once]. intros H. apply andb_prop in H. destruct H as [H1 H]. apply andb_prop in H. destruct H as [H2 H3].
    rewrite H1. cbn [andb]. eapply mok_less; [| | | |exact H3]; auto; try discriminate. }
  split; intros (E & [H|(E1 & s2 & H)]); (split; [exact E|]).
  - left. now apply once_yes.
  - right. split; auto. exists s2. now apply once_no.
  - left. now apply once_yes.
  - right. split; auto. exists s2. now apply once_no.
Qed.

End Element.
