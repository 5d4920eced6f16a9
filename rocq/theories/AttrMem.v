(** Objects and the references to them (for C58). *)
From Coq Require Import List ZArith Bool Arith Lia.
From Verif Require Import Base CharSet Source Dst Pattern Parser Session Rel Big SpecPeg SpecLeaf SpecValue SpecType SpecAttr.
From Verif Require Import Leaf Local LocalThms Unary LeafThms.
Import ListNotations.

(** ** Loading and storing *)
Lemma store_len c d x c' : store c d x = Done c' -> length c' = length c.
Proof.
  destruct d as [|l P t]; cbn; [congruence|]. destruct (nth_error c l); [|discriminate]. cbn.
  destruct (set_path _ _ _); [|discriminate]. cbn. intros [= <-]. apply upd_len.
Qed.

Lemma store_keep c d t v : place c d t v -> store c d v = Done c.
Proof.
  destruct d as [|l P t']; cbn; [reflexivity|]. intros (_ & _ & H). destruct (nth_error c l) as [r|] eqn:E; [|discriminate]. cbn in *.
  rewrite (get_set _ _ _ H). cbn. now rewrite upd_same.
Qed.

Lemma set_total P : forall r v x, get_path r P = Done v -> exists r', set_path r P x = Done r'.
Proof.
  induction P as [|i P IH]; intros r v x H; cbn in *; [eauto|]. destruct r; try discriminate. destruct (nth_error l i); [|discriminate].
  destruct (IH _ _ x H) as [r' ->]. cbn. eauto.
Qed.
Lemma store_total c d t v x : place c d t v -> exists c', store c d x = Done c'.
Proof.
  destruct d as [|l P t']; cbn; [eauto|]. intros (_ & _ & H). destruct (nth_error c l) as [r|] eqn:E; [|discriminate]. cbn in *.
  destruct (set_total _ _ _ x H) as [r' ->]. cbn. eauto.
Qed.

Lemma store_place c d t v x c' : place c d t v -> store c d x = Done c' -> place c' d t x.
Proof.
  destruct d as [|l P t']; cbn; [auto|]. intros (H1 & H2 & H). destruct (nth_error c l) as [r|] eqn:E; [|discriminate]. cbn in *.
  destruct (set_path r P x) as [r'|] eqn:Es; [|discriminate]. cbn. intros [= <-]. repeat split; auto. rewrite (nth_upd _ _ _ _ E). cbn.
  pose proof (set_get P r x r' [] Es) as G. now rewrite app_nil_r in G.
Qed.

Lemma set_again P : forall r x r' y, set_path r P x = Done r' -> set_path r' P y = set_path r P y.
Proof.
  induction P as [|i P IH]; intros r x r' y H; cbn in *; [reflexivity|]. destruct r; try discriminate. destruct (nth_error l i) as [z|] eqn:E; [|discriminate].
  destruct (set_path z P x) as [z'|] eqn:Ez; [|discriminate]. injection H as <-. rewrite (nth_upd _ _ _ _ E), (IH _ _ _ y Ez).
  destruct (set_path z P y); cbn; auto. now rewrite upd_upd.
Qed.
Lemma store_again c d x c' y : store c d x = Done c' -> store c' d y = store c d y.
Proof.
  destruct d as [|l P t]; cbn; [congruence|]. destruct (nth_error c l) as [r|] eqn:E; [|discriminate]. cbn.
  destruct (set_path r P x) as [r'|] eqn:Es; [|discriminate]. cbn. intros [= <-]. rewrite (nth_upd _ _ _ _ E). cbn.
  rewrite (set_again _ _ _ _ y Es). destruct (set_path r P y); cbn; auto. now rewrite upd_upd.
Qed.

Lemma place_load c d t v : place c d t v -> d <> DNil -> load c d = Done v.
Proof. destruct d; cbn; [congruence|]. intros (_ & _ & H) _. exact H. Qed.
Lemma place_ty c d t v : place c d t v -> dst_ty d = t.
Proof. destruct d; cbn; intuition. Qed.
Lemma place_value_ty c d t v : place c d t v -> dst_value_ty d = value_ty t.
Proof. destruct d as [|l P t']; cbn; [intros ->; reflexivity|]. intros (-> & _). destruct t; reflexivity. Qed.

(** ** Assigning *)
Lemma assign_stored c d t v x c' : place c d t v ->
  (assign c d x = Done c' <-> exists v', stored t v x v' /\ store c d v' = Done c').
Proof.
  intros HP. destruct d as [|l P t'].
  - cbn in HP. subst t. cbn. split; [intros [= <-]; exists v; split; [constructor|reflexivity]|]. intros (v' & _ & H). exact H.
  - destruct HP as (-> & Hn & HL). split.
    + intros H. destruct t; try congruence.
      * cbn [assign] in H. destruct (conv _ x) as [y|] eqn:E; [|discriminate]. exists y. split; [|exact H]. constructor; auto; discriminate.
      * cbn [assign] in H. destruct (conv _ x) as [y|] eqn:E; [|discriminate]. cbn [obind] in H. rewrite HL in H. cbn [obind] in H. destruct v; try discriminate.
        exists (VColl (l0 ++ [y])). split; [|exact H]. now constructor.
      * cbn [assign] in H. destruct (conv _ x) as [y|] eqn:E; [|discriminate]. exists y. split; [|exact H]. constructor; auto; discriminate.
      * cbn [assign] in H. destruct (conv _ x) as [y|] eqn:E; [|discriminate]. exists y. split; [|exact H]. constructor; auto; discriminate.
    + intros (v' & HS & H). inversion HS; subst; [congruence| |].
      * cbn [assign]. match goal with E : conv _ _ = _ |- _ => rewrite E end. cbn [obind]. rewrite HL. exact H.
      * destruct t; try congruence; cbn [assign]; try (match goal with E : conv _ _ = _ |- _ => rewrite E end; exact H).
Qed.

(** ** Calls *)
Lemma act_called a x d c s cs tr w' t v : ac_param a = false -> place cs d t v ->
  (act_run a x d c (SW s cs tr) = Done w' <->
   exists y v' cs', conv (ac_land a) x = Done y /\ called a t v y v' /\ store cs d v' = Done cs' /\ w' = SW s cs' (Event (ac_id a) y :: tr)).
Proof.
  intros Ha HP. unfold act_run, act_dispatch. split.
  - destruct (conv (ac_land a) x) as [y|] eqn:E; [|discriminate]. rewrite Ha. destruct (ac_fun a y VNil) as [r b] eqn:Ef.
    destruct (ac_void a) eqn:Ev.
    + intros [= <-]. cbn. exists y, v, cs. split; auto. split; [eapply cal_void; eauto|]. split; [eapply store_keep; eauto|reflexivity].
    + unfold m_assign, on_cells. cbn [w_cells w_src w_trace q_c]. destruct (assign cs d r) as [cs'|] eqn:Es; [|discriminate]. intros [= <-]. cbn.
      apply (assign_stored _ _ _ _ _ _ HP) in Es as (v' & HS & Hv). exists y, v', cs'. split; auto. split; [eapply cal_value; eauto|]. auto.
  - intros (y & v' & cs' & E & HC & Hs & ->). rewrite E, Ha. inversion HC as [r b H1 H2 H3|r b v0 H1 H2 H3 H4|r b H1|r b v0 H1]; subst; try congruence.
    + rewrite H3, H2. cbn. rewrite (store_keep _ _ _ _ HP) in Hs. now injection Hs as <-.
    + rewrite H3, H2. unfold m_assign, on_cells. cbn [w_cells w_src w_trace q_c].
      assert (assign cs d r = Done cs') as -> by (apply (assign_stored _ _ _ _ _ _ HP); eauto). reflexivity.
Qed.

(** ** A new object *)
Lemma upd_end {A} (C : list A) v y : upd (C ++ [v]) (length C) y = C ++ [y].
Proof. induction C; cbn; auto. now f_equal. Qed.
Lemma nth_end {A} (C : list A) v : nth_error (C ++ [v]) (length C) = Some v.
Proof. induction C; cbn; auto. Qed.
Lemma snoc_inj {A} (a b : list A) x y : a ++ [x] = b ++ [y] -> a = b /\ x = y.
Proof. intros H. apply app_inj_tail in H. exact H. Qed.

Lemma place_new c t v : place (c ++ [v]) (dst_cell (length c) t) t v.
Proof.
  assert (t = TNil \/ t <> TNil) as [->|N] by (destruct t; auto; right; discriminate); [reflexivity|].
  assert (dst_cell (length c) t = DRef (length c) [] t) as -> by (destruct t; [congruence|reflexivity..]). cbn. repeat split; auto. now rewrite nth_end.
Qed.
Lemma store_new c t v x : t <> TNil -> store (c ++ [v]) (dst_cell (length c) t) x = Done (c ++ [x]).
Proof.
  intros N. assert (dst_cell (length c) t = DRef (length c) [] t) as -> by (destruct t; [congruence|reflexivity..]). cbn. rewrite nth_end. cbn. now rewrite upd_end.
Qed.
(** What was stored in it. *)
Lemma store_new_inv c t v x cs y : store (c ++ [v]) (dst_cell (length c) t) x = Done (cs ++ [y]) ->
  cs = c /\ (t <> TNil -> y = x) /\ (t = TNil -> y = v).
Proof.
  assert (t = TNil \/ t <> TNil) as [->|N] by (destruct t; auto; right; discriminate).
  - cbn. intros [= H]. apply snoc_inj in H as [-> ->]. intuition congruence.
  - rewrite store_new by auto. intros [= H]. apply snoc_inj in H as [-> ->]. intuition congruence.
Qed.

(** The value of an object of no type does not matter. *)
Lemma stored_any t v x x' v' : value_ty t = TNil -> stored t v x v' -> stored t v x' v'.
Proof.
  intros E H. inversion H; subst.
  - constructor.
  - cbn in E. subst. constructor. match goal with H : conv _ _ = _ |- _ => exact H end.
  - destruct t; cbn in E; try congruence.
Qed.
Lemma conv_nil x : conv TNil x = Done VNil. Proof. reflexivity. Qed.

(** ** Parts of sequences *)
Definition shapes (ts : list ty) (vs : list val) : Prop := Forall2 (fun t v => shaped t v = true) ts vs.
Lemma shaped_tuple ts v : shaped (TTuple ts) v = true <-> exists vs, v = VTuple vs /\ shapes ts vs.
Proof.
  cbn. split.
  - destruct v; try discriminate. intros H. exists l. split; auto. revert l H. induction ts as [|t ts IH]; intros [|x l] H; try discriminate; [constructor|].
    apply andb_prop in H as [H1 H2]. constructor; auto. now apply IH.
  - intros (vs & -> & H). induction H as [|t x ts vs H1 _ IH]; auto. now rewrite H1.
Qed.
Lemma shapes_nth ts vs i t : shapes ts vs -> nth_error ts i = Some t -> exists v, nth_error vs i = Some v /\ shaped t v = true.
Proof. intros H. revert i. induction H as [|t0 v ts vs H1 _ IH]; intros [|i] E; try discriminate; cbn; [injection E as ->; eauto|eauto]. Qed.
Lemma shapes_upd ts vs i t x : shapes ts vs -> nth_error ts i = Some t -> shaped t x = true -> shapes ts (upd vs i x).
Proof.
  intros H. revert i. induction H as [|t0 v ts vs H1 H2 IH]; intros [|i] E Hx; try discriminate; cbn.
  - injection E as ->. now constructor.
  - constructor; auto. now apply IH.
Qed.

Lemma get_snoc P : forall r i v, get_path r P = Done v -> get_path r (P ++ [i]) = get_path v [i].
Proof.
  induction P as [|j P IH]; intros r i v H; cbn [app get_path] in *; [now injection H as ->|]. destruct r; try discriminate. destruct (nth_error l j); [|discriminate]. now apply IH.
Qed.
Lemma set_snoc P : forall r i v x, get_path r P = Done v -> set_path r (P ++ [i]) x = obind (set_path v [i] x) (set_path r P).
Proof.
  induction P as [|j P IH]; intros r i v x H.
  - cbn in H. injection H as ->. destruct v; try reflexivity. cbn. now destruct (nth_error l i).
  - cbn [get_path] in H. destruct r; try discriminate. destruct (nth_error l j) as [z|] eqn:E; [|discriminate].
    change ((j :: P) ++ [i]) with (j :: (P ++ [i])). specialize (IH _ i _ x H). destruct (set_path v [i] x) as [y|]; cbn [set_path obind] in *; rewrite E, IH; reflexivity.
Qed.

Fixpoint louds_in (l : list pat) : nat := match l with [] => 0 | q :: t => (if ignores q then 0 else 1) + louds_in t end.
Lemma index_at l : forall i q, nth_error l i = Some q -> tuple_index1 l i = louds_in (firstn i l) + (if ignores q then 0 else 1).
Proof. induction l as [|p l IH]; intros [|i] q H; cbn in *; try discriminate; [injection H as ->; lia|]. rewrite (IH _ _ H). lia. Qed.
Lemma louds_next l : forall i q, nth_error l i = Some q -> louds_in (firstn (S i) l) = after q (louds_in (firstn i l)).
Proof.
  unfold after. induction l as [|p l IH]; intros [|i] q H; try discriminate.
  - cbn in *. injection H as ->. destruct (ignores q); reflexivity.
  - cbn in H. specialize (IH _ _ H). cbn [firstn louds_in] in *. rewrite IH. destruct (ignores q); lia.
Qed.

Lemma part_place l i q d di c t v : nth_error l i = Some q -> seq_dst l i d = Done di -> place c d t v -> shaped t v = true ->
  exists tq vq, place c di tq vq /\ shaped tq vq = true /\
  forall x c', store c di x = Done c' -> exists v1, part_at q (louds_in (firstn i l)) x t v tq vq v1 /\ store c d v1 = Done c'.
Proof.
  intros Hn Hd HP HS. unfold seq_dst in Hd. destruct d as [|lv P t'].
  - injection Hd as <-. cbn in HP. subst t. destruct (ignores q) eqn:E.
    + exists TNil, VNil. repeat split. intros x c' H. exists v. split; [now constructor|exact H].
    + exists TNil, v. repeat split. intros x c' H. exists x. split; [|exact H]. constructor; auto. discriminate.
  - rewrite Hn in Hd. destruct HP as (-> & Nt & HL). destruct (ignores q) eqn:E.
    + injection Hd as <-. exists TNil, VNil. repeat split. intros x c' H. exists v. split; [now constructor|]. rewrite <- H.
      eapply store_keep. split; [reflexivity|]. eauto.
    + assert ((exists ts, t = TTuple ts) \/ (forall ts, t <> TTuple ts)) as [[ts ->]|Nts] by (destruct t; try (right; discriminate); left; eauto).
      * rewrite (index_at _ _ _ Hn), E in Hd. replace (louds_in (firstn i l) + 1 - 1) with (louds_in (firstn i l)) in Hd by lia.
        set (j := louds_in (firstn i l)) in *. destruct (nth_error ts j) as [tq|] eqn:Ej; [|discriminate].
        assert (tq = TNil \/ tq <> TNil) as [->|Nq] by (destruct tq; auto; right; discriminate).
        -- injection Hd as <-. exists TNil, VNil. repeat split. intros x c' H. exists v. split; [now constructor|]. rewrite <- H.
           eapply store_keep. split; [reflexivity|]. eauto.
        -- assert (di = DRef lv (P ++ [j]) tq) as -> by (destruct tq; congruence).
           apply shaped_tuple in HS as (vs & -> & HS). destruct (shapes_nth _ _ _ _ HS Ej) as (vq & Ev & HSq).
           exists tq, vq. cbn [load] in HL. destruct (nth_error c lv) as [r|] eqn:Er; [|discriminate]. cbn [of_option obind] in HL. split.
           { repeat split; auto. cbn [load]. rewrite Er. cbn [of_option obind]. rewrite (get_snoc _ _ _ _ HL). cbn. now rewrite Ev. }
           split; auto. intros x c' H. cbn [store] in H. rewrite Er in H. cbn [of_option obind] in H. rewrite (set_snoc _ _ _ _ _ HL) in H.
           cbn [set_path] in H. rewrite Ev in H. cbn [obind] in H. exists (VTuple (upd vs j x)). split; [now constructor|].
           cbn [store]. rewrite Er. cbn [of_option obind]. exact H.
      * assert (di = DRef lv P t) as -> by (destruct t; try congruence; now destruct (Nts l0)).
        exists t, v. split; [repeat split; auto|]. split; auto. intros x c' H. exists x. split; [now constructor|exact H].
Qed.

Lemma place_part l i q d c t v x tq vq v1 : nth_error l i = Some q -> place c d t v -> part_at q (louds_in (firstn i l)) x t v tq vq v1 ->
  exists di, seq_dst l i d = Done di /\ place c di tq vq /\ forall c', store c di x = Done c' -> store c d v1 = Done c'.
Proof.
  intros Hn HP HA. unfold seq_dst. destruct d as [|lv P t'].
  - cbn in HP. subst t. exists DNil. split; [reflexivity|]. inversion HA; subst; repeat split; auto.
  - rewrite Hn. assert (HK := store_keep _ _ _ _ HP). destruct HP as (-> & Nt & HL). inversion HA; subst;
      (match goal with H : ignores q = _ |- _ => rewrite H end).
    + exists DNil. repeat split. intros c9 H9. rewrite HK. exact H9.
    + exists (DRef lv P tq). split; [destruct tq; try reflexivity; match goal with H : forall ts, _ <> _ |- _ => now destruct (H l0) end|]. repeat split; auto.
    + rewrite (index_at _ _ _ Hn). match goal with H : ignores q = _ |- _ => rewrite H end.
      replace (louds_in (firstn i l) + 1 - 1) with (louds_in (firstn i l)) by lia. match goal with H : nth_error ts _ = _ |- _ => rewrite H end.
      exists DNil. repeat split. intros c' H9. rewrite HK. exact H9.
    + rewrite (index_at _ _ _ Hn). match goal with H : ignores q = _ |- _ => rewrite H end.
      replace (louds_in (firstn i l) + 1 - 1) with (louds_in (firstn i l)) by lia. set (j := louds_in (firstn i l)) in *.
      match goal with H : nth_error ts _ = _ |- _ => rewrite H end.
      exists (DRef lv (P ++ [j]) tq). split; [destruct tq; congruence|].
      cbn [load] in HL. destruct (nth_error c lv) as [r|] eqn:Er; [|discriminate]. cbn [of_option obind] in HL.
      match goal with H : nth_error vs _ = _ |- _ => rename H into Ev end. split.
      { repeat split; auto. cbn [load]. rewrite Er. cbn [of_option obind]. rewrite (get_snoc _ _ _ _ HL). cbn. now rewrite Ev. }
      intros c' H9. cbn [store] in H9. rewrite Er in H9. cbn [of_option obind] in H9. rewrite (set_snoc _ _ _ _ _ HL) in H9.
      cbn [set_path] in H9. rewrite Ev in H9. cbn [obind] in H9. cbn [store]. rewrite Er. cbn [of_option obind]. exact H9.
Qed.

(** ** Shapes are kept *)
Lemma shaped_has v : forall t, has_ty t v = true -> shaped t v = true.
Proof.
  assert (forall t v, has_ty t v = true -> shaped t v = true) as H; [|eauto].
  clear v. fix IH 1. intros [| | |ts|] v; cbn [has_ty shaped]; auto. destruct v; try discriminate.
  revert l. induction ts as [|t ts IHts]; intros [|x l]; try discriminate; auto.
  intros H. apply andb_prop in H as [H1 H2]. rewrite (IH _ _ H1). cbn. now apply IHts.
Qed.
Lemma shaped_init t : shaped t (value_init t) = true.
Proof. revert t. fix IH 1. intros [| | |ts|]; cbn; auto. induction ts as [|t ts IHts]; cbn; auto. now rewrite IH. Qed.
Lemma shaped_default t : shaped t (default_init t) = true.
Proof. destruct t; try reflexivity. apply shaped_init. Qed.
Lemma conv_shaped t x y : conv t x = Done y -> shaped t y = true.
Proof.
  destruct t; cbn [conv shaped]; auto. destruct x; try discriminate;
    try (match goal with |- context [if ?b then _ else _] => destruct b eqn:E end; [|discriminate]; intros [= <-]; exact (shaped_has _ (TTuple l) E)).
  intros [= <-]. exact (shaped_init (TTuple l)).
Qed.
Lemma stored_shaped t v x v' : shaped t v = true -> stored t v x v' -> shaped t v' = true.
Proof. intros HS H. inversion H; subst; auto. eapply conv_shaped; eauto. Qed.

Lemma part_shaped q i x t v tq vq v1 : part_at q i x t v tq vq v1 -> shaped t v = true -> shaped tq vq = true /\ (shaped tq x = true -> shaped t v1 = true).
Proof.
  intros H HS. inversion H; subst; auto. apply shaped_tuple in HS as (vs' & [= <-] & HS). match goal with H : nth_error ts _ = _ |- _ => destruct (shapes_nth _ _ _ _ HS H) as (w & E & Hw) end.
  split; [congruence|]. intros Hx. apply shaped_tuple. eexists. split; [reflexivity|]. eapply shapes_upd; eauto.
Qed.

Lemma called_shaped a t v x v' : ac_param a = false -> called a t v x v' -> shaped t v = true -> shaped t v' = true.
Proof. intros Ha H HS. inversion H; subst; auto; try congruence. eapply stored_shaped; eauto. Qed.

Lemma mv_shaped env ws g t v s r v' k : mv env ws g t v s r v' k -> shaped t v = true -> shaped t v' = true.
Proof.
  induction 1; intros HS; eauto using stored_shaped, called_shaped.
  - match goal with H : counted _ _ _ _ _ _ |- _ => inversion H; subst; auto end.
  - match goal with H : counted _ _ _ _ _ _ |- _ => inversion H; subst; auto end.
  - destruct (part_shaped _ _ _ _ _ _ _ _ H HS). auto.
  - destruct (part_shaped _ _ _ _ _ _ _ _ H HS). auto.
Qed.

(** ** Numbers *)
Section Num.
Context (lv : nat) (P : list nat) (sg : bool) (w : Z).
Notation t := (TNum sg w).
Notation d := (DRef lv P (TNum sg w)).
Notation cell := (DRef 0 [] (TNum sg w)).

(** The same arithmetic there and on an object of its own. *)
Definition lens (c : list val) (o1 : outcome (list val)) (o2 : outcome (list val)) : Prop :=
  match o1 with
  | Done cs => exists x c', cs = [x] /\ store c d x = Done c' /\ o2 = Done c'
  | Err e => o2 = Err e
  end.

Lemma op_lens f c x : place c d t x -> lens c (num_op f [x] cell) (num_op f c d).
Proof.
  intros HP. pose proof (place_load _ _ _ _ HP ltac:(discriminate)) as HL. unfold lens, num_op. rewrite HL. cbn [load nth_error of_option get_path obind].
  destruct x; cbn [obind]; try reflexivity. destruct (arith sg w (f z)) as [r|]; cbn [obind]; [|reflexivity].
  cbn [store nth_error of_option obind set_path upd]. destruct (store_total c d t _ (VNum r) HP) as [c' Hc]. exists (VNum r), c'. split; [reflexivity|]. split; exact Hc.
Qed.

Lemma uint_lens b lo hi : forall s cnt c x, place c d t x ->
  match uint_run b lo hi cell cnt [x] s with
  | Done (r, s', cs) => exists x' c', cs = [x'] /\ store c d x' = Done c' /\ uint_run b lo hi d cnt c s = Done (r, s', c')
  | Err e => uint_run b lo hi d cnt c s = Err e
  end.
Proof.
  induction s as [|y s IH]; intros cnt c x HP; cbn [uint_run].
  - exists x, c. split; [reflexivity|]. split; [eapply store_keep; eauto|reflexivity].
  - destruct (digit_valid b y).
    2:{ exists x, c. split; [reflexivity|]. split; [eapply store_keep; eauto|reflexivity]. }
    pose proof (op_lens (fun z => z * b)%Z c x HP) as H1. unfold lens in H1.
    destruct (num_op (fun z => z * b)%Z [x] cell) as [cs1|]; cbn [obind]; [|now rewrite H1].
    destruct H1 as (x1 & c1 & -> & Hs1 & ->). cbn [obind]. assert (HP1 := store_place _ _ _ _ _ _ HP Hs1).
    pose proof (op_lens (fun z => z + digit_value b y)%Z c1 x1 HP1) as H2. unfold lens in H2.
    destruct (num_op (fun z => z + digit_value b y)%Z [x1] cell) as [cs2|]; cbn [obind]; [|now rewrite H2].
    destruct H2 as (x2 & c2 & -> & Hs2 & ->). cbn [obind]. assert (HP2 := store_place _ _ _ _ _ _ HP1 Hs2).
    rewrite (store_again _ _ _ _ _ Hs1) in Hs2. destruct (cnt + 1 =? hi)%Z.
    + exists x2, c2. auto.
    + specialize (IH (cnt + 1)%Z c2 x2 HP2). destruct (uint_run b lo hi cell (cnt + 1) [x2] s) as [[[r s'] cs]|]; auto.
      destruct IH as (x' & c' & -> & Hs & ->). exists x', c'. rewrite (store_again _ _ _ _ _ Hs2) in Hs. auto.
Qed.

Context (b lo hi : Z) (Hb : (2 <= b <= 35)%Z) (Hlh : (hi <= 0 \/ lo <= hi)%Z).

Lemma uint_at c v s : Forall (tok ct_char) s -> place c d t v ->
  exists c0, num_zero c d = Done c0 /\
  let n := taken b hi s in let X := value b (firstn n s) in
  (~ safe sg w X /\ (exists e, uint_run b lo hi d 0 c0 s = Err e)) \/
  safe sg w X /\ exists c', store c d (VNum (wrap sg w X)) = Done c' /\ uint_run b lo hi d 0 c0 s = Done ((lo <=? Z.of_nat n)%Z, skipn n s, c').
Proof.
  intros Hs HP. destruct (store_total c d t v (VNum 0) HP) as [c0 H0]. exists c0. split; [exact H0|].
  assert (HP0 := store_place _ _ _ _ _ _ HP H0). pose proof (uint_lens b lo hi s 0%Z c0 (VNum 0) HP0) as HL.
  rewrite (uint_cells0 b lo hi sg w Hb Hlh s Hs) in HL. intros n X. fold n in HL. fold X in HL. unfold SpecLeaf.safe.
  destruct (wide sg w) eqn:Ew; cbn [andb] in HL.
  - destruct (Z.ltb_spec (ty_max sg w) X).
    + left. split; [|eauto]. intros N. specialize (N eq_refl). lia.
    + right. split; [auto|]. destruct HL as (x' & c' & [= <-] & Hs' & HR). exists c'. rewrite (store_again _ _ _ _ _ H0) in Hs'. auto.
  - right. split; [discriminate|]. destruct HL as (x' & c' & [= <-] & Hs' & HR). exists c'. rewrite (store_again _ _ _ _ _ H0) in Hs'. auto.
Qed.

Lemma int_at c v s : Forall (tok ct_char) s -> place c d t v ->
  exists c0, num_zero c d = Done c0 /\
  let n := taken b hi (unsigned s) in let X := value b (firstn n (unsigned s)) in
  (~ safe sg w X /\ (exists e, int_run b lo hi d c0 s = Err e)) \/
  safe sg w X /\ exists c', store c d (VNum (wrap sg w (if negative s then - X else X))) = Done c' /\
    int_run b lo hi d c0 s = Done ((lo <=? Z.of_nat n)%Z, skipn n (unsigned s), c').
Proof.
  intros Hs HP. destruct (uint_at c v (unsigned s) (unsigned_tok s Hs) HP) as (c0 & H0 & HU). exists c0. split; [exact H0|].
  intros n X. fold n in HU. fold X in HU. cbv zeta in HU. unfold int_run. rewrite sign_split. destruct HU as [(N & e & HU)|(HX & c1 & H1 & HU)]; rewrite HU; cbn [obind].
  - left. eauto.
  - right. split; auto. assert (HP1 := store_place _ _ _ _ _ _ HP H1).
    assert (0 <= X)%Z as HX0 by (apply value_nonneg; lia).
    pose proof (neg_cells_ok sg w (negative s) X HX0 HX) as HN. unfold neg_cells in *. destruct (negative s).
    + pose proof (op_lens (fun z => z * -1)%Z c1 (VNum (wrap sg w X)) HP1) as HO. unfold lens in HO. rewrite HN in HO.
      destruct HO as (x' & c' & [= <-] & Hs' & HR). rewrite (store_again _ _ _ _ _ H1) in Hs'. exists c'. split; [exact Hs'|]. rewrite HR. reflexivity.
    + exists c1. split; [exact H1|]. reflexivity.
Qed.
End Num.

(** Without destination. *)
Section NumNil.
Context (b lo hi : Z) (Hb : (2 <= b <= 35)%Z) (Hlh : (hi <= 0 \/ lo <= hi)%Z).
Lemma uint_nil : forall s cnt c, exists r s', uint_run b lo hi DNil cnt c s = Done (r, s', c).
Proof. induction s as [|y s IH]; intros cnt c; cbn; [eauto|]. destruct (digit_valid b y); [|eauto]. destruct (_ =? hi)%Z; eauto. Qed.
Lemma int_nil s c : exists r s', int_run b lo hi DNil c s = Done (r, s', c).
Proof.
  unfold int_run. rewrite sign_split. destruct (uint_nil (unsigned s) 0%Z c) as (r & s' & ->). cbn [obind]. destruct (negative s); cbn; eauto.
Qed.
End NumNil.

Section Counted.
Context (b lo hi : Z) (Hb : (2 <= b <= 35)%Z) (Hlh : (hi <= 0 \/ lo <= hi)%Z).

Lemma uint_counted c d t v c0 s r s' c' : Forall (tok ct_char) s -> place c d t v ->
  num_zero c d = Done c0 -> uint_run b lo hi d 0 c0 s = Done (r, s', c') ->
  exists v', counted b false (firstn (taken b hi s) s) t v v' /\ store c d v' = Done c'.
Proof.
  intros Hs HP H0 HU. destruct d as [|lv P t'].
  - injection H0 as <-. destruct (uint_nil b lo hi s 0%Z c) as (r1 & s1 & E). rewrite E in HU. injection HU as <- <- <-. cbn in HP. subst t.
    exists v. split; [constructor|reflexivity].
  - assert (exists sg w, t' = TNum sg w) as (sg & w & ->) by (destruct t'; try discriminate; eauto). assert (HP' := HP). destruct HP' as (<- & _).
    destruct (uint_at lv P sg w b lo hi Hb Hlh c v s Hs HP) as (c1 & H1 & [(_ & e & N)|(HX & c2 & H2 & H3)]); rewrite H1 in H0; injection H0 as <-; [congruence|].
    rewrite H3 in HU. injection HU as <- <- <-. eexists. split; [constructor; exact HX|exact H2].
Qed.
Lemma int_counted c d t v c0 s r s' c' : Forall (tok ct_char) s -> place c d t v ->
  num_zero c d = Done c0 -> int_run b lo hi d c0 s = Done (r, s', c') ->
  exists v', counted b (negative s) (firstn (taken b hi (unsigned s)) (unsigned s)) t v v' /\ store c d v' = Done c'.
Proof.
  intros Hs HP H0 HU. destruct d as [|lv P t'].
  - injection H0 as <-. destruct (int_nil b lo hi s c) as (r1 & s1 & E). rewrite E in HU. injection HU as <- <- <-. cbn in HP. subst t.
    exists v. split; [constructor|reflexivity].
  - assert (exists sg w, t' = TNum sg w) as (sg & w & ->) by (destruct t'; try discriminate; eauto). assert (HP' := HP). destruct HP' as (<- & _).
    destruct (int_at lv P sg w b lo hi Hb Hlh c v s Hs HP) as (c1 & H1 & [(_ & e & N)|(HX & c2 & H2 & H3)]); rewrite H1 in H0; injection H0 as <-; [congruence|].
    rewrite H3 in HU. injection HU as <- <- <-. eexists. split; [constructor; exact HX|exact H2].
Qed.

Lemma counted_uint c d t v v' s : Forall (tok ct_char) s -> place c d t v -> counted b false (firstn (taken b hi s) s) t v v' ->
  exists c0 r s' c', num_zero c d = Done c0 /\ uint_run b lo hi d 0 c0 s = Done (r, s', c') /\ store c d v' = Done c'.
Proof.
  intros Hs HP HC. inversion HC; subst.
  - destruct d as [|lv P t']; [|destruct HP as (-> & N & _); congruence]. destruct (uint_nil b lo hi s 0%Z c) as (r1 & s1 & E).
    exists c, r1, s1, c. auto.
  - destruct d as [|lv P t']; [discriminate|]. assert (HP' := HP). destruct HP' as (-> & _).
    match goal with H : safe _ _ _ |- _ => rename H into HX end.
    destruct (uint_at lv P s0 w b lo hi Hb Hlh c v s Hs HP) as (c1 & H1 & [(N & _)|(_ & c2 & H2 & H3)]); [contradiction|].
    exists c1. do 2 eexists. exists c2. eauto.
Qed.
Lemma counted_int c d t v v' s : Forall (tok ct_char) s -> place c d t v -> counted b (negative s) (firstn (taken b hi (unsigned s)) (unsigned s)) t v v' ->
  exists c0 r s' c', num_zero c d = Done c0 /\ int_run b lo hi d c0 s = Done (r, s', c') /\ store c d v' = Done c'.
Proof.
  intros Hs HP HC. inversion HC; subst.
  - destruct d as [|lv P t']; [|destruct HP as (-> & N & _); congruence]. destruct (int_nil b lo hi s c) as (r1 & s1 & E).
    exists c, r1, s1, c. auto.
  - destruct d as [|lv P t']; [discriminate|]. assert (HP' := HP). destruct HP' as (-> & _).
    match goal with H : safe _ _ _ |- _ => rename H into HX end.
    destruct (int_at lv P s0 w b lo hi Hb Hlh c v s Hs HP) as (c1 & H1 & [(N & _)|(_ & c2 & H2 & H3)]); [contradiction|].
    exists c1. do 2 eexists. exists c2. eauto.
Qed.
End Counted.

Lemma atom_eq p : atom p = f_atomic p.
Proof. induction p; auto. Qed.

Lemma made_from t xs y : make_from t (VTuple xs) = Done y <-> made t xs y.
Proof.
  split.
  - destruct t; cbn; intros H; try discriminate.
    + destruct xs as [|x [|? ?]]; try discriminate; injection H as <-; constructor.
    + destruct xs as [|x [|? ?]]; try discriminate. now constructor.
    + constructor. exact H.
    + injection H as <-. constructor.
  - intros H. inversion H; subst; cbn; auto.
Qed.
