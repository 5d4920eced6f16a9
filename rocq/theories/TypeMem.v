(** Memory cells and their types. *)
From Coq Require Import List ZArith Bool Arith Lia.
From Verif Require Import Base CharSet Dst Pattern Safety Leaf SpecType.
Import ListNotations.

(** ** Values *)

Lemma has_tuple ts : forall vs, has_ty (TTuple ts) (VTuple vs) = true <-> Forall2 (fun t v => has_ty t v = true) ts vs.
Proof.
  induction ts as [|t ts IH]; intros [|v vs]; cbn; split; intros H; auto; try discriminate; try now inversion H.
  - apply andb_prop in H. destruct H as [H1 H2]. constructor; auto. apply (proj1 (IH vs)), H2.
  - inversion H; subst. rewrite H3. apply (proj2 (IH vs)), H5.
Qed.

Lemma init_ty t : wf_ty t = true -> has_ty t (value_init t) = true.
Proof.
  revert t. fix IH 1. intros [| signed bits | e |l| id]; intros H.
  - reflexivity.
  - clear IH. cbn in *. apply Z.leb_le in H. unfold in_range, ty_min, ty_max.
    rewrite andb_true_iff, !Z.leb_le. pose proof (Z.pow_pos_nonneg 2 (bits - 1)). pose proof (Z.pow_pos_nonneg 2 bits).
    destruct signed; lia.
  - reflexivity.
  - cbn [value_init]. apply has_tuple. cbn [wf_ty] in H. induction l as [|t l IHl]; cbn; constructor.
    + apply IH. cbn in H. now apply andb_prop in H.
    + apply IHl. cbn in H. now apply andb_prop in H.
  - cbn. apply Nat.eqb_refl.
Qed.

Lemma init_object t : wf_ty t = true -> object t (default_init t).
Proof.
  intros H. unfold object. destruct t; cbn [default_init is_num]; try (left; now apply init_ty). now right.
Qed.

Lemma nil_not_undef t v : has_ty t v = true -> v <> VUndef.
Proof. intros H ->. destruct t; discriminate. Qed.

Lemma conv_ok t v : wf_ty t = true -> accepts t v = true -> exists x, conv t v = Done x /\ has_ty t x = true.
Proof.
  intros W A. destruct t.
  - now exists VNil.
  - cbn in W. apply Z.leb_le in W. destruct v; try discriminate; cbn [conv].
    + exists (VNum 0). split; auto. apply (init_ty (TNum signed bits)). cbn. now apply Z.leb_le.
    + exists (VNum (wrap signed bits z)). split; auto. apply wrap_range. lia.
  - destruct v; try discriminate; [exists (VColl []); auto|]. exists (VColl l). split; auto. cbn [accepts] in A. unfold conv. now rewrite A.
  - destruct v; try discriminate.
    + exists (value_init (TTuple l)). split; auto. now apply init_ty.
    + exists (VTuple l0). split; auto. cbn [accepts] in A. unfold conv. now rewrite A.
  - destruct v; try discriminate; [exists (VUser id []); split; auto; apply Nat.eqb_refl|].
    exists (VUser id0 args). split; auto. cbn [accepts] in A. unfold conv. now rewrite A.
Qed.

Lemma has_accepts t v : has_ty t v = true -> accepts t v = true.
Proof. destruct t; cbn; auto; destruct v; auto; discriminate. Qed.

Lemma conv_object t v : wf_ty t = true -> object t v ->
  v = VUndef /\ is_num t = true /\ conv t v = Err (EUb UbUninit) \/
  v <> VUndef /\ exists x, conv t v = Done x /\ has_ty t x = true.
Proof.
  intros W [H|[Hn ->]].
  - right. split; [now apply nil_not_undef in H|]. now apply conv_ok, has_accepts.
  - left. destruct t; try discriminate. auto.
Qed.

(** ** Paths *)

Fixpoint ty_at (t : ty) (p : list nat) : option ty :=
  match p with
  | [] => Some t
  | i :: q => match t with
              | TTuple l => match nth_error l i with Some u => ty_at u q | None => None end
              | _ => None
              end
  end.

Lemma ty_at_app p : forall t i u l, ty_at t p = Some (TTuple l) -> nth_error l i = Some u -> ty_at t (p ++ [i]) = Some u.
Proof.
  induction p as [|j p IH]; intros t i u l H Hi; cbn in *.
  - injection H as ->. cbn. now rewrite Hi.
  - destruct t; try discriminate. destruct (nth_error l0 j); try discriminate. eauto.
Qed.

Lemma forall2_nth {A B} (R : A -> B -> Prop) l m i a : Forall2 R l m -> nth_error l i = Some a ->
  exists b, nth_error m i = Some b /\ R a b.
Proof.
  intros H. revert i. induction H; intros [|i]; cbn; intros E; try discriminate; auto.
  injection E as ->. eauto.
Qed.

Lemma forall2_upd {A B} (R : A -> B -> Prop) l m i a b : Forall2 R l m -> nth_error l i = Some a -> R a b ->
  Forall2 R l (upd m i b).
Proof.
  intros H. revert i. induction H; intros [|i]; cbn; intros E Hb; try discriminate; constructor; auto.
  injection E as ->. auto.
Qed.

Lemma nth_upd {A} (l : list A) i x y j : nth_error l i = Some y ->
  nth_error (upd l i x) j = if j =? i then Some x else nth_error l j.
Proof. revert i j. induction l as [|a l IH]; intros [|i] [|j]; cbn; intros H; try discriminate; auto. Qed.

Lemma has_at p : forall t v u, has_ty t v = true -> ty_at t p = Some u ->
  exists x, get_path v p = Done x /\ has_ty u x = true.
Proof.
  induction p as [|i p IH]; intros t v u H E; cbn in *.
  - injection E as ->. eauto.
  - destruct t; try discriminate. destruct (nth_error l i) eqn:En; try discriminate.
    destruct v; try discriminate. apply has_tuple in H.
    destruct (forall2_nth _ _ _ _ _ H En) as (y & -> & Hy). eauto.
Qed.

Lemma set_at p : forall t v u x, has_ty t v = true -> ty_at t p = Some u -> has_ty u x = true ->
  exists v', set_path v p x = Done v' /\ has_ty t v' = true.
Proof.
  induction p as [|i p IH]; intros t v u x H E Hx; cbn in *.
  - injection E as ->. eauto.
  - destruct t; try discriminate. destruct (nth_error l i) eqn:En; try discriminate.
    destruct v; try discriminate. pose proof H as H'. apply has_tuple in H'.
    destruct (forall2_nth _ _ _ _ _ H' En) as (y & Ey & Hy). rewrite Ey.
    destruct (IH _ _ _ _ Hy E Hx) as (y' & -> & Hy'). cbn. eexists. split; [reflexivity|].
    apply has_tuple. eapply forall2_upd; eauto.
Qed.

(** ** Cells *)

Definition Mem (tys : list ty) (cs : list val) : Prop := Forall2 object tys cs.

Definition dref (tys : list ty) (d : dst) (t : ty) : Prop :=
  match d with
  | DNil => t = TNil
  | DRef l p t' => t' = t /\ t <> TNil /\ exists t0, nth_error tys l = Some t0 /\ ty_at t0 p = Some t
  end.

Definition dfd (v : val) : bool := match v with VUndef => false | _ => true end.
Definition detb (cs : list val) (d : dst) : bool := match load cs d with Done v => dfd v | Err _ => true end.

(** Nothing becomes indeterminate. *)
Definition grows (cs cs' : list val) : Prop :=
  forall l v, nth_error cs l = Some v -> v <> VUndef -> exists v', nth_error cs' l = Some v' /\ v' <> VUndef.

Lemma grows_refl cs : grows cs cs. Proof. intros l v H Hv. eauto. Qed.
Lemma grows_trans a b c : grows a b -> grows b c -> grows a c.
Proof. intros H1 H2 l v H Hv. destruct (H1 _ _ H Hv) as (v' & H' & Hv'). eauto. Qed.

Lemma dfd_iff v : dfd v = true <-> v <> VUndef.
Proof. destruct v; cbn; split; intros; auto; congruence. Qed.
Lemma has_dfd t v : has_ty t v = true -> dfd v = true.
Proof. intros H. apply dfd_iff. now apply nil_not_undef in H. Qed.

Lemma dref_value tys d t : dref tys d t -> dst_value_ty d = value_ty t.
Proof. destruct d; cbn. - now intros ->. - intros (-> & _). now destruct t. Qed.
Lemma dref_ty tys d t : dref tys d t -> dst_ty d = t.
Proof. destruct d; cbn. - now intros ->. - now intros (-> & _). Qed.

Lemma dref_cell tys t : dref (tys ++ [t]) (dst_cell (length tys) t) t.
Proof.
  assert (nth_error (tys ++ [t]) (length tys) = Some t) as E by (rewrite nth_error_app2, Nat.sub_diag by lia; reflexivity).
  unfold dref, dst_cell. destruct t; auto; (split; [reflexivity|split; [discriminate|]]; rewrite E; eexists; split; reflexivity).
Qed.

Lemma dref_app tys t' d t : dref tys d t -> dref (tys ++ [t']) d t.
Proof.
  destruct d; cbn; auto. intros (H1 & H2 & u & H3 & H4). repeat split; auto. exists u. split; auto.
  rewrite nth_error_app1; auto. apply nth_error_Some. congruence.
Qed.

Lemma mem_cell tys cs l t0 : Mem tys cs -> nth_error tys l = Some t0 -> exists v, nth_error cs l = Some v /\ object t0 v.
Proof. intros H E. eapply forall2_nth; eauto. Qed.

Lemma object_has t0 v i p u : object t0 v -> ty_at t0 (i :: p) = Some u -> has_ty t0 v = true.
Proof. intros [H|[H _]]; auto. destruct t0; discriminate. Qed.

Lemma mem_load tys cs d t : Mem tys cs -> dref tys d t -> exists x, load cs d = Done x /\ object t x.
Proof.
  intros HM. destruct d as [|l p t']; cbn.
  - intros ->. exists VNil. split; auto. now left.
  - intros (-> & Hn & t0 & Ht & Hp). destruct (mem_cell _ _ _ _ HM Ht) as (v & -> & Hv). cbn.
    destruct p as [|i p].
    + injection Hp as ->. exists v. auto.
    + destruct (has_at _ t0 v t (object_has _ _ _ _ _ Hv Hp) Hp) as (x & Hx & Ho).
      exists x. split; auto. now left.
Qed.

Lemma det_path tys cs l i p t : Mem tys cs -> dref tys (DRef l (i :: p) t) t -> detb cs (DRef l (i :: p) t) = true.
Proof.
  intros HM (_ & Hn & t0 & Ht & Hp). unfold detb, load. destruct (mem_cell _ _ _ _ HM Ht) as (v & -> & Hv).
  cbn [of_option obind]. destruct (has_at _ t0 v t (object_has _ _ _ _ _ Hv Hp) Hp) as (x & -> & Hx). now apply has_dfd in Hx.
Qed.

Lemma det_num tys cs d t : Mem tys cs -> dref tys d t -> is_num t = false -> detb cs d = true.
Proof.
  intros HM Hd Hn. destruct (mem_load _ _ _ _ HM Hd) as (x & E & [H|[H _]]); [|congruence].
  unfold detb. rewrite E. now apply has_dfd in H.
Qed.

Lemma det_grows tys cs cs' d t : Mem tys cs -> Mem tys cs' -> dref tys d t -> grows cs cs' ->
  detb cs d = true -> detb cs' d = true.
Proof.
  intros HM HM' Hd Hg. destruct d as [|l p t']; auto. pose proof Hd as (-> & _).
  destruct p as [|i p]; [|intros _; eapply det_path; eauto].
  unfold detb. destruct (mem_load _ _ _ _ HM Hd) as (x & E & _). rewrite E. cbn in E |- *.
  destruct (nth_error cs l) eqn:El; [|discriminate]. injection E as ->. intros D. apply dfd_iff in D.
  destruct (Hg _ _ El D) as (v' & -> & Hv'). cbn. now apply dfd_iff.
Qed.

(** A store that went well. *)
Definition stored (tys : list ty) (cs : list val) (d : dst) (t : ty) (o : outcome (list val)) : Prop :=
  exists cs', o = Done cs' /\ Mem tys cs' /\ grows cs cs' /\ (is_num t = true -> detb cs' d = true).

Lemma mem_store tys cs d t x : Mem tys cs -> dref tys d t -> has_ty t x = true -> stored tys cs d t (store cs d x).
Proof.
  intros HM Hd Hx. destruct d as [|l p t']; cbn [store].
  - exists cs. repeat split; auto using grows_refl.
  - pose proof Hd as (-> & Hn & t0 & Ht & Hp). destruct (mem_cell _ _ _ _ HM Ht) as (v & E & Hv). rewrite E. cbn [of_option obind].
    assert (exists v', set_path v p x = Done v' /\ object t0 v' /\ v' <> VUndef) as (v' & Hs & Hv' & Hu).
    { destruct p as [|i p].
      - injection Hp as ->. exists x. repeat split; auto. + now left. + now apply nil_not_undef in Hx.
      - destruct (set_at _ t0 v t x (object_has _ _ _ _ _ Hv Hp) Hp Hx) as (v' & Hs & Hv'). exists v'. repeat split; auto.
        + now left. + now apply nil_not_undef in Hv'. }
    rewrite Hs. cbn [obind]. assert (Mem tys (upd cs l v')) as HM' by (eapply forall2_upd; eauto).
    exists (upd cs l v'). repeat split; auto.
    + intros j w Hj Hw. rewrite (nth_upd _ _ _ _ _ E). destruct (j =? l) eqn:Ej; eauto.
    + intros _. destruct p as [|i p]; [|eapply det_path; eauto]. unfold detb, load.
      rewrite (nth_upd _ _ _ _ _ E), Nat.eqb_refl. cbn. now apply dfd_iff.
Qed.

Lemma mem_assign_done tys cs d t v x : Mem tys cs -> dref tys d t ->
  conv (value_ty t) v = Done x -> has_ty (value_ty t) x = true -> stored tys cs d t (assign cs d v).
Proof.
  intros HM Hd Hc Hx. destruct d as [|l p t']; [exists cs; repeat split; auto using grows_refl|].
  pose proof Hd as (-> & Hn & _). destruct t; try congruence; unfold assign; cbn [value_ty] in *;
    try (rewrite Hc; cbn [obind]; now apply mem_store).
  rewrite Hc. cbn [obind]. destruct (mem_load _ _ _ _ HM Hd) as (y & -> & [Hy|[Hy _]]); [|discriminate]. cbn [obind].
  destruct y; try discriminate. apply mem_store; auto. cbn in Hy |- *. rewrite forallb_app, Hy. cbn. now rewrite Hx.
Qed.

Lemma mem_assign tys cs d t v : Mem tys cs -> dref tys d t -> wf_ty t = true -> accepts (value_ty t) v = true ->
  stored tys cs d t (assign cs d v).
Proof.
  intros HM Hd W A. destruct (conv_ok (value_ty t) v) as (x & Hc & Hx); auto; [destruct t; auto|].
  eapply mem_assign_done; eauto.
Qed.

Lemma mem_zero tys cs d t : Mem tys cs -> dref tys d t -> wf_ty t = true -> (t = TNil \/ is_num t = true) ->
  stored tys cs d t (num_zero cs d).
Proof.
  intros HM Hd W Ht. destruct d as [|l p t']; [exists cs; repeat split; auto using grows_refl|].
  pose proof Hd as (-> & Hn & _). destruct t; try (destruct Ht; try discriminate; congruence). cbn [num_zero].
  apply mem_store; auto. apply (init_ty (TNum signed bits)); auto.
Qed.

Lemma mem_op f tys cs d t : Mem tys cs -> dref tys d t -> wf_ty t = true -> (t = TNil \/ is_num t = true) ->
  (is_num t = true -> detb cs d = true) ->
  num_op f cs d = Err (EUb UbOverflow) \/ stored tys cs d t (num_op f cs d).
Proof.
  intros HM Hd W Ht Hb. destruct d as [|l p t']; [right; exists cs; repeat split; auto using grows_refl|].
  pose proof Hd as (-> & Hn & _). destruct t; try (destruct Ht; try discriminate; congruence). unfold num_op.
  destruct (mem_load _ _ _ _ HM Hd) as (y & E & Hy). specialize (Hb eq_refl). unfold detb in Hb. rewrite E in *.
  destruct Hy as [Hy|[_ ->]]; [|discriminate]. destruct y; try discriminate. cbn [obind].
  unfold arith. cbn in W. apply Z.leb_le in W. destruct (_ && _)%bool.
  - destruct (in_range signed bits (f z)) eqn:Er; cbn [obind]; auto. right. now apply mem_store.
  - right. cbn [obind]. apply mem_store; auto. apply wrap_range. lia.
Qed.

Lemma wf_value t : wf_ty t = true -> wf_ty (value_ty t) = true.
Proof. destruct t; auto. Qed.

Lemma mem_snoc tys cs t v : Mem tys cs -> object t v -> Mem (tys ++ [t]) (cs ++ [v]).
Proof. intros. apply Forall2_app; auto. Qed.

Lemma mem_split tys t cs : Mem (tys ++ [t]) cs -> exists cs0 v, cs = cs0 ++ [v] /\ length cs0 = length tys /\ Mem tys cs0 /\ object t v.
Proof.
  intros H. apply Forall2_app_inv_l in H as (c0 & c1 & H0 & H1 & ->). inversion H1; subst. inversion H5; subst.
  exists c0, y. repeat split; auto. clear - H0. induction H0; cbn; auto.
Qed.

Lemma grows_snoc cs v cs' v' : length cs = length cs' -> grows (cs ++ [v]) (cs' ++ [v']) -> grows cs cs' /\ (v <> VUndef -> v' <> VUndef).
Proof.
  intros HL H. split.
  - intros l x Hx Hu. assert (l < length cs) by (apply nth_error_Some; congruence).
    destruct (H l x) as (y & Hy & Hyu); auto; [now rewrite nth_error_app1|]. rewrite nth_error_app1 in Hy by lia. eauto.
  - intros Hv. destruct (H (length cs) v) as (y & Hy & Hyu); auto.
    + rewrite nth_error_app2, Nat.sub_diag by lia. reflexivity.
    + rewrite HL, nth_error_app2, Nat.sub_diag in Hy by lia. cbn in Hy. congruence.
Qed.

Lemma det_app tys cs v d t : Mem tys cs -> dref tys d t -> detb (cs ++ [v]) d = detb cs d.
Proof.
  intros HM Hd. destruct d as [|l p u]; [reflexivity|]. destruct Hd as (_ & _ & t0 & Ht & _).
  destruct (mem_cell _ _ _ _ HM Ht) as (x & E & _). unfold detb, load. rewrite nth_error_app1; auto.
  apply nth_error_Some. congruence.
Qed.

Lemma det_cell cs v t : object t v -> detb (cs ++ [v]) (dst_cell (length cs) t) = dfd v.
Proof.
  intros Ho. assert (nth_error (cs ++ [v]) (length cs) = Some v) as E by (rewrite nth_error_app2, Nat.sub_diag by lia; reflexivity).
  unfold detb, load, dst_cell. destruct t; rewrite ?E; auto.
  destruct Ho as [H|[H _]]; try discriminate. now destruct v.
Qed.

(** ** The destinations of the parts of a sequence *)

Definition count (l : list pat) : nat := length (filter (fun q => negb (ignores q)) l).

Definition part_b (t : ty) (q : pat) (b : bool) : bool :=
  if ignores q then true else match t with TTuple _ => true | _ => b end.

Lemma index_count l : forall i q, nth_error l i = Some q ->
  tuple_index1 l i = (if ignores q then 0 else 1) + count (firstn i l).
Proof.
  induction l as [|p l IH]; intros [|i] q H; cbn in H; try discriminate.
  - injection H as ->. cbn. now destruct (ignores q).
  - cbn [tuple_index1 firstn]. rewrite (IH _ _ H). unfold count. cbn [filter]. destruct (ignores p); cbn; lia.
Qed.

Lemma mem_part tys cs d t l i q t' : Mem tys cs -> dref tys d t -> nth_error l i = Some q ->
  part_ty t (count (firstn i l)) q = Some t' ->
  exists d', seq_dst l i d = Done d' /\ dref tys d' t' /\
    forall cs', Mem tys cs' -> detb cs' d' = part_b t q (detb cs' d).
Proof.
  intros HM Hd Hq Ht. unfold part_ty, part_b, seq_dst in *. destruct d as [|lv path u].
  - cbn in Hd. subst t. exists DNil. split; auto. destruct (ignores q); injection Ht as <-; split; auto; reflexivity.
  - rewrite Hq. pose proof Hd as (-> & Hn & t0 & Ht0 & Hp). destruct (ignores q) eqn:Ei.
    + injection Ht as <-. exists DNil. repeat split; auto.
    + destruct t; try (injection Ht as <-; eexists; repeat split; eauto; fail).
      rewrite (index_count _ _ _ Hq), Ei. cbn [Nat.add Nat.sub]. rewrite Nat.sub_0_r, Ht.
      assert (t' = TNil \/ t' <> TNil) as [->|Hn'] by (destruct t'; auto; right; discriminate).
      * exists DNil. repeat split; auto.
      * assert (dref tys (DRef lv (path ++ [count (firstn i l)]) t') t') as Hr.
        { split; auto. split; auto. exists t0. split; auto. eapply ty_at_app; eauto. }
        exists (DRef lv (path ++ [count (firstn i l)]) t'). split; [|split; [exact Hr|]].
        -- destruct t'; auto; congruence.
        -- intros cs' HM'. destruct path; cbn [app] in *; eapply det_path; eauto.
Qed.

Lemma part_wf t k q t' : wf_ty t = true -> part_ty t k q = Some t' -> wf_ty t' = true.
Proof.
  unfold part_ty. intros W. destruct (ignores q); [now intros [= <-]|].
  destruct t; try (now intros [= <-]). cbn in W. rewrite forallb_forall in W. intros H. apply W. eapply nth_error_In; eauto.
Qed.
