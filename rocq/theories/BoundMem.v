(** Two objects and the references to them (for C68). *)
From Coq Require Import List ZArith Bool Arith Lia.
From Verif Require Import Base CharSet Source Dst Pattern Parser Session Rel Big SpecPeg SpecLeaf SpecValue SpecType SpecAttr SpecBound.
From Verif Require Import Leaf Local LocalThms Unary LeafThms AttrMem.
Import ListNotations.

(** ** Elements *)
Lemma element_get P : forall r v, element P r v <-> get_path r P = Done v.
Proof.
  induction P as [|i P IH]; intros r v; split; intros H.
  - inversion H; subst. reflexivity.
  - injection H as <-. constructor.
  - inversion H; subst. cbn. match goal with E : nth_error _ _ = _ |- _ => rewrite E end. now apply IH.
  - cbn in H. destruct r; try discriminate. destruct (nth_error l i) eqn:E; [|discriminate]. econstructor; [eauto|]. now apply IH.
Qed.
Lemma replaced_set y P : forall r r', replaced y P r r' <-> set_path r P y = Done r'.
Proof.
  induction P as [|i P IH]; intros r r'; split; intros H.
  - inversion H; subst. reflexivity.
  - injection H as <-. constructor.
  - inversion H; subst. cbn. match goal with E : nth_error _ _ = _ |- _ => rewrite E end.
    match goal with E : replaced _ _ _ _ |- _ => apply IH in E; rewrite E end. reflexivity.
  - cbn in H. destruct r; try discriminate. destruct (nth_error l i) eqn:E; [|discriminate].
    destruct (set_path v P y) eqn:Es; [|discriminate]. injection H as <-. econstructor; [eauto|]. now apply IH.
Qed.

Lemma get_app P : forall Q r v, get_path r P = Done v -> get_path r (P ++ Q) = get_path v Q.
Proof.
  induction P as [|j P IH]; intros Q r v H; cbn [app get_path] in *; [now injection H as ->|]. destruct r; try discriminate. destruct (nth_error l j); [|discriminate]. now apply IH.
Qed.
Lemma set_app P : forall Q r v x, get_path r P = Done v -> set_path r (P ++ Q) x = obind (set_path v Q x) (set_path r P).
Proof.
  induction P as [|j P IH]; intros Q r v x H.
  - cbn in H. injection H as ->. cbn. now destruct (set_path v Q x).
  - cbn [get_path] in H. destruct r; try discriminate. destruct (nth_error l j) as [z|] eqn:E; [|discriminate].
    cbn [app set_path]. rewrite E, (IH Q z v x H). destruct (set_path v Q x); cbn [obind set_path]; rewrite ?E; reflexivity.
Qed.

(** ** Their types *)
Fixpoint ty_at (t : ty) (P : list nat) : option ty :=
  match P with
  | [] => Some t
  | i :: Q => match t with TTuple ts => match nth_error ts i with Some t' => ty_at t' Q | None => None end | _ => None end
  end.
Lemma ty_at_snoc P : forall t ts i, ty_at t P = Some (TTuple ts) -> ty_at t (P ++ [i]) = nth_error ts i.
Proof.
  induction P as [|j P IH]; intros t ts i H; cbn in *.
  - injection H as ->. cbn. now destruct (nth_error ts i).
  - destruct t; try discriminate. destruct (nth_error l j); [|discriminate]. now apply IH.
Qed.
Lemma get_shaped P : forall t r t', shaped t r = true -> ty_at t P = Some t' -> exists v, get_path r P = Done v /\ shaped t' v = true.
Proof.
  induction P as [|i P IH]; intros t r t' HS H; cbn [ty_at] in H.
  - injection H as <-. exists r. auto.
  - destruct t; try discriminate. destruct (nth_error l i) eqn:E; [|discriminate].
    apply shaped_tuple in HS as (vs & -> & HS). destruct (shapes_nth _ _ _ _ HS E) as (x & Ex & Hx). cbn. rewrite Ex. eauto.
Qed.
Lemma set_shaped P : forall t r t' x r', shaped t r = true -> ty_at t P = Some t' -> shaped t' x = true -> set_path r P x = Done r' -> shaped t r' = true.
Proof.
  induction P as [|i P IH]; intros t r t' x r' HS H Hx HE; cbn [ty_at] in H.
  - injection H as <-. injection HE as <-. auto.
  - destruct t; try discriminate. destruct (nth_error l i) eqn:E; [|discriminate].
    apply shaped_tuple in HS as (vs & -> & HS). destruct (shapes_nth _ _ _ _ HS E) as (z & Ez & Hz). cbn in HE. rewrite Ez in HE.
    destruct (set_path z P x) as [z'|] eqn:Es; [|discriminate]. injection HE as <-. apply shaped_tuple. eexists. split; [reflexivity|].
    eapply shapes_upd; eauto.
Qed.

(** An object of type [t] is there. *)
Definition fits (tb tx : ty) (L : where_) (t : ty) : Prop :=
  match L with
  | Nowhere => t = TNil
  | InBound P => ty_at tb P = Some t /\ t <> TNil
  | InOwn P => ty_at tx P = Some t /\ t <> TNil
  end.
Definition sound (tb tx : ty) (h : objects) : Prop := shaped tb (o_bound h) = true /\ shaped tx (o_own h) = true.

Lemma nil_or (t : ty) : t = TNil \/ t <> TNil.
Proof. destruct t; auto; right; discriminate. Qed.
Lemma fits_own tb t : fits tb t (the_own t) t.
Proof. destruct t; cbn; auto; split; auto; discriminate. Qed.
Lemma fits_bound tx t : fits t tx (the_bound t) t.
Proof. destruct t; cbn; auto; split; auto; discriminate. Qed.
Lemma fits_no tb tx : fits tb tx Nowhere TNil.
Proof. reflexivity. Qed.
Lemma fits_tuple tb args : fits tb (TTuple args) (InOwn []) (TTuple args).
Proof. cbn. split; auto. discriminate. Qed.
Lemma fits_part q i t L tq Lq tb tx : part_in q i t L tq Lq -> fits tb tx L t -> fits tb tx Lq tq.
Proof.
  intros H HF. inversion H; subst; cbn; auto. destruct L; cbn in *; [discriminate| |]; destruct HF as [HF _]; (split; [|auto]); now rewrite (ty_at_snoc _ _ _ _ HF).
Qed.

Lemma holds_total tb tx L t h : fits tb tx L t -> sound tb tx h -> exists v, holds L h v /\ shaped t v = true.
Proof.
  destruct h as [b x]. intros HF [H1 H2]. destruct L; cbn in *.
  - subst t. exists VNil. split; [constructor|reflexivity].
  - destruct HF as [HF _]. destruct (get_shaped _ _ _ _ H1 HF) as (v & E & Hv). exists v. split; auto. constructor. now apply element_get.
  - destruct HF as [HF _]. destruct (get_shaped _ _ _ _ H2 HF) as (v & E & Hv). exists v. split; auto. constructor. now apply element_get.
Qed.
Lemma holds_fun L h v v' : holds L h v -> holds L h v' -> v = v'.
Proof. intros H1 H2. inversion H1; subst; inversion H2; subst; auto; repeat match goal with H : element _ _ _ |- _ => apply element_get in H end; congruence. Qed.
Lemma holds_shaped tb tx L t h v : fits tb tx L t -> sound tb tx h -> holds L h v -> shaped t v = true.
Proof. intros HF HS HH. destruct (holds_total _ _ _ _ _ HF HS) as (v' & H' & Hv). now rewrite (holds_fun _ _ _ _ HH H'). Qed.
Lemma becomes_total L h v y : holds L h v -> exists h', becomes y L h h'.
Proof.
  intros H. inversion H; subst; [exists h; constructor| |];
    match goal with E : element _ _ _ |- _ => apply element_get in E; destruct (set_total _ _ _ y E) as [r' Hr] end;
    eexists; constructor; apply replaced_set; eauto.
Qed.
Lemma becomes_sound tb tx L t h y h' : fits tb tx L t -> sound tb tx h -> shaped t y = true -> becomes y L h h' -> sound tb tx h'.
Proof.
  intros HF [H1 H2] Hy H. inversion H; subst; cbn in *; [split; auto| |]; split; cbn; auto;
    match goal with E : replaced _ _ _ _ |- _ => apply replaced_set in E end; destruct HF; eapply set_shaped; eauto.
Qed.
Lemma assigned_sound tb tx L t x h h' : fits tb tx L t -> sound tb tx h -> assigned t L x h h' -> sound tb tx h'.
Proof.
  intros HF HS (v & v' & Hh & Hs & Hb). eapply becomes_sound; eauto. eapply stored_shaped; eauto. eapply holds_shaped; eauto.
Qed.
Lemma numbered_sound b neg ds tb tx L t h h' : fits tb tx L t -> sound tb tx h -> numbered b neg ds t L h h' -> sound tb tx h'.
Proof.
  intros HF HS (v & v' & Hh & Hs & Hb). eapply becomes_sound; eauto. inversion Hs; subst; auto.
Qed.
Lemma calls_sound a tb tx L t y h h' : fits tb tx L t -> sound tb tx h -> calls a tb t L y h h' -> sound tb tx h'.
Proof.
  intros HF HS H. assert (HA : forall r h1, sound tb tx h1 -> answered a t L r h1 h' -> sound tb tx h').
  { intros r h1 H1. unfold answered. destruct (ac_void a); [now intros ->|]. eapply assigned_sound; eauto. }
  inversion H; subst; eauto. eapply HA; [|eauto]. destruct HS. split; cbn; auto. now apply shaped_has.
Qed.

Section Spec.
Context (env : nat -> option pat).

Lemma mb_sound ws g tb L t h s r h' k : mb env ws g tb L t h s r h' k -> forall tx, fits tb tx L t -> sound tb tx h -> sound tb tx h'.
Proof.
  assert (HO : forall b x tb tx (h : objects), sound tb tx h -> (exists tx', sound tb tx' (Objects b x)) -> sound tb tx (Objects b (o_own h))).
  { intros b x tb0 tx h0 [_ H2] (tx' & H1 & _). split; auto. }
  assert (HD : forall b t tb tx (h : objects), shaped t b = true -> sound tb tx h -> sound tb t (Objects (o_bound h) b)).
  { intros b t0 tb0 tx h0 Hb [H1 _]. split; auto. }
  induction 1; intros tx HF HS; try (eapply assigned_sound; eassumption); try (eapply numbered_sound; eassumption); auto using fits_no;
    try (eauto using fits_part, fits_no; fail).
  - eapply assigned_sound; [exact HF| |eassumption]. eapply HO; eauto. exists (value_ty t). eauto using fits_own, shaped_default.
  - eapply HO; eauto. exists (value_ty t). eauto using fits_own, shaped_default.
  - destruct (IHmb TNil (fits_bound _ _)) as [H3 _].
    { split; cbn; auto. eapply holds_shaped; eauto. }
    eapply becomes_sound; eauto.
  - eapply assigned_sound; [exact HF| |eassumption]. eapply HO; eauto. exists (TTuple args). apply IHmb; [apply fits_tuple|]. eapply HD; eauto. exact (shaped_init (TTuple args)).
  - eapply HO; eauto. exists (TTuple args). apply IHmb; [apply fits_tuple|]. eapply HD; eauto. exact (shaped_init (TTuple args)).
  - eapply calls_sound; [exact HF| |eassumption]. eapply HO; eauto. exists (ac_land a). eauto using fits_own, shaped_default.
  - eapply HO; eauto. exists (ac_land a). eauto using fits_own, shaped_default.
Qed.

(** Separate objects are left alone that are not stored in. *)
Definition elsewhere (L : where_) : bool := match L with InOwn _ => false | _ => true end.
Lemma becomes_keep L y h h' : elsewhere L = true -> becomes y L h h' -> o_own h' = o_own h.
Proof. intros HE H. inversion H; subst; auto. discriminate. Qed.
Lemma assigned_keep L t x h h' : elsewhere L = true -> assigned t L x h h' -> o_own h' = o_own h.
Proof. intros HE (v & v' & _ & _ & H). eapply becomes_keep; eauto. Qed.
Lemma numbered_keep b neg ds L t h h' : elsewhere L = true -> numbered b neg ds t L h h' -> o_own h' = o_own h.
Proof. intros HE (v & v' & _ & _ & H). eapply becomes_keep; eauto. Qed.
Lemma calls_keep a tb L t y h h' : elsewhere L = true -> calls a tb t L y h h' -> o_own h' = o_own h.
Proof.
  intros HE H. assert (HA : forall r h1, answered a t L r h1 h' -> o_own h' = o_own h1).
  { intros r h1. unfold answered. destruct (ac_void a); [now intros ->|]. now apply assigned_keep. }
  inversion H; subst; eauto. match goal with E : answered _ _ _ _ _ _ |- _ => now apply HA in E end.
Qed.
Lemma part_elsewhere q i t L tq Lq : part_in q i t L tq Lq -> elsewhere L = true -> elsewhere Lq = true.
Proof. intros H. inversion H; subst; auto. now destruct L. Qed.

Lemma mb_keep ws g tb L t h s r h' k : mb env ws g tb L t h s r h' k -> elsewhere L = true -> o_own h' = o_own h.
Proof.
  induction 1; intros HE; try (eapply assigned_keep; eassumption); try (eapply numbered_keep; eassumption); try (eapply becomes_keep; eassumption); auto;
    try (eauto using part_elsewhere; fail).
  - match goal with H : assigned _ _ _ _ _ |- _ => now apply assigned_keep in H end.
  - rewrite IHmb2; eauto using part_elsewhere.
  - rewrite IHmb2, IHmb1; auto.
  - rewrite IHmb2, IHmb1; auto.
  - rewrite IHmb2, IHmb1; auto.
  - rewrite IHmb2, IHmb1; auto.
  - rewrite IHmb2, IHmb1; auto.
  - rewrite IHmb3, IHmb2, IHmb1; auto.
  - match goal with H : assigned _ _ _ _ _ |- _ => now apply assigned_keep in H end.
  - match goal with H : calls _ _ _ _ _ _ _ |- _ => now apply calls_keep in H end.
Qed.
End Spec.

(** ** In memory *)

(** [cb] refers to the bound object, [d] to the object at [L]. *)
Definition Rep (c : list val) (cb d : dst) (tb tx : ty) (L : where_) (t : ty) (h : objects) : Prop :=
  place c cb tb (o_bound h) /\ fits tb tx L t /\ sound tb tx h /\
  match L with
  | Nowhere => d = DNil
  | InBound P => match cb with DRef l Q _ => d = DRef l (Q ++ P) t | DNil => False end
  | InOwn P => match d with
               | DRef l P' t' => P' = P /\ t' = t /\ nth_error c l = Some (o_own h) /\
                                 match cb with DRef lb _ _ => lb <> l | DNil => True end
               | DNil => False
               end
  end.
(** The memory, when the objects have become [h]. *)
Definition Wr (c : list val) (cb d : dst) (L : where_) (h : objects) (c' : list val) : Prop :=
  exists c1, store c cb (o_bound h) = Done c1 /\
  match L with
  | InOwn _ => match d with DRef l _ _ => c' = upd c1 l (o_own h) | DNil => False end
  | _ => c' = c1
  end.

Lemma upd_other {A} (l : list A) : forall i j x, i <> j -> nth_error (upd l i x) j = nth_error l j.
Proof. induction l as [|a l IH]; intros [|i] [|j] x N; cbn; try congruence; auto. Qed.
Lemma upd_comm {A} (l : list A) : forall i j x y, i <> j -> upd (upd l i x) j y = upd (upd l j y) i x.
Proof. induction l as [|a l IH]; intros [|i] [|j] x y N; cbn; try congruence; auto. f_equal. auto. Qed.
Lemma store_other c l P t x c' j : store c (DRef l P t) x = Done c' -> l <> j -> nth_error c' j = nth_error c j.
Proof.
  cbn. destruct (nth_error c l); [|discriminate]. cbn. destruct (set_path _ _ _); [|discriminate]. intros [= <-] N. now apply upd_other.
Qed.
Lemma store_upd c l P t x c' j y : store c (DRef l P t) x = Done c' -> l <> j -> store (upd c j y) (DRef l P t) x = Done (upd c' j y).
Proof.
  cbn. intros H N. rewrite upd_other by congruence. destruct (nth_error c l); [|discriminate]. cbn in *. destruct (set_path _ _ _); [|discriminate]. cbn in *.
  injection H as <-. f_equal. apply upd_comm; congruence.
Qed.

Lemma wr_fun c cb d L h c1 c2 : Wr c cb d L h c1 -> Wr c cb d L h c2 -> c1 = c2.
Proof. intros (z1 & H1 & HW1) (z2 & H2 & HW2). rewrite H1 in H2. injection H2 as <-. destruct L; try congruence. destruct d; [contradiction|congruence]. Qed.

Section Mem.
Context (c : list val) (cb d : dst) (tb tx : ty) (L : where_) (t : ty) (h : objects).
Hypothesis HR : Rep c cb d tb tx L t h.

Lemma rep_place v : holds L h v -> place c d t v.
Proof.
  destruct HR as (HB & HF & HS & HL). intros HH. inversion HH; subst; cbn in HL, HF.
  - now subst.
  - destruct cb as [|l Q tb']; [contradiction|]. subst d. destruct HB as (-> & _ & HB). cbn. destruct HF as [HF N]. repeat split; auto.
    cbn in HB. destruct (nth_error c l) as [r|]; [|discriminate]. cbn in *. rewrite (get_app _ P _ _ HB). now apply element_get.
  - destruct d as [|l P' t']; [contradiction|]. destruct HL as (-> & -> & E & _). destruct HF as [HF N]. cbn. repeat split; auto. rewrite E. cbn. now apply element_get.
Qed.
Lemma rep_holds : exists v, holds L h v /\ place c d t v /\ shaped t v = true.
Proof.
  destruct HR as (HB & HF & HS & HL). destruct (holds_total _ _ _ _ _ HF HS) as (v & Hh & Hv). exists v. split; auto. split; auto. now apply rep_place.
Qed.
Lemma rep_value_ty : dst_value_ty d = value_ty t.
Proof. destruct rep_holds as (v & _ & HP & _). eapply place_value_ty; eauto. Qed.
Lemma rep_ty : dst_ty d = t.
Proof. destruct rep_holds as (v & _ & HP & _). eapply place_ty; eauto. Qed.

Lemma wr_keep : Wr c cb d L h c.
Proof.
  destruct HR as (HB & HF & HS & HL). exists c. split; [eapply store_keep; eauto|]. destruct L; auto. destruct d; [contradiction|]. destruct HL as (_ & _ & E & _). now rewrite upd_same.
Qed.
Lemma wr_total h' : exists c', Wr c cb d L h' c'.
Proof.
  destruct HR as (HB & HF & HS & HL). destruct (store_total _ _ _ _ (o_bound h') HB) as [c1 H1]. destruct L; try (exists c1, c1; auto; fail).
  destruct d as [|l P' t']; [contradiction|]. exists (upd c1 l (o_own h')), c1. auto.
Qed.
Lemma rep_wr h' c' : sound tb tx h' -> Wr c cb d L h' c' -> Rep c' cb d tb tx L t h'.
Proof.
  destruct HR as (HB & HF & HS & HL). intros HS' (c1 & H1 & HW). assert (HB1 := store_place _ _ _ _ _ _ HB H1).
  destruct L; [subst c'; refine (conj _ (conj _ (conj _ _))); auto|subst c'; refine (conj _ (conj _ (conj _ _))); auto|]. destruct d as [|l P' t']; [contradiction|]. subst c'.
  destruct HL as (-> & -> & E & HN). refine (conj _ (conj _ (conj _ _))); auto.
  - destruct cb as [|lb Q tb']; [exact HB1|]. destruct HB1 as (-> & N & HB1). split; auto. split; auto. cbn [load] in *. now rewrite upd_other by congruence.
  - repeat split; auto. destruct cb as [|lb Q tb'].
    + injection H1 as <-. eapply nth_upd; eauto.
    + eapply nth_upd. rewrite (store_other _ _ _ _ _ _ _ H1 HN). exact E.
Qed.
Lemma wr_again h1 c1 h2 c2 : Wr c cb d L h1 c1 -> Wr c1 cb d L h2 c2 -> Wr c cb d L h2 c2.
Proof.
  destruct HR as (HB & HF & HS & HL). intros (z1 & H1 & HW1) (z2 & H2 & HW2). destruct L.
  - subst z1. subst z2. exists c2. split; auto. rewrite <- H2. symmetry. eapply store_again; eauto.
  - subst z1. subst z2. exists c2. split; auto. rewrite <- H2. symmetry. eapply store_again; eauto.
  - destruct d as [|l P' t']; [contradiction|]. subst c1 c2. destruct HL as (_ & _ & _ & HN). destruct cb as [|lb Q tb'].
    + injection H1 as <-. injection H2 as <-. exists c. split; [reflexivity|]. now rewrite upd_upd.
    + destruct (store_total _ _ _ _ (o_bound h2) HB) as [z Hz]. exists z. split; auto.
      pose proof (store_again _ _ _ _ (o_bound h2) H1) as E. rewrite Hz in E. rewrite (store_upd _ _ _ _ _ _ _ _ E HN) in H2. injection H2 as <-. now rewrite upd_upd.
Qed.

Lemma store_wr v y h' c' : holds L h v -> becomes y L h h' -> (store c d y = Done c' <-> Wr c cb d L h' c').
Proof.
  destruct HR as (HB & HF & HS & HL). intros HH HY. assert (HK := store_keep _ _ _ _ HB). inversion HY; subst; cbn [o_bound o_own] in *.
  - subst d. unfold Wr. rewrite HK. cbn. split; [intros [= <-]; eauto|]. intros (c1 & [= <-] & ->). reflexivity.
  - destruct cb as [|l Q tb']; [contradiction|]. subst d. destruct HB as (-> & _ & HB). cbn [load] in HB. unfold Wr. cbn [store o_bound].
    destruct (nth_error c l) as [r|]; [|discriminate]. cbn [of_option obind] in *. rewrite (set_app _ _ _ _ _ HB).
    match goal with H : replaced _ _ _ _ |- _ => apply replaced_set in H; rewrite H end. cbn [obind].
    split; [intros E; exists c'; auto|]. intros (c1 & E & ->). exact E.
  - destruct d as [|l P' t']; [contradiction|]. destruct HL as (-> & -> & E & _). unfold Wr. cbn [o_bound o_own]. rewrite HK. cbn [store]. rewrite E. cbn [of_option obind].
    match goal with H : replaced _ _ _ _ |- _ => apply replaced_set in H; rewrite H end. cbn [obind].
    split; [intros [= <-]; eauto|]. intros (c1 & [= <-] & ->). reflexivity.
Qed.

Lemma wr_bound b c' : store c cb b = Done c' -> Wr c cb d L (Objects b (o_own h)) c'.
Proof.
  destruct HR as (HB & HF & HS & HL). intros H. exists c'. split; auto. destruct L; auto. destruct d as [|l P' t']; [contradiction|].
  destruct HL as (_ & _ & E & HN). cbn. symmetry. apply upd_same. destruct cb as [|lb Q tb']; [now injection H as <-|]. rewrite <- E. eapply store_other; eauto.
Qed.

(** ** Assigning and calling *)
Lemma assign_wr x c' : assign c d x = Done c' <-> exists h', assigned t L x h h' /\ Wr c cb d L h' c'.
Proof.
  destruct rep_holds as (v & HH & HP & Hv). rewrite (assign_stored _ _ _ _ _ _ HP). split.
  - intros (v' & Hs & Hc). destruct (becomes_total _ _ _ v' HH) as [h' Hh']. exists h'. split; [exists v, v'; auto|]. now apply (store_wr v v').
  - intros (h' & (v1 & v' & H1 & H2 & H3) & HW). rewrite (holds_fun _ _ _ _ H1 HH) in *. exists v'. split; auto. now apply (store_wr v v' h').
Qed.
End Mem.

Lemma act_calls a x d cx s cs tr w' tb tx L t h : Rep cs (c_bound cx) d tb tx L t h ->
  (act_run a x d cx (SW s cs tr) = Done w' <->
   exists y h' cs', conv (ac_land a) x = Done y /\ calls a tb t L y h h' /\ Wr cs (c_bound cx) d L h' cs' /\ w' = SW s cs' (Event (ac_id a) y :: tr)).
Proof.
  intros HR.
  assert (HA : forall r h1 c1 tr w', Rep c1 (c_bound cx) d tb tx L t h1 ->
    ((if ac_void a then Done (tt, World tt c1 tr) else m_assign d r (World tt c1 tr)) = Done (tt, w') <->
     exists h' cs', answered a t L r h1 h' /\ Wr c1 (c_bound cx) d L h' cs' /\ w' = World tt cs' tr)).
  { clear. intros r h1 c1 tr w' HR. unfold answered. destruct (ac_void a).
    - assert (HK := wr_keep _ _ _ _ _ _ _ _ HR). split.
      + intros [= <-]. exists h1, c1. auto.
      + intros (h' & cs' & -> & HW & ->). now rewrite (wr_fun _ _ _ _ _ _ _ HW HK).
    - unfold m_assign, on_cells. cbn [w_cells w_src w_trace]. split.
      + destruct (assign c1 d r) as [c2|] eqn:E; [|discriminate]. intros [= <-]. apply (assign_wr _ _ _ _ _ _ _ _ HR) in E as (h' & H1 & H2). eauto 6.
      + intros (h' & cs' & H1 & H2 & ->). assert (assign c1 d r = Done cs') as -> by (apply (assign_wr _ _ _ _ _ _ _ _ HR); eauto). reflexivity. }
  assert (HA2 : forall r h1 c1 tr h' cs', Rep c1 (c_bound cx) d tb tx L t h1 -> answered a t L r h1 h' -> Wr c1 (c_bound cx) d L h' cs' ->
    (if ac_void a then Done (tt, World tt c1 tr) else m_assign d r (World tt c1 tr)) = Done (tt, World tt cs' tr)).
  { intros r h1 c1 tr' h' cs' HR1 H1 H2. apply (HA r h1); eauto. }
  destruct HR as (HB & HF & HS & HL) eqn:EHR. clear EHR. unfold act_run, act_dispatch. cbn [q_c q_t q_s]. split.
  - destruct (conv (ac_land a) x) as [y|] eqn:E; [|discriminate]. cbn [w_cells w_src w_trace].
    assert (HC : forall r h1 c1, Rep c1 (c_bound cx) d tb tx L t h1 -> (forall h', answered a t L r h1 h' -> calls a tb t L y h h') ->
      (forall h' cs', Wr c1 (c_bound cx) d L h' cs' -> Wr cs (c_bound cx) d L h' cs') ->
      match (if ac_void a then Done (tt, World tt c1 (Event (ac_id a) y :: tr)) else m_assign d r (World tt c1 (Event (ac_id a) y :: tr))) with
      | Done (_, w0) => Done (SW s (w_cells w0) (w_trace w0)) | Err e => Err e end = Done w' ->
      exists y' h' cs', Done y = Done y' /\ calls a tb t L y' h h' /\ Wr cs (c_bound cx) d L h' cs' /\ w' = SW s cs' (Event (ac_id a) y' :: tr)).
    { intros r h1 c1 HR1 H1 H2 H3. destruct (if ac_void a then _ else _) as [[[] w0]|] eqn:Ew; [|discriminate]. apply (HA r h1 c1) in Ew; auto.
      destruct Ew as (h' & cs' & Ha & HW & ->). injection H3 as <-. exists y, h', cs'. auto. }
    destruct (ac_param a) eqn:Ep.
    + destruct (c_bound cx) as [|lb Q tb'] eqn:Ec.
      * cbn [load]. destruct (ac_fun a y VNil) as [r b] eqn:Ef. apply (HC r h cs); auto. intros h' Ha. eapply ca_none; eauto.
      * rewrite (place_load _ _ _ _ HB ltac:(discriminate)). destruct (ac_fun a y (o_bound h)) as [r b] eqn:Ef.
        assert (HB' := HB). destruct HB' as (-> & Nb & _). destruct (has_ty tb b) eqn:Et; [|discriminate].
        destruct (store cs (DRef lb Q tb) b) as [c1|] eqn:Es; [|discriminate].
        assert (HW1 : Wr cs (DRef lb Q tb) d L (Objects b (o_own h)) c1) by (eapply wr_bound; eauto).
        apply (HC r (Objects b (o_own h)) c1).
        -- eapply rep_wr; eauto. destruct HS as [_ HS]. split; auto. now apply shaped_has.
        -- intros h' Ha. eapply ca_bound; eauto.
        -- intros h' cs' HW. eapply wr_again; eauto.
    + destruct (ac_fun a y VNil) as [r b] eqn:Ef. apply (HC r h cs); auto. intros h' Ha. eapply ca_plain; eauto.
  - intros (y & h' & cs' & -> & HC & HW & ->). cbn [w_cells w_src w_trace]. inversion HC as [r b H1 H2 H3|r b H1 H2 H3 H4|r b H1 H2 H3 H4 H5]; rewrite H1.
    + rewrite H2. rewrite (HA2 r h cs _ h' cs') by assumption. reflexivity.
    + assert (c_bound cx = DNil) as Ec by (destruct (c_bound cx); auto; destruct HB as (-> & N & _); congruence).
      rewrite Ec. cbn [load]. rewrite H3. rewrite (HA2 r h cs _ h' cs') by assumption. reflexivity.
    + destruct (c_bound cx) as [|lb Q tb'] eqn:Ec; [cbn in HB; congruence|].
      rewrite (place_load _ _ _ _ HB ltac:(discriminate)), H3. assert (HB' := HB). destruct HB' as (-> & Nb & _). rewrite H4.
      destruct (store_total _ _ _ _ b HB) as [c1 Es]. rewrite Es.
      assert (HW1 : Wr cs (DRef lb Q tb) d L (Objects b (o_own h)) c1) by (eapply wr_bound; eauto).
      assert (HR1 : Rep c1 (DRef lb Q tb) d tb tx L t (Objects b (o_own h))).
      { eapply rep_wr; eauto. destruct HS as [_ HS]. split; auto. now apply shaped_has. }
      destruct (wr_total _ _ _ _ _ _ _ _ HR1 h') as [c2 HW2]. pose proof (wr_again _ _ _ _ _ _ _ _ HR _ _ _ _ HW1 HW2) as HW3.
      rewrite (wr_fun _ _ _ _ _ _ _ HW3 HW) in *.
      rewrite (HA2 r (Objects b (o_own h)) c1 _ h' cs') by assumption. reflexivity.
Qed.

(** ** Nothing, parts, new objects, the bound object *)
Lemma rep_nil c cb d tb tx L t h : Rep c cb d tb tx L t h -> Rep c cb DNil tb tx Nowhere TNil h.
Proof. intros (HB & HF & HS & HL). refine (conj _ (conj _ (conj _ _))); auto. reflexivity. Qed.
Lemma wr_nil c cb d tb tx L t h h1 c1 : Rep c cb d tb tx L t h -> o_own h1 = o_own h -> Wr c cb DNil Nowhere h1 c1 -> Wr c cb d L h1 c1.
Proof.
  intros HR E (z & Hz & ->). destruct h1 as [b1 x1]. cbn in E. subst x1. eapply wr_bound; eauto.
Qed.

Lemma rep_part l i q di c cb d tb tx L t h : nth_error l i = Some q -> seq_dst l i d = Done di -> Rep c cb d tb tx L t h ->
  exists tq Lq, part_in q (louds_in (firstn i l)) t L tq Lq.
Proof.
  intros Hn Hd HR. pose proof (rep_ty _ _ _ _ _ _ _ _ HR) as Et. unfold seq_dst in Hd. destruct (ignores q) eqn:E; [eexists; eexists; constructor; auto|].
  destruct d as [|lv P t'].
  - cbn in Et. subst t. do 2 eexists. apply pin_whole; auto. discriminate.
  - cbn in Et. subst t'. rewrite Hn in Hd.
    assert ((exists ts, t = TTuple ts) \/ (forall ts, t <> TTuple ts)) as [[ts ->]|Nts] by (destruct t; try (right; discriminate); left; eauto).
    + rewrite E, (index_at _ _ _ Hn), E in Hd. replace (louds_in (firstn i l) + 1 - 1) with (louds_in (firstn i l)) in Hd by lia.
      destruct (nth_error ts (louds_in (firstn i l))) as [tq|] eqn:Ej; [|discriminate]. destruct (nil_or tq) as [->|N]; do 2 eexists; [apply pin_none|apply pin_slot]; eauto.
    + do 2 eexists. apply pin_whole; auto.
Qed.
Lemma part_rep l i q c cb d tb tx L t h tq Lq : nth_error l i = Some q -> part_in q (louds_in (firstn i l)) t L tq Lq -> Rep c cb d tb tx L t h ->
  exists di, seq_dst l i d = Done di /\ Rep c cb di tb tx Lq tq h /\
  forall h1 c1, (elsewhere Lq = true -> o_own h1 = o_own h) -> Wr c cb di Lq h1 c1 -> Wr c cb d L h1 c1.
Proof.
  intros Hn HA HR. pose proof (rep_ty _ _ _ _ _ _ _ _ HR) as Et. assert (HN := rep_nil _ _ _ _ _ _ _ _ HR).
  assert (HW : forall h1 c1, (elsewhere Nowhere = true -> o_own h1 = o_own h) -> Wr c cb DNil Nowhere h1 c1 -> Wr c cb d L h1 c1).
  { intros h1 c1 E. eapply wr_nil; eauto. }
  unfold seq_dst. destruct d as [|lv P t'].
  - cbn in Et. subst t. exists DNil. split; [reflexivity|]. inversion HA; subst; auto.
  - cbn in Et. subst t'. rewrite Hn. inversion HA; subst; (match goal with H : ignores q = _ |- _ => rewrite H end).
    + exists DNil. auto.
    + exists (DRef lv P tq). split; [destruct tq; try reflexivity; match goal with H : forall ts, _ <> _ |- _ => now destruct (H l0) end|]. auto.
    + rewrite (index_at _ _ _ Hn). match goal with H : ignores q = _ |- _ => rewrite H end.
      replace (louds_in (firstn i l) + 1 - 1) with (louds_in (firstn i l)) by lia. match goal with H : nth_error ts _ = _ |- _ => rewrite H end.
      exists DNil. auto.
    + rewrite (index_at _ _ _ Hn). match goal with H : ignores q = _ |- _ => rewrite H end.
      replace (louds_in (firstn i l) + 1 - 1) with (louds_in (firstn i l)) by lia. set (j := louds_in (firstn i l)) in *.
      match goal with H : nth_error ts _ = _ |- _ => rewrite H end.
      exists (DRef lv (P ++ [j]) tq). split; [destruct tq; congruence|].
      pose proof (fits_part _ _ _ _ _ _ tb tx HA) as HFq. destruct HR as (HB & HF & HS & HL). specialize (HFq HF). split.
      * refine (conj _ (conj _ (conj _ _))); auto. destruct L; cbn [in_slot] in *; [discriminate| |].
        -- destruct cb as [|lb Q tb']; [contradiction|]. injection HL as -> -> . now rewrite <- ?app_assoc.
        -- destruct HL as (-> & _ & E1 & E2). repeat split; auto.
      * intros h1 c1 _ (z & Hz & HW1). exists z. split; auto. destruct L; auto.
Qed.

Lemma store_snoc c d t v x y : place c d t v -> store (c ++ [y]) d x = obind (store c d x) (fun c' => Done (c' ++ [y])).
Proof.
  destruct d as [|l P t']; cbn; [reflexivity|]. intros (_ & _ & H). destruct (nth_error c l) as [r|] eqn:E; [|discriminate]. cbn in *.
  assert (l < length c) by (apply nth_error_Some; congruence). rewrite nth_error_app1, E by auto. cbn. destruct (set_path r P x); cbn; [|reflexivity].
  f_equal. clear -H0. revert l H0. induction c as [|e0 c IH]; intros [|l] H; cbn in *; try lia; auto. f_equal. apply IH. lia.
Qed.
Lemma place_snoc c d t v y : place c d t v -> place (c ++ [y]) d t v.
Proof.
  destruct d as [|l P t']; cbn; [auto|]. intros (-> & N & H). repeat split; auto. destruct (nth_error c l) as [r|] eqn:E; [|discriminate]. cbn in *.
  assert (l < length c) by (apply nth_error_Some; congruence). now rewrite nth_error_app1, E by auto.
Qed.
Lemma place_level c l P t' t v : place c (DRef l P t') t v -> l < length c.
Proof. intros (_ & _ & H). cbn in H. apply nth_error_Some. now destruct (nth_error c l). Qed.

Lemma rep_new c cb d tb tx L t h t0 v0 : Rep c cb d tb tx L t h -> shaped t0 v0 = true ->
  Rep (c ++ [v0]) cb (dst_cell (length c) t0) tb t0 (the_own t0) t0 (Objects (o_bound h) v0).
Proof.
  intros (HB & HF & HS & HL) Hv. refine (conj _ (conj _ (conj _ _))); cbn [o_bound o_own].
  - now apply place_snoc.
  - apply fits_own.
  - destruct HS. split; auto.
  - assert (match cb with DRef lb _ _ => lb <> length c | DNil => True end).
    { destruct cb as [|lb Q tb']; auto. apply place_level in HB. lia. }
    destruct t0; cbn; auto; repeat split; auto; now rewrite nth_end.
Qed.
Lemma rep_args c cb d tb tx L t h args v0 : Rep c cb d tb tx L t h -> shaped (TTuple args) v0 = true ->
  Rep (c ++ [v0]) cb (dst_cell (length c) (TTuple args)) tb (TTuple args) (InOwn []) (TTuple args) (Objects (o_bound h) v0).
Proof. exact (rep_new c cb d tb tx L t h (TTuple args) v0). Qed.

Lemma wr_new c cb d tb tx L t h t0 v0 h1 c2 : Rep c cb d tb tx L t h -> sound tb t0 h1 ->
  Wr (c ++ [v0]) cb (dst_cell (length c) t0) (the_own t0) h1 c2 ->
  exists cs y, c2 = cs ++ [y] /\ length cs = length c /\ (t0 <> TNil -> y = o_own h1) /\
    Rep cs cb d tb tx L t (Objects (o_bound h1) (o_own h)) /\ Wr c cb d L (Objects (o_bound h1) (o_own h)) cs.
Proof.
  intros HR HS1 (z & Hz & HW). assert (HB := HR). destruct HB as (HB & _ & HS & _). rewrite (store_snoc _ _ _ _ _ _ HB) in Hz.
  destruct (store c cb (o_bound h1)) as [cs|] eqn:E; [|discriminate]. injection Hz as <-. assert (HL := store_len _ _ _ _ E).
  assert (HW1 := wr_bound _ _ _ _ _ _ _ _ HR _ _ E). assert (HR1 : Rep cs cb d tb tx L t (Objects (o_bound h1) (o_own h))).
  { eapply rep_wr; eauto. destruct HS1, HS. split; auto. }
  destruct (nil_or t0) as [->|N].
  - cbn in HW. subst c2. exists cs, v0. repeat split; auto; try congruence; apply HR1.
  - assert (the_own t0 = InOwn []) as Eo by (destruct t0; [congruence|reflexivity..]). assert (dst_cell (length c) t0 = DRef (length c) [] t0) as Ed by (destruct t0; [congruence|reflexivity..]).
    rewrite Eo, Ed in HW. subst c2. rewrite <- HL, upd_end. exists cs, (o_own h1). split; auto.
Qed.
Lemma wr_args c cb d tb tx L t h args v0 h1 c2 : Rep c cb d tb tx L t h -> sound tb (TTuple args) h1 ->
  Wr (c ++ [v0]) cb (dst_cell (length c) (TTuple args)) (InOwn []) h1 c2 ->
  exists cs, c2 = cs ++ [o_own h1] /\ length cs = length c /\
    Rep cs cb d tb tx L t (Objects (o_bound h1) (o_own h)) /\ Wr c cb d L (Objects (o_bound h1) (o_own h)) cs.
Proof.
  intros HR HS HW. destruct (wr_new _ _ _ _ _ _ _ _ (TTuple args) v0 h1 c2 HR HS HW) as (cs & y & -> & H1 & H2 & H3 & H4). exists cs. rewrite (H2 ltac:(discriminate)). auto.
Qed.

Lemma rep_bind c cb d tb tx L t h v : Rep c cb d tb tx L t h -> holds L h v -> Rep c d d t TNil (the_bound t) t (Objects v VNil).
Proof.
  intros HR HH. assert (HP := rep_place _ _ _ _ _ _ _ _ HR _ HH). refine (conj _ (conj _ (conj _ _))); cbn [o_bound o_own]; auto.
  - apply fits_bound.
  - split; auto. destruct HR as (HB & HF & HS & HL). eapply holds_shaped; eauto.
  - destruct d as [|l P t']; [cbn in HP; subst t; reflexivity|]. destruct HP as (-> & N & _). destruct t; try congruence; cbn; now rewrite app_nil_r.
Qed.
Lemma wr_bind c d t h c' : Wr c d d (the_bound t) h c' <-> store c d (o_bound h) = Done c'.
Proof. unfold Wr. assert (exists L0, the_bound t = L0 /\ elsewhere L0 = true) as (L0 & -> & E) by (destruct t; eexists; split; eauto; reflexivity). destruct L0; try discriminate;
  (split; [intros (c1 & H & ->); exact H|intros H; exists c'; auto]). Qed.

(** ** Numbers *)
Section Numbered.
Context (b lo hi : Z) (Hb : (2 <= b <= 35)%Z) (Hlh : (hi <= 0 \/ lo <= hi)%Z).
Context (c : list val) (cb d : dst) (tb tx : ty) (L : where_) (t : ty) (h : objects).
Hypothesis HR : Rep c cb d tb tx L t h.

Lemma uint_numbered c0 s r s' c' : Forall (tok ct_char) s -> num_zero c d = Done c0 -> uint_run b lo hi d 0 c0 s = Done (r, s', c') ->
  exists h', numbered b false (firstn (taken b hi s) s) t L h h' /\ Wr c cb d L h' c'.
Proof.
  intros Hs H0 HU. destruct (rep_holds _ _ _ _ _ _ _ _ HR) as (v & HH & HP & _).
  destruct (uint_counted b lo hi Hb Hlh _ _ _ _ _ _ _ _ _ Hs HP H0 HU) as (v' & HC & Hc). destruct (becomes_total _ _ _ v' HH) as [h' Hh'].
  exists h'. split; [exists v, v'; auto|]. now apply (store_wr _ _ _ _ _ _ _ _ HR v v').
Qed.
Lemma int_numbered c0 s r s' c' : Forall (tok ct_char) s -> num_zero c d = Done c0 -> int_run b lo hi d c0 s = Done (r, s', c') ->
  exists h', numbered b (negative s) (firstn (taken b hi (unsigned s)) (unsigned s)) t L h h' /\ Wr c cb d L h' c'.
Proof.
  intros Hs H0 HU. destruct (rep_holds _ _ _ _ _ _ _ _ HR) as (v & HH & HP & _).
  destruct (int_counted b lo hi Hb Hlh _ _ _ _ _ _ _ _ _ Hs HP H0 HU) as (v' & HC & Hc). destruct (becomes_total _ _ _ v' HH) as [h' Hh'].
  exists h'. split; [exists v, v'; auto|]. now apply (store_wr _ _ _ _ _ _ _ _ HR v v').
Qed.
Lemma numbered_uint s h' : Forall (tok ct_char) s -> numbered b false (firstn (taken b hi s) s) t L h h' ->
  exists c0 r s' c', num_zero c d = Done c0 /\ uint_run b lo hi d 0 c0 s = Done (r, s', c') /\ Wr c cb d L h' c'.
Proof.
  intros Hs (v & v' & HH & HC & Hh'). assert (HP := rep_place _ _ _ _ _ _ _ _ HR _ HH).
  destruct (counted_uint b lo hi Hb Hlh _ _ _ _ _ _ Hs HP HC) as (c0 & r & s' & c' & H0 & H1 & H2). exists c0, r, s', c'. split; auto. split; auto.
  now apply (store_wr _ _ _ _ _ _ _ _ HR v v').
Qed.
Lemma numbered_int s h' : Forall (tok ct_char) s -> numbered b (negative s) (firstn (taken b hi (unsigned s)) (unsigned s)) t L h h' ->
  exists c0 r s' c', num_zero c d = Done c0 /\ int_run b lo hi d c0 s = Done (r, s', c') /\ Wr c cb d L h' c'.
Proof.
  intros Hs (v & v' & HH & HC & Hh'). assert (HP := rep_place _ _ _ _ _ _ _ _ HR _ HH).
  destruct (counted_int b lo hi Hb Hlh _ _ _ _ _ _ Hs HP HC) as (c0 & r & s' & c' & H0 & H1 & H2). exists c0, r, s', c'. split; auto. split; auto.
  now apply (store_wr _ _ _ _ _ _ _ _ HR v v').
Qed.
End Numbered.

Arguments Rep : simpl never.
Arguments Wr : simpl never.

(** ** Steps *)
Section Steps.
Context (env : nat -> option pat).

Lemma rep_step ws g c cb d tb tx L t h s r h1 k c1 : Rep c cb d tb tx L t h -> mb env ws g tb L t h s r h1 k -> Wr c cb d L h1 c1 -> Rep c1 cb d tb tx L t h1.
Proof. intros HR HM HW. eapply rep_wr; eauto. destruct HR as (_ & HF & HS & _). eapply mb_sound; eauto. Qed.
Lemma nil_step ws g c cb d tb tx L t h s r h1 k c1 : Rep c cb d tb tx L t h -> mb env ws g tb Nowhere TNil h s r h1 k -> Wr c cb DNil Nowhere h1 c1 ->
  Rep c1 cb d tb tx L t h1 /\ Wr c cb d L h1 c1.
Proof.
  intros HR HM HW. assert (HW' : Wr c cb d L h1 c1) by (eapply wr_nil; eauto; eapply mb_keep; eauto). split; auto. eapply rep_wr; eauto.
  destruct HR as (_ & HF & HS & _). eapply mb_sound; eauto. apply fits_no.
Qed.
Lemma part_step ws g c cb d di tb tx L t h q i tq Lq s r h1 k c1 : Rep c cb d tb tx L t h -> part_in q i t L tq Lq -> mb env ws g tb Lq tq h s r h1 k ->
  (forall h1 c1, (elsewhere Lq = true -> o_own h1 = o_own h) -> Wr c cb di Lq h1 c1 -> Wr c cb d L h1 c1) -> Wr c cb di Lq h1 c1 ->
  Rep c1 cb d tb tx L t h1 /\ Wr c cb d L h1 c1.
Proof.
  intros HR HA HM HP HW. assert (HW' : Wr c cb d L h1 c1) by (apply HP; auto; intros E; eapply mb_keep; eauto). split; auto. eapply rep_wr; eauto.
  destruct HR as (_ & HF & HS & _). eapply mb_sound; eauto. eapply fits_part; eauto.
Qed.
Lemma new_step ws g c cb d tb tx L t h t0 v0 s r h1 k c2 : Rep c cb d tb tx L t h -> shaped t0 v0 = true ->
  mb env ws g tb (the_own t0) t0 (Objects (o_bound h) v0) s r h1 k -> Wr (c ++ [v0]) cb (dst_cell (length c) t0) (the_own t0) h1 c2 ->
  exists cs y, c2 = cs ++ [y] /\ length cs = length c /\ (t0 <> TNil -> y = o_own h1) /\
    Rep cs cb d tb tx L t (Objects (o_bound h1) (o_own h)) /\ Wr c cb d L (Objects (o_bound h1) (o_own h)) cs.
Proof.
  intros HR Hv HM HW. eapply wr_new; eauto. assert (HR' := rep_new _ _ _ _ _ _ _ _ _ _ HR Hv). destruct HR' as (_ & HF & HS & _). eapply mb_sound; eauto.
Qed.
Lemma args_step ws g c cb d tb tx L t h args v0 s r h1 k c2 : Rep c cb d tb tx L t h -> shaped (TTuple args) v0 = true ->
  mb env ws g tb (InOwn []) (TTuple args) (Objects (o_bound h) v0) s r h1 k -> Wr (c ++ [v0]) cb (dst_cell (length c) (TTuple args)) (InOwn []) h1 c2 ->
  exists cs, c2 = cs ++ [o_own h1] /\ length cs = length c /\ (exists xs, o_own h1 = VTuple xs) /\
    Rep cs cb d tb tx L t (Objects (o_bound h1) (o_own h)) /\ Wr c cb d L (Objects (o_bound h1) (o_own h)) cs.
Proof.
  intros HR Hv HM HW. assert (HS : sound tb (TTuple args) h1).
  { assert (HR' := rep_args _ _ _ _ _ _ _ _ _ _ HR Hv). destruct HR' as (_ & HF & HS & _). eapply mb_sound; eauto. }
  destruct (wr_args _ _ _ _ _ _ _ _ _ _ _ _ HR HS HW) as (cs & -> & H1 & H2 & H3). exists cs. repeat split; auto; try apply H2.
  destruct HS as [_ HS]. apply shaped_tuple in HS as (xs & -> & _). eauto.
Qed.
End Steps.

(** An object of no type does not matter. *)
Lemma assigned_any t L x x' h h' : value_ty t = TNil -> assigned t L x h h' -> assigned t L x' h h'.
Proof. intros E (v & v' & H1 & H2 & H3). exists v, v'. repeat split; auto. eapply stored_any; eauto. Qed.
