(** The objects of a run keep the form their types give them. *)
From Coq Require Import List ZArith Bool Arith Lia.
From Verif Require Import Base CharSet Source Dst Pattern Parser Big Local.
Import ListNotations.

Section TyInd.
Variable P : ty -> Prop.
Hypothesis Hnil : P TNil.
Hypothesis Hnum : forall s b, P (TNum s b).
Hypothesis Hcoll : forall e, P e -> P (TColl e).
Hypothesis Htuple : forall l, Forall P l -> P (TTuple l).
Hypothesis Huser : forall i, P (TUser i).
Fixpoint ty_ind' (t : ty) : P t :=
  match t with
  | TNil => Hnil
  | TNum s b => Hnum s b
  | TColl e => Hcoll e (ty_ind' e)
  | TTuple l => Htuple l ((fix go (l : list ty) : Forall P l :=
                             match l with
                             | [] => Forall_nil P
                             | t :: r => Forall_cons t (ty_ind' t) (go r)
                             end) l)
  | TUser i => Huser i
  end.
End TyInd.

(** A tuple type is a tuple with that many elements. *)
Fixpoint shape (t : ty) (v : val) : bool :=
  match t with
  | TTuple ts =>
    match v with
    | VTuple vs =>
      (fix go (ts : list ty) (vs : list val) : bool :=
         match ts, vs with
         | [], [] => true
         | t :: ts, v :: vs => shape t v && go ts vs
         | _, _ => false
         end) ts vs
    | _ => false
    end
  | _ => true
  end.
Definition shapes (ts : list ty) (vs : list val) : Prop := Forall2 (fun t v => shape t v = true) ts vs.

Lemma shape_tuple ts v : shape (TTuple ts) v = true <-> exists vs, v = VTuple vs /\ shapes ts vs.
Proof.
  unfold shapes. cbn. split.
  - destruct v as [| | | |vs|]; try discriminate. intros H. exists vs. split; auto.
    revert vs H. induction ts as [|t ts IH]; intros [|v vs] H; try discriminate; constructor;
      apply andb_prop in H; destruct H; auto.
  - intros (vs & -> & H). induction H; auto. now rewrite H.
Qed.

Lemma shape_init t : shape t (value_init t) = true.
Proof.
  induction t using ty_ind'; auto. apply shape_tuple. cbn. eexists. split; [reflexivity|].
  unfold shapes. induction H; constructor; auto.
Qed.
Lemma shape_default t : shape t (default_init t) = true.
Proof. destruct t; auto. apply shape_init. Qed.

Lemma shape_has t : forall v, has_ty t v = true -> shape t v = true.
Proof.
  induction t using ty_ind'; auto. intros v Hv. cbn in Hv. destruct v as [| | | |vs|]; try discriminate.
  apply shape_tuple. exists vs. split; auto. revert vs Hv. unfold shapes.
  induction H as [|t ts Ht Hts IH]; intros [|v vs] Hv; try discriminate; constructor;
    apply andb_prop in Hv; destruct Hv; auto.
Qed.

Lemma shape_conv t v y : conv t v = Done y -> shape t y = true.
Proof.
  destruct t; auto. cbn [conv]. destruct v; try discriminate.
  - intros [= <-]. apply shape_init.
  - destruct (has_ty (TTuple l) (VTuple l0)) eqn:E; [|discriminate]. intros [= <-]. now apply shape_has.
Qed.

Lemma shape_make t v y : make_from t v = Done y -> shape t y = true.
Proof.
  destruct t; auto. unfold make_from. destruct v; try discriminate. apply shape_conv.
Qed.

(** Paths in types. *)
Fixpoint tpath (t : ty) (p : list nat) : option ty :=
  match p with
  | [] => Some t
  | k :: q => match t with
              | TTuple ts => match nth_error ts k with Some t' => tpath t' q | None => None end
              | _ => None
              end
  end.

Lemma tpath_app p : forall q t, tpath t (p ++ q) = match tpath t p with Some t' => tpath t' q | None => None end.
Proof.
  induction p as [|k p IH]; intros q t; cbn; auto. destruct t; auto. destruct (nth_error l k); auto.
Qed.

Lemma shapes_nth ts vs k t : shapes ts vs -> nth_error ts k = Some t ->
  exists v, nth_error vs k = Some v /\ shape t v = true.
Proof.
  intros H. revert k. induction H; intros [|k] E; try discriminate; cbn in *.
  - injection E as ->. eauto.
  - apply IHForall2. exact E.
Qed.
Lemma shapes_upd ts vs k t v : shapes ts vs -> nth_error ts k = Some t -> shape t v = true -> shapes ts (upd vs k v).
Proof.
  intros H. unfold shapes. revert k. induction H; intros [|k] E Hv; try discriminate; cbn in *; constructor; auto.
  congruence.
Qed.

Lemma shape_get p : forall t v t', shape t v = true -> tpath t p = Some t' ->
  exists x, get_path v p = Done x /\ shape t' x = true.
Proof.
  induction p as [|k p IH]; intros t v t' Hs Ht; cbn in *.
  - injection Ht as ->. eauto.
  - destruct t; try discriminate. destruct (nth_error l k) as [t1|] eqn:E; [|discriminate].
    apply shape_tuple in Hs. destruct Hs as (vs & -> & Hs). destruct (shapes_nth _ _ _ _ Hs E) as (y & -> & Hy). eauto.
Qed.
Lemma shape_set p : forall t v t' x, shape t v = true -> tpath t p = Some t' -> shape t' x = true ->
  exists v', set_path v p x = Done v' /\ shape t v' = true.
Proof.
  induction p as [|k p IH]; intros t v t' x Hs Ht Hx; cbn in *.
  - injection Ht as ->. eauto.
  - destruct t; try discriminate. destruct (nth_error l k) as [t1|] eqn:E; [|discriminate].
    apply shape_tuple in Hs. destruct Hs as (vs & -> & Hs). destruct (shapes_nth _ _ _ _ Hs E) as (y & -> & Hy).
    destruct (IH _ _ _ _ Hy Ht Hx) as (y' & -> & Hy'). eexists. split; [reflexivity|].
    apply shape_tuple. eexists. split; [reflexivity|]. eapply shapes_upd; eauto.
Qed.

(** Where a reference leads. *)
Definition dst_ok (G : list ty) (d : dst) : Prop :=
  match d with
  | DNil => True
  | DRef l p t => exists t0, nth_error G l = Some t0 /\ tpath t0 p = Some t
  end.

Lemma dst_ok_more G t d : dst_ok G d -> dst_ok (G ++ [t]) d.
Proof.
  destruct d as [|l p t']; cbn; auto. intros (t0 & A & B). exists t0. split; auto.
  rewrite nth_error_app1; auto. apply nth_error_Some. congruence.
Qed.
Lemma dst_ok_cell G t : dst_ok (G ++ [t]) (dst_cell (length G) t).
Proof.
  assert (nth_error (G ++ [t]) (length G) = Some t) as H by (rewrite nth_error_app2, Nat.sub_diag; auto).
  destruct t; cbn; eauto.
Qed.
Lemma dst_ok_seq G l i d d' : dst_ok G d -> seq_dst l i d = Done d' -> dst_ok G d'.
Proof.
  destruct d as [|lv p t]; cbn.
  - intros _ [= <-]. exact I.
  - intros (t0 & A & B). destruct (nth_error l i) as [q|]; [|discriminate]. destruct (ignores q); [intros [= <-]; exact I|].
    assert (dst_ok G (DRef lv p t)) as H0 by (cbn; eauto).
    destruct t; try (intros [= <-]; exact H0).
    destruct (nth_error l0 _) as [t'|] eqn:E; [|discriminate].
    assert (dst_ok G (DRef lv (p ++ [tuple_index1 l i - 1]) t')) as H1.
    { cbn. exists t0. split; auto. rewrite tpath_app, B. cbn. now rewrite E. }
    destruct t'; intros [= <-]; exact H1 || exact I.
Qed.

Lemma shapes_len G cs : shapes G cs -> length G = length cs.
Proof. induction 1; cbn; auto. Qed.
Lemma shapes_push G cs t v : shapes G cs -> shape t v = true -> shapes (G ++ [t]) (cs ++ [v]).
Proof. intros H Hv. apply Forall2_app; auto. Qed.
Lemma shapes_pop G cs t v : shapes (G ++ [t]) (cs ++ [v]) -> shapes G cs /\ shape t v = true.
Proof.
  intros H. apply Forall2_app_inv_l in H. destruct H as (l1 & l2 & H1 & H2 & E).
  inversion H2 as [|a b la lb Ha Hb]; subst. inversion Hb; subst. apply app_inj_tail in E. destruct E as [-> ->]. auto.
Qed.

Lemma shapes_store G cs d x cs' : shapes G cs -> dst_ok G d -> shape (dst_ty d) x = true ->
  store cs d x = Done cs' -> shapes G cs'.
Proof.
  intros Hs Hd Hx. destruct d as [|l p t]; cbn in *.
  - intros [= <-]. auto.
  - destruct Hd as (t0 & A & B). destruct (shapes_nth _ _ _ _ Hs A) as (v & -> & Hv). cbn.
    destruct (shape_set _ _ _ _ _ Hv B Hx) as (v' & -> & Hv'). cbn. intros [= <-]. eapply shapes_upd; eauto.
Qed.

Lemma shapes_assign G cs d v cs' : shapes G cs -> dst_ok G d -> assign cs d v = Done cs' -> shapes G cs'.
Proof.
  intros Hs Hd. destruct d as [|l p t]; cbn [assign].
  - intros [= <-]. auto.
  - destruct t;
      match goal with |- context [conv ?t v] => destruct (conv t v) as [y|] eqn:E; cbn [obind]; [|discriminate] end;
      try (intros H; eapply shapes_store; eauto; cbn [dst_ty]; eapply shape_conv; eauto; fail).
    destruct (load cs _) as [z|]; cbn [obind]; [|discriminate]. destruct z; try discriminate.
    intros H. eapply shapes_store; eauto.
Qed.
Lemma shapes_zero G cs d cs' : shapes G cs -> dst_ok G d -> num_zero cs d = Done cs' -> shapes G cs'.
Proof.
  intros Hs Hd. destruct d as [|l p []]; cbn [num_zero]; try discriminate.
  - intros [= <-]. auto.
  - intros H. eapply shapes_store; eauto.
Qed.
Lemma shapes_op f G cs d cs' : shapes G cs -> dst_ok G d -> num_op f cs d = Done cs' -> shapes G cs'.
Proof.
  intros Hs Hd. destruct d as [|l p []]; cbn [num_op]; try discriminate.
  - intros [= <-]. auto.
  - destruct (load cs _) as [[]|]; cbn [obind]; try discriminate.
    destruct (arith _ _ _); cbn [obind]; try discriminate. intros H. eapply shapes_store; eauto.
Qed.

Lemma shapes_uint G d b lo hi : dst_ok G d -> forall s cs cnt r s' cs',
  shapes G cs -> uint_run b lo hi d cnt cs s = Done (r, s', cs') -> shapes G cs'.
Proof.
  intros Hd. induction s as [|x t IH]; intros cs cnt r s' cs' Hs; cbn [uint_run].
  - intros [= <- <- <-]. auto.
  - destruct (digit_valid b x); [|intros [= <- <- <-]; auto].
    destruct (num_op _ cs d) as [c1|] eqn:E1; cbn [obind]; [|discriminate].
    destruct (num_op _ c1 d) as [c2|] eqn:E2; cbn [obind]; [|discriminate].
    assert (shapes G c2) by eauto using shapes_op.
    destruct (_ =? _)%Z; [intros [= <- <- <-]; auto|eauto].
Qed.
Lemma shapes_int G d b lo hi cs s r s' cs' : dst_ok G d -> shapes G cs ->
  int_run b lo hi d cs s = Done (r, s', cs') -> shapes G cs'.
Proof.
  intros Hd Hs. unfold int_run.
  destruct (match s with x :: t => _ | [] => (false, []) end) as [neg s1].
  destruct (uint_run _ _ _ _ _ _ _) as [[[r1 s2] c2]|] eqn:E; cbn [obind]; [|discriminate].
  assert (shapes G c2) by eauto using shapes_uint.
  unfold neg_cells. destruct neg; cbn [obind].
  - destruct (num_op _ c2 d) eqn:E2; cbn [obind]; [|discriminate]. intros [= <- <- <-]. eauto using shapes_op.
  - intros [= <- <- <-]. auto.
Qed.
Lemma shapes_sym_end G d valid m cs s r s' cs' : dst_ok G d -> shapes G cs ->
  sym_end d valid m cs s = Done (r, s', cs') -> shapes G cs'.
Proof.
  intros Hd Hs. unfold sym_end. destruct valid; [|intros [= <- <- <-]; auto].
  destruct (sym_value t); cbn [obind]; [|discriminate].
  destruct (assign cs d a) eqn:E; cbn [obind]; [|discriminate]. intros [= <- <- <-]. eauto using shapes_assign.
Qed.
Lemma shapes_sym G d : dst_ok G d -> forall s nx valid m cs r s' cs', shapes G cs ->
  sym_run d nx valid m cs s = Done (r, s', cs') -> shapes G cs'.
Proof.
  intros Hd. induction s as [|x t IH]; intros nx valid m cs r s' cs' Hs; cbn [sym_run].
  - now apply shapes_sym_end.
  - destruct (assoc x _) as [n'|]; [|now apply shapes_sym_end]. destruct (trie_val n'); [|eauto].
    destruct (trie_child n'); [|eauto].
    destruct (assign cs d v) eqn:E; cbn [obind]; [|discriminate]. intros [= <- <- <-]. eauto using shapes_assign.
Qed.

Lemma shapes_act G a v d c w w' : dst_ok G d -> dst_ok G (c_bound c) -> shapes G (q_c w) ->
  act_run a v d c w = Done w' -> shapes G (q_c w').
Proof.
  intros Hd Hb Hs. unfold act_run, act_dispatch. destruct (conv (ac_land a) v) as [x|]; [|discriminate]. cbn [w_cells w_src w_trace].
  assert (forall cs r, shapes G cs -> forall w1, (if ac_void a then Done (tt, World tt cs (Event (ac_id a) x :: q_t w))
             else m_assign d r (World tt cs (Event (ac_id a) x :: q_t w))) = Done w1 -> shapes G (w_cells (snd w1))) as HA.
  { intros cs r H0 [u w1]. destruct (ac_void a); [intros [= <- <-]; auto|].
    unfold m_assign, on_cells. cbn [w_cells]. destruct (assign cs d r) eqn:E; [|discriminate]. intros [= <- <-]. cbn. eauto using shapes_assign. }
  destruct (ac_param a).
  - destruct (load (q_c w) (c_bound c)) as [b|]; [|discriminate]. destruct (ac_fun a x b) as [r b'].
    destruct (c_bound c) as [|l p t] eqn:Eb.
    + match goal with |- context [match ?o with _ => _ end] => destruct o as [[u w1]|] eqn:E; [|discriminate] end.
      intros [= <-]. apply HA in E; auto.
    + destruct (has_ty t b') eqn:Eh; [|discriminate]. destruct (store (q_c w) (DRef l p t) b') as [cs|] eqn:Es; [|discriminate].
      match goal with |- context [match ?o with _ => _ end] => destruct o as [[u w1]|] eqn:E; [|discriminate] end.
      intros [= <-]. apply HA in E; auto. eapply shapes_store; eauto. cbn. now apply shape_has.
  - destruct (ac_fun a x VNil) as [r b'].
    match goal with |- context [match ?o with _ => _ end] => destruct o as [[u w1]|] eqn:E; [|discriminate] end.
    intros [= <-]. apply HA in E; auto.
Qed.

Section Ev.
Context (env : nat -> option pat).
Notation ev := (ev env).

Theorem ev_shape g c rq d p x w r w' : ev g c rq d p x w r w' ->
  forall G, dst_ok G d -> dst_ok G (c_bound c) -> shapes G (q_c w) -> shapes G (q_c w').
Proof.
  induction 1; intros G Hd Hb Hs; cbn [q_c with_c at_] in *; eauto using shapes_assign, dst_ok_seq.
  - (* atomic *) pose proof (shapes_len _ _ Hs) as HL. rewrite <- HL in *.
    eapply (shapes_assign G cs d); eauto. apply (shapes_pop _ cs (dst_value_ty d) v).
    apply IHev; [apply dst_ok_cell|now apply dst_ok_more|apply shapes_push; auto using shape_default].
  - pose proof (shapes_len _ _ Hs) as HL. rewrite <- HL in *. apply (shapes_pop _ cs (dst_value_ty d) v).
    apply IHev; [apply dst_ok_cell|now apply dst_ok_more|apply shapes_push; auto using shape_default].
  - exact (shapes_sym _ _ Hd _ _ _ _ _ _ _ _ Hs H).
  - exact (shapes_uint _ _ _ _ _ Hd _ _ _ _ _ _ (shapes_zero _ _ _ _ Hs Hd H) H0).
  - exact (shapes_int _ _ _ _ _ _ _ _ _ _ Hd (shapes_zero _ _ _ _ Hs Hd H) H0).
  - apply (IHev G); auto. exact I.
  - pose proof (shapes_len _ _ Hs) as HL. rewrite <- HL in *. eapply (shapes_assign G cs d); eauto. apply (shapes_pop _ cs (TTuple args) v).
    apply IHev; [apply (dst_ok_cell G (TTuple args))|now apply dst_ok_more|apply shapes_push; auto using shape_init].
  - pose proof (shapes_len _ _ Hs) as HL. rewrite <- HL in *. apply (shapes_pop _ cs (TTuple args) v).
    apply IHev; [apply (dst_ok_cell G (TTuple args))|now apply dst_ok_more|apply shapes_push; auto using shape_init].
  - pose proof (shapes_len _ _ Hs) as HL. rewrite <- HL in *. eapply (shapes_act G _ _ d c (SW s cs tr)); eauto. apply (shapes_pop _ cs (ac_land a) v).
    apply IHev; [apply dst_ok_cell|now apply dst_ok_more|apply shapes_push; auto using shape_default].
  - pose proof (shapes_len _ _ Hs) as HL. rewrite <- HL in *. apply (shapes_pop _ cs (ac_land a) v).
    apply IHev; [apply dst_ok_cell|now apply dst_ok_more|apply shapes_push; auto using shape_default].
  - apply (IHev G); auto. exact I.
  - apply IHev2; auto. apply IHev1; auto. exact I.
  - apply (IHev G); auto. exact I.
  - apply IHev2; auto. apply IHev1; auto. exact I.
Qed.

End Ev.
