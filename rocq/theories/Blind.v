(** Two runs of the same pattern over the same text that differ in their destinations, in
    what they bind and in the marks already on the stack: they take the same decisions. *)
From Coq Require Import List ZArith Bool Arith Lia.
From Verif Require Import Base CharSet Source Dst Pattern Parser Session Rel.
Import ListNotations.

(** Objects that differ in their buffers only. *)
Fixpoint alike (a b : pst) : Prop :=
  match a, b with
  | PSkip d s c, PSkip d' s' c' => d = d' /\ alike s s' /\ alike c c'
  | PClean c, PClean c' | PNot c, PNot c' | POpt c, POpt c' | POne c, POne c' => alike c c'
  | PAtomic _ c, PAtomic _ c' | PAction _ c, PAction _ c' | PConstruct _ c, PConstruct _ c' => alike c c'
  | PLeaf, PLeaf => True
  | PLit l, PLit l' => l = l'
  | PSym n v, PSym n' v' => n = n' /\ v = v'
  | PUInt n, PUInt n' => n = n'
  | PInt n l g, PInt n' l' g' => n = n' /\ l = l' /\ g = g'
  | PNary i c, PNary i' c' | PExcept i c, PExcept i' c' | PListSt i c, PListSt i' c'
  | PRepeat i c, PRepeat i' c' => i = i' /\ alike c c'
  | PRecur None, PRecur None => True
  | PRecur (Some c), PRecur (Some c') => alike c c'
  | _, _ => False
  end.

Section Blind.
Context (base : list (list Z)).

Definition Bw (w1 w2 : world sfwd) : Prop :=
  sf_cur (w_src w1) = sf_cur (w_src w2) /\ sf_stack (w_src w2) = sf_stack (w_src w1) ++ base.

Definition excused {A} (o : outcome A) : Prop := match o with Err e => e <> EFuel | Done _ => False end.

Definition bout {A} (RA : A -> A -> Prop) (o1 o2 : outcome (A * world sfwd)) : Prop :=
  excused o1 \/ excused o2 \/
  match o1, o2 with
  | Done (a, w1), Done (b, w2) => RA a b /\ Bw w1 w2
  | Err EFuel, Err EFuel => True
  | _, _ => False
  end.

Definition bsim {A} (RA : A -> A -> Prop) (m1 m2 : M sfwd A) : Prop :=
  forall w1 w2, Bw w1 w2 -> bout RA (m1 w1) (m2 w2).

Definition ans (a b : result * pst) : Prop := fst a = fst b /\ alike (snd a) (snd b).
Definition ansv {A} (RA : A -> A -> Prop) (a b : A * val) : Prop := RA (fst a) (fst b).

Lemma bsim_ret {A} (RA : A -> A -> Prop) a b : RA a b -> bsim RA (ret a) (ret b).
Proof. intros H w1 w2 Hw. right; right. split; auto. Qed.

Lemma bsim_raise1 {A} (RA : A -> A -> Prop) e m : e <> EFuel -> bsim RA (raise e) m.
Proof. intros H w1 w2 Hw. left. exact H. Qed.

Lemma bsim_raise2 {A} (RA : A -> A -> Prop) e m : e <> EFuel -> bsim RA m (raise e).
Proof. intros H w1 w2 Hw. right; left. exact H. Qed.

Lemma bsim_fuel {A} (RA : A -> A -> Prop) : bsim RA (raise EFuel) (raise EFuel).
Proof. intros w1 w2 Hw. right; right. exact I. Qed.

Lemma bsim_bind {A B} (RA : A -> A -> Prop) (RB : B -> B -> Prop) m1 m2 f1 f2 :
  bsim RA m1 m2 -> (forall a b, RA a b -> bsim RB (f1 a) (f2 b)) -> bsim RB (bind m1 f1) (bind m2 f2).
Proof.
  intros Hm Hf w1 w2 H. unfold bind. specialize (Hm w1 w2 H). unfold bout in Hm.
  destruct (m1 w1) as [[a w1']|e1], (m2 w2) as [[b w2']|e2]; cbn in Hm.
  - destruct Hm as [[]|[[]|[Ha Hw]]]. now apply Hf.
  - destruct Hm as [[]|[?|[]]]. now right; left.
  - destruct Hm as [?|[[]|E]]; [now left|]. destruct e1; contradiction.
  - destruct Hm as [?|[?|E]]; [now left|now right; left|].
    destruct e1, e2; try contradiction. now right; right.
Qed.

Lemma bsim_src f1 f2 :
  (forall a b, sf_cur a = sf_cur b -> sf_stack b = sf_stack a ++ base ->
     match f1 a, f2 b with
     | Done a', Done b' => sf_cur a' = sf_cur b' /\ sf_stack b' = sf_stack a' ++ base
     | Err e, _ => e <> EFuel
     | _, Err e => e <> EFuel
     end) -> bsim eq (m_src f1) (m_src f2).
Proof.
  intros Hf w1 w2 [Hc Hs]. unfold m_src, bout. specialize (Hf _ _ Hc Hs).
  destruct (f1 (w_src w1)), (f2 (w_src w2)); cbn; auto 6.
Qed.

Lemma bsim_empty : bsim eq (m_empty sf_ops) (m_empty sf_ops).
Proof.
  intros w1 w2 H. right; right. split; auto. cbn. unfold sf_empty. now rewrite (proj1 H).
Qed.
Lemma bsim_final : bsim eq (m_final sf_ops) (m_final sf_ops).
Proof. intros w1 w2 H. right; right. split; auto. Qed.
Lemma bsim_next : bsim eq (m_next sf_ops) (m_next sf_ops).
Proof.
  intros w1 w2 H. unfold m_next, bout. cbn. unfold sf_next. rewrite (proj1 H).
  destruct (sf_cur (w_src w2)); cbn; auto. left. discriminate.
Qed.
Lemma bsim_advance : bsim eq (m_advance sf_ops) (m_advance sf_ops).
Proof.
  apply bsim_src. intros a b Hc Hs. cbn. unfold sf_advance. rewrite Hc.
  destruct (sf_cur b); [discriminate|]. cbn. auto.
Qed.
Lemma bsim_prepare : bsim eq (m_prepare sf_ops) (m_prepare sf_ops).
Proof. apply bsim_src. intros a b Hc Hs. cbn. rewrite Hc, Hs. auto. Qed.
Lemma bsim_commit : bsim eq (m_commit sf_ops) (m_commit sf_ops).
Proof.
  apply bsim_src. intros a b Hc Hs. cbn. unfold sf_commit. rewrite Hs.
  destruct (sf_stack a) as [|m st]; [destruct base; discriminate|]. cbn. auto.
Qed.
Lemma bsim_cancel : bsim eq (m_cancel sf_ops) (m_cancel sf_ops).
Proof.
  apply bsim_src. intros a b Hc Hs. cbn. unfold sf_cancel. rewrite Hs.
  destruct (sf_stack a) as [|m st]; [destruct base; discriminate|]. cbn. auto.
Qed.

(** An operation on the cells never runs out of fuel. *)
Definition dry (f : list val -> outcome (list val)) : Prop := forall c, f c <> Err EFuel.

Lemma bsim_on_cells f1 f2 : dry f1 -> dry f2 -> bsim eq (on_cells f1) (on_cells f2).
Proof.
  intros H1 H2 w1 w2 H. unfold on_cells, bout. specialize (H1 (w_cells w1)). specialize (H2 (w_cells w2)).
  destruct (f1 (w_cells w1)), (f2 (w_cells w2)); cbn; try (left; congruence); try (right; left; congruence).
  right; right. split; auto.
Qed.

Lemma dry_get_path p : forall v, get_path v p <> Err EFuel.
Proof.
  induction p as [|i p IH]; intros v; cbn; [discriminate|].
  destruct v; try discriminate. destruct (nth_error l i); [auto|discriminate].
Qed.
Lemma dry_set_path p x : forall v, set_path v p x <> Err EFuel.
Proof.
  induction p as [|i p IH]; intros v; cbn; [discriminate|].
  destruct v; try discriminate. destruct (nth_error l i); [|discriminate].
  specialize (IH v). destruct (set_path v p x); cbn; congruence.
Qed.
Lemma dry_load c d : load c d <> Err EFuel.
Proof.
  destruct d as [|l p t]; cbn; [discriminate|]. destruct (nth_error c l); cbn; [apply dry_get_path|discriminate].
Qed.
Lemma dry_store c d x : store c d x <> Err EFuel.
Proof.
  destruct d as [|l p t]; cbn; [discriminate|]. destruct (nth_error c l); cbn; [|discriminate].
  pose proof (dry_set_path p x v). destruct (set_path v p x); cbn; congruence.
Qed.
Lemma dry_conv t v : conv t v <> Err EFuel.
Proof. destruct t, v; cbn; try discriminate; destruct (_ : bool); discriminate. Qed.
Lemma dry_arith s b z : arith s b z <> Err EFuel.
Proof. unfold arith. destruct (_ && _)%bool; [destruct (in_range s b z)|]; discriminate. Qed.
Lemma dry_assign d v : dry (fun c => assign c d v).
Proof.
  intros c. unfold assign. destruct d as [|l p t]; [discriminate|].
  destruct t;
    match goal with |- obind (conv ?t v) _ <> _ => pose proof (dry_conv t v); destruct (conv t v); cbn [obind]; [|congruence] end;
    try apply dry_store.
  pose proof (dry_load c (DRef l p (TColl t))). destruct (load c _); cbn [obind]; [|congruence].
  destruct a0; try discriminate. apply dry_store.
Qed.
Lemma dry_zero d : dry (fun c => num_zero c d).
Proof. intros c. destruct d as [|l p []]; cbn [num_zero]; try discriminate. apply dry_store. Qed.
Lemma dry_op f d : dry (fun c => num_op f c d).
Proof.
  intros c. destruct d as [|l p t]; unfold num_op; try discriminate. destruct t; try discriminate.
  pose proof (dry_load c (DRef l p (TNum signed bits))). destruct (load c _) as [v|]; cbn [obind]; [|congruence].
  destruct v; try discriminate.
  pose proof (dry_arith signed bits (f z)). destruct (arith _ _ _); cbn [obind]; [|congruence].
  apply dry_store.
Qed.

Lemma bsim_assign d1 v1 d2 v2 : bsim eq (m_assign d1 v1) (m_assign d2 v2).
Proof. apply bsim_on_cells; apply dry_assign. Qed.

Lemma bsim_with_cell {A} (RA : A -> A -> Prop) v1 v2 f1 f2 :
  (forall l1 l2, bsim RA (f1 l1) (f2 l2)) -> bsim (ansv RA) (with_cell v1 f1) (with_cell v2 f2).
Proof.
  intros Hf w1 w2 Hw. unfold with_cell, bout.
  specialize (Hf (length (w_cells w1)) (length (w_cells w2))
    (World (w_src w1) (w_cells w1 ++ [v1]) (w_trace w1)) (World (w_src w2) (w_cells w2 ++ [v2]) (w_trace w2)) Hw).
  unfold bout in Hf.
  destruct (f1 _ _) as [[a w1']|e1], (f2 _ _) as [[b w2']|e2]; cbn in Hf.
  - destruct Hf as [[]|[[]|[Ha Hw']]].
    destruct (nth_error (w_cells w1') _); [|left; discriminate].
    destruct (nth_error (w_cells w2') _); [|right; left; discriminate].
    right; right. split; auto.
  - destruct Hf as [[]|[?|[]]]. now right; left.
  - destruct Hf as [?|[[]|E]]; [now left|]. destruct e1; contradiction.
  - destruct Hf as [?|[?|E]]; [now left|now right; left|].
    destruct e1, e2; try contradiction. now right; right.
Qed.

(** Everything act_dispatch touches is out of sight. *)
Lemma act_same a l d c w :
  match @act_dispatch sfwd a l d c w with
  | Done (_, w') => w_src w' = w_src w
  | Err e => e <> EFuel
  end.
Proof.
  unfold act_dispatch. pose proof (dry_conv (ac_land a) l). destruct (conv (ac_land a) l) as [v|]; cbn; [|congruence].
  pose proof (dry_load (w_cells w) (c_bound c)).
  destruct (if ac_param a then load (w_cells w) (c_bound c) else Done VNil) as [b|] eqn:E1.
  2:{ destruct (ac_param a); congruence. }
  destruct (ac_fun a v b) as [r b'].
  match goal with |- context [if ac_param a then ?x else Done (w_cells w)] =>
    assert ((if ac_param a then x else Done (w_cells w)) <> Err EFuel) as E2;
    [|destruct (if ac_param a then x else Done (w_cells w)) as [cs|]] end.
  { destruct (ac_param a); [|discriminate]. destruct (c_bound c) as [|lv pa t]; [discriminate|].
    pose proof (dry_store (w_cells w) (DRef lv pa t) b'). destruct (has_ty t b'); [assumption|discriminate]. }
  2:{ congruence. }
  destruct (ac_void a); [reflexivity|]. unfold m_assign, on_cells. cbn [w_cells].
  pose proof (dry_assign d r cs) as E3. cbn in E3. destruct (assign cs d r); [reflexivity|congruence].
Qed.

Lemma bsim_act a l1 l2 d1 d2 c1 c2 : bsim eq (act_dispatch a l1 d1 c1) (act_dispatch a l2 d2 c2).
Proof.
  intros w1 w2 Hw. unfold bout. pose proof (act_same a l1 d1 c1 w1). pose proof (act_same a l2 d2 c2 w2).
  destruct (act_dispatch a l1 d1 c1 w1) as [[[] w1']|], (act_dispatch a l2 d2 c2 w2) as [[[] w2']|]; cbn; auto.
  right; right. split; auto. unfold Bw. cbn in H, H0. rewrite H, H0. exact Hw.
Qed.

Definition skip_sim (k1 k2 : option (M sfwd pst)) : Prop :=
  match k1, k2 with
  | None, None => True
  | Some a, Some b => bsim alike a b
  | _, _ => False
  end.

Lemma dry_seq_dst l i d : seq_dst l i d <> Err EFuel.
Proof.
  unfold seq_dst. destruct d; [discriminate|]. destruct (nth_error l i); [|discriminate].
  destruct (ignores p); [discriminate|]. destruct t; try discriminate.
  destruct (nth_error l0 _) as [[]|]; discriminate.
Qed.
Lemma dry_make_from t v : make_from t v <> Err EFuel.
Proof.
  unfold make_from. destruct v; try discriminate. destruct t; try discriminate.
  - destruct l as [|? [|]]; discriminate.
  - destruct l as [|? [|]]; try discriminate. apply dry_conv.
  - apply dry_conv.
Qed.

Ltac step :=
  match goal with
  | |- bsim _ (raise ?e) (raise ?e) => first [apply bsim_fuel | apply bsim_raise1; discriminate]
  | |- bsim _ (raise _) _ => apply bsim_raise1; congruence
  | |- bsim _ _ (raise _) => apply bsim_raise2; congruence
  | |- bsim _ (ret _) (ret _) => apply bsim_ret
  | |- bsim eq (on_cells _) (on_cells _) => apply bsim_on_cells; solve [auto using dry_zero, dry_op, dry_assign]
  | |- bsim _ (m_empty _) (m_empty _) => apply bsim_empty
  | |- bsim _ (m_final _) (m_final _) => apply bsim_final
  | |- bsim _ (m_next _) (m_next _) => apply bsim_next
  | |- bsim _ (m_advance _) (m_advance _) => apply bsim_advance
  | |- bsim _ (m_prepare _) (m_prepare _) => apply bsim_prepare
  | |- bsim _ (m_commit _) (m_commit _) => apply bsim_commit
  | |- bsim _ (m_cancel _) (m_cancel _) => apply bsim_cancel
  | |- bsim _ (m_assign _ _) (m_assign _ _) => apply bsim_assign
  | |- bsim _ (act_dispatch _ _ _ _) (act_dispatch _ _ _ _) => apply bsim_act
  | |- bsim _ (with_cell _ _) (with_cell _ _) => apply bsim_with_cell; intros ? ?
  | |- bsim _ (if ?b then _ else _) (if ?b then _ else _) => destruct b
  | |- bsim _ (match seq_dst ?l ?i ?d with _ => _ end) _ =>
      let E := fresh "E" in pose proof (dry_seq_dst l i d) as E; destruct (seq_dst l i d)
  | |- bsim _ _ (match seq_dst ?l ?i ?d with _ => _ end) =>
      let E := fresh "E" in pose proof (dry_seq_dst l i d) as E; destruct (seq_dst l i d)
  | |- bsim _ (match make_from ?t ?v with _ => _ end) _ =>
      let E := fresh "E" in pose proof (dry_make_from t v) as E; destruct (make_from t v)
  | |- bsim _ _ (match make_from ?t ?v with _ => _ end) =>
      let E := fresh "E" in pose proof (dry_make_from t v) as E; destruct (make_from t v)
  end.
Ltac tidy :=
  unfold ans, ansv in * |-; cbn [fst snd alike] in * |-; subst;
  repeat match goal with
  | H : _ /\ _ |- _ => destruct H
  | H : False |- _ => destruct H
  end; subst; cbn [fst snd].
Ltac bindt R := eapply bsim_bind with (RA := R).

Lemma bsim_adapt k1 k2 rq d1 d2 p raw1 raw2 :
  skip_sim k1 k2 -> (forall rq d1 d2, bsim alike (raw1 rq d1) (raw2 rq d2)) ->
  bsim alike (adapt sf_ops k1 rq d1 p raw1) (adapt sf_ops k2 rq d2 p raw2).
Proof.
  intros Hk Hr. unfold adapt.
  destruct (r_recur rq); auto.
  set (A1 := fun rq : req => if r_atomic rq && negb (f_atomic p)
     then bind (with_cell (default_init (dst_value_ty d1))
            (fun lvl => raw1 (unatomic_req rq) (dst_cell lvl (dst_value_ty d1))))
          (fun x => ret (PAtomic (snd x) (fst x))) else raw1 rq d1).
  set (A2 := fun rq : req => if r_atomic rq && negb (f_atomic p)
     then bind (with_cell (default_init (dst_value_ty d2))
            (fun lvl => raw2 (unatomic_req rq) (dst_cell lvl (dst_value_ty d2))))
          (fun x => ret (PAtomic (snd x) (fst x))) else raw2 rq d2).
  assert (forall rq, bsim alike (A1 rq) (A2 rq)) as HA.
  { intros rq'. unfold A1, A2. destruct (_ && _)%bool; auto.
    bindt (@ansv pst alike); [step; auto|]. intros [a v] [b v'] E. apply bsim_ret. exact E. }
  assert (bsim alike (if r_clean rq && negb (f_clean p) then c <- A1 (unclean_req rq);; m_prepare sf_ops;;; ret (PClean c) else A1 rq)
                     (if r_clean rq && negb (f_clean p) then c <- A2 (unclean_req rq);; m_prepare sf_ops;;; ret (PClean c) else A2 rq)) as HC.
  { destruct (_ && _)%bool; auto. bindt alike; auto. intros. bindt (@eq unit); [step|]. intros. apply bsim_ret. auto. }
  destruct k1 as [k1|], k2 as [k2|]; try contradiction; auto.
  bindt alike; auto. intros. bindt alike; auto. intros. apply bsim_ret. cbn. auto.
Qed.

Lemma bsim_create_in p : forall k1 k2 rq d1 d2,
  skip_sim k1 k2 -> bsim alike (create_in sf_ops k1 rq d1 p) (create_in sf_ops k2 rq d2 p).
Proof.
  induction p using pat_ind'; intros k1 k2 rq d1 d2 Hk; cbn [create_in];
    apply bsim_adapt; auto; intros rq' e1 e2; repeat step; cbn; auto.
  - bindt (@eq unit); [step|]. intros. apply bsim_ret. reflexivity.
  - bindt (@eq unit); [step|]. intros. apply bsim_ret. cbn. auto.
  - destruct l; [apply bsim_raise1; discriminate|]. inversion H; subst. repeat step.
    bindt alike; auto. intros. apply bsim_ret. cbn. auto.
  - destruct l; [apply bsim_raise1; discriminate|]. inversion H; subst.
    bindt alike; auto. intros. apply bsim_ret. cbn. auto.
  - bindt alike; auto. intros. apply bsim_ret. cbn. auto.
  - bindt alike; auto. intros. bindt (@eq unit); [step|]. intros. apply bsim_ret. auto.
  - bindt alike; auto. intros. bindt (@eq unit); [step|]. intros. apply bsim_ret. auto.
  - bindt alike; auto. intros. apply bsim_ret. cbn. auto.
  - bindt alike; [apply IHp; exact I|]. intros. apply bsim_ret. cbn. auto.
  - bindt alike. { apply IHp1. destruct (is_fail p2); cbn; auto. apply IHp2. exact I. }
    intros. apply bsim_ret. cbn. auto.
  - bindt alike; auto. intros. apply bsim_ret. cbn. auto.
  - bindt (@ansv pst alike); [step; auto|]. intros [] [] E. apply bsim_ret. exact E.
  - bindt (@ansv pst alike); [step; auto|]. intros [] [] E. apply bsim_ret. exact E.
  - bindt alike; auto. intros. apply bsim_ret. cbn. auto.
  - bindt alike; auto. intros. bindt (@eq unit); [step|]. intros. apply bsim_ret. cbn. auto.
Qed.

Lemma skip_sim_of c1 c2 : c_skip c1 = c_skip c2 -> skip_sim (mk_skip_of sf_ops c1) (mk_skip_of sf_ops c2).
Proof.
  intros E. unfold mk_skip_of. rewrite E. destruct (is_fail (c_skip c2)); cbn; auto. apply bsim_create_in. exact I.
Qed.

Lemma bsim_create c1 c2 rq d1 d2 p :
  c_skip c1 = c_skip c2 -> bsim alike (create sf_ops c1 rq d1 p) (create sf_ops c2 rq d2 p).
Proof. intros. apply bsim_create_in, skip_sim_of. auto. Qed.

Context (env : nat -> option pat).

Definition bself (s1 s2 : @consume_ty sfwd) : Prop :=
  forall c1 c2 rq d1 d2 p a b, c_skip c1 = c_skip c2 -> alike a b ->
  bsim ans (s1 c1 rq d1 p a) (s2 c2 rq d2 p b).

Section Classes.
Context (s1 s2 : @consume_ty sfwd) (Hs : bself s1 s2).

Ltac pick :=
  match goal with
  | |- bsim _ (bind ?m _) _ =>
    match type of m with
    | M _ (result * pst) => bindt ans
    | M _ pst => bindt alike
    | M _ ((result * pst) * val) => bindt (@ansv (result * pst) ans)
    | M _ ?T => bindt (@eq T)
    end
  end.
Ltac go1 := first
  [ step
  | pick; [|intros; tidy]
  | apply Hs; cbn [c_skip alike]; auto
  | apply bsim_create; auto
  | match goal with
    | H : fst ?x = fst ?y |- bsim _ (match fst ?x with _ => _ end) _ => rewrite H; clear H; destruct (fst y)
    end
  | match goal with |- ans _ _ => split; cbn; auto end ].
Ltac go := repeat go1.
Ltac open_up :=
  match goal with
  | |- bsim _ (let '(_, _) := ?x in _) (let '(_, _) := ?y in _) =>
      destruct x as [[? ?] ?], y as [[r' ?] ?]; tidy; destruct r'
  end.

Lemma bsim_seq_from c1 c2 d1 d2 l : c_skip c1 = c_skip c2 -> forall rest i q a b, alike a b ->
  bsim ans (seq_from sf_ops s1 c1 d1 l i q rest a) (seq_from sf_ops s2 c2 d2 l i q rest b).
Proof.
  intros Hc. induction rest as [|q' rest IH]; intros; cbn; go.
  apply IH; auto.
Qed.

Lemma bsim_alt_from c1 c2 rq d1 d2 : c_skip c1 = c_skip c2 -> forall rest i q a b, alike a b ->
  bsim ans (alt_from sf_ops s1 c1 rq d1 i q rest a) (alt_from sf_ops s2 c2 rq d2 i q rest b).
Proof.
  intros Hc. induction rest as [|q' rest IH]; intros; cbn; go.
  apply IH; auto.
Qed.

Lemma bsim_nary l i k1 k2 :
  (forall q rest, bsim ans (k1 q rest) (k2 q rest)) -> bsim ans (nary_enter sf_ops l i k1) (nary_enter sf_ops l i k2).
Proof.
  intros Hk. unfold nary_enter. destruct (_ && _)%bool; [apply bsim_raise1; discriminate|].
  destruct (skipn i l); [apply bsim_raise1; discriminate|auto].
Qed.

Lemma bsim_step : bself (consume_step sf_ops env s1) (consume_step sf_ops env s2).
Proof.
  intros c1 c2 rq d1 d2 p a b Hc H. unfold consume_step.
  destruct a, b; try contradiction; try (destruct c as [c|]; contradiction); cbn [alike] in H; tidy.
  - unfold skip_consume. rewrite Hc. go; auto.
  - unfold clean_consume. go; auto.
  - unfold atomic_consume. go; auto. open_up; go; auto.
  - destruct p; go; unfold char_consume, char_symbol_consume, eoi_consume, starved; go; auto.
    match goal with |- context [assoc ?x ?y] => destruct (assoc x y) end; go; auto.
  - destruct p; go. unfold lit_consume, starved. destruct rest0; go; auto.
  - destruct p; go. unfold sym_consume.
    assert (bsim ans (sym_stop sf_ops d1 next0 valid0) (sym_stop sf_ops d2 next0 valid0)) as Hst.
    { unfold sym_stop. destruct valid0 as [t|]; [|go; cbn; auto].
      unfold sym_value. destruct (trie_val t); cbn [of_option]; go; cbn; auto. }
    go; auto; cbn; auto.
    match goal with |- context [assoc ?x ?y] => destruct (assoc x y) as [t|] end; auto.
    pick; [step|]. intros _ _ _. destruct (trie_val t); [|go; auto].
    pick; [destruct valid0; go; auto|]. intros _ _ _. destruct (trie_child t); go; cbn; auto.
  - destruct p; go. unfold uint_consume. go; auto.
  - destruct p; go. unfold int_consume, int_digit, int_negate. go; auto; cbn; auto.
  - destruct p; go; apply bsim_nary; intros; [apply bsim_seq_from|apply bsim_alt_from]; auto.
  - destruct p; go. unfold except_consume. destruct i0 as [|[|]]; go; auto.
  - destruct p; go. unfold list_consume. destruct i0 as [|[|]]; go; auto.
  - destruct p; go. unfold repeat_consume. go; auto.
  - destruct p; go. unfold not_consume. go; auto.
  - destruct p; go. unfold opt_consume. go; auto.
  - destruct p; go; unfold forward_consume; go; auto.
  - destruct p; go. unfold action_consume. go; auto. open_up; go; auto.
  - destruct p; go. unfold construct_consume. go; auto. open_up; go; auto.
  - destruct p; go. unfold recur_consume. destruct (env id); [|go].
    destruct c as [c|], c0 as [c0|]; try contradiction; go; cbn; auto.
Qed.
End Classes.

Lemma bsim_consume n : bself (consume sf_ops env n) (consume sf_ops env n).
Proof.
  induction n as [|n IH]; intros c1 c2 rq d1 d2 p a b Hc H.
  - apply bsim_fuel.
  - cbn. now apply bsim_step.
Qed.

End Blind.
