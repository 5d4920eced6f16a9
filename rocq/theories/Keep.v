(** What no step of the machine changes: the number of cells, and anything about the source
    that its operations keep. *)
From Coq Require Import List ZArith Bool Arith Lia.
From Verif Require Import Base CharSet Source Dst Pattern Parser Rel.
Import ListNotations.

Lemma upd_length {A} (l : list A) i x : length (upd l i x) = length l.
Proof. revert i. induction l; intros [|i]; cbn; auto. Qed.

Lemma store_length c d x c' : store c d x = Done c' -> length c' = length c.
Proof.
  destruct d; cbn; [now intros [= <-]|].
  destruct (nth_error c lvl); cbn; [|discriminate].
  destruct (set_path v path x); cbn; [|discriminate]. intros [= <-]. apply upd_length.
Qed.

Lemma assign_length c d v c' : assign c d v = Done c' -> length c' = length c.
Proof.
  unfold assign. destruct d as [|l p t]; [now intros [= <-]|].
  assert (forall t', obind (conv t' v) (fun x => store c (DRef l p t) x) = Done c' ->
                     length c' = length c) as H.
  { intros t'. destruct (conv t' v); cbn [obind]; [|discriminate]. apply store_length. }
  destruct t; try apply (H _).
  destruct (conv t v); cbn [obind]; [|discriminate].
  destruct (load c _) as [x|]; cbn [obind]; [|discriminate].
  destruct x; try discriminate. apply store_length.
Qed.

Lemma num_zero_length c d c' : num_zero c d = Done c' -> length c' = length c.
Proof.
  unfold num_zero. destruct d as [|l p t]; [now intros [= <-]|].
  destruct t; try discriminate. apply store_length.
Qed.

Lemma num_op_length f c d c' : num_op f c d = Done c' -> length c' = length c.
Proof.
  unfold num_op. destruct d as [|l p t]; [now intros [= <-]|].
  destruct t; try discriminate.
  destruct (load c _) as [x|]; cbn [obind]; [|discriminate].
  destruct x; try discriminate. destruct (arith _ _ _); cbn [obind]; [|discriminate].
  apply store_length.
Qed.

Section Keep.
Context {S : Type} (ops : source_ops S) (J : S -> S -> Prop).
Hypothesis Jrefl : forall s, J s s.
Hypothesis Jtrans : forall a b c, J a b -> J b c -> J a c.
Hypothesis Jadv : forall s s', so_advance ops s = Done s' -> J s s'.
Hypothesis Jprep : forall s, J s (so_prepare ops s).
Hypothesis Jcom : forall s s', so_commit ops s = Done s' -> J s s'.
Hypothesis Jcan : forall s s', so_cancel ops s = Done s' -> J s s'.

Definition keeps {A} (m : M S A) : Prop := forall w a w',
  m w = Done (a, w') -> length (w_cells w') = length (w_cells w) /\ J (w_src w) (w_src w').

Lemma keeps_ret {A} (a : A) : keeps (ret a).
Proof. intros w b w' [= _ <-]. auto. Qed.

Lemma keeps_raise {A} e : keeps (@raise S A e).
Proof. intros w b w' H. discriminate. Qed.

Lemma keeps_bind {A B} (m : M S A) (f : A -> M S B) :
  keeps m -> (forall a, keeps (f a)) -> keeps (bind m f).
Proof.
  intros Hm Hf w b w' H. unfold bind in H. destruct (m w) as [[a w1]|] eqn:E; [|discriminate].
  apply Hm in E as [E1 E2]. apply Hf in H as [H1 H2]. split; [congruence|eauto].
Qed.

Lemma keeps_on_cells f :
  (forall c c', f c = Done c' -> length c' = length c) -> keeps (on_cells f).
Proof.
  intros Hf w a w' H. unfold on_cells in H. destruct (f (w_cells w)) eqn:E; [|discriminate].
  injection H as _ <-. cbn. eauto.
Qed.

Lemma keeps_pure {A} (f : world S -> outcome A) :
  keeps (fun w => match f w with Done a => Done (a, w) | Err e => Err e end).
Proof. intros w a w' H. destruct (f w); [|discriminate]. injection H as _ <-. auto. Qed.

Lemma keeps_empty : keeps (m_empty ops).
Proof. intros w a w' [= _ <-]. auto. Qed.
Lemma keeps_final : keeps (m_final ops).
Proof. intros w a w' [= _ <-]. auto. Qed.
Lemma keeps_next : keeps (m_next ops).
Proof. apply (keeps_pure (fun w => so_next ops (w_src w))). Qed.

Lemma keeps_src f : (forall s s', f s = Done s' -> J s s') -> keeps (m_src f).
Proof.
  intros Hf w a w' H. unfold m_src in H. destruct (f (w_src w)) eqn:E; [|discriminate].
  injection H as _ <-. cbn. auto.
Qed.

Lemma keeps_advance : keeps (m_advance ops).
Proof. now apply keeps_src. Qed.
Lemma keeps_prepare : keeps (m_prepare ops).
Proof. apply keeps_src. intros s s' [= <-]. auto. Qed.
Lemma keeps_commit : keeps (m_commit ops).
Proof. now apply keeps_src. Qed.
Lemma keeps_cancel : keeps (m_cancel ops).
Proof. now apply keeps_src. Qed.

Lemma keeps_assign d v : keeps (m_assign d v).
Proof. apply keeps_on_cells. intros. eapply assign_length; eauto. Qed.
Lemma keeps_num_zero d : keeps (on_cells (fun c => num_zero c d)).
Proof. apply keeps_on_cells. intros. eapply num_zero_length; eauto. Qed.
Lemma keeps_num_op f d : keeps (on_cells (fun c => num_op f c d)).
Proof. apply keeps_on_cells. intros. eapply num_op_length; eauto. Qed.

Lemma keeps_with_cell {A} v (f : nat -> M S A) : (forall l, keeps (f l)) -> keeps (with_cell v f).
Proof.
  intros Hf w a w' H. unfold with_cell in H.
  destruct (f _ _) as [[x w1]|] eqn:E; [|discriminate].
  destruct (nth_error (w_cells w1) _) eqn:En; [|discriminate].
  injection H as _ <-. cbn. apply Hf in E as [E1 E2]. cbn in E1, E2. split; auto.
  rewrite app_length in E1. cbn in E1. rewrite firstn_length. lia.
Qed.

Lemma keeps_act_dispatch a land d c : keeps (act_dispatch a land d c).
Proof.
  unfold act_dispatch. destruct (conv (ac_land a) land) as [v|]; [|apply keeps_raise].
  intros w x w' H.
  destruct (if ac_param a then load _ _ else _) as [b|]; [|discriminate].
  destruct (ac_fun a v b) as [r b'].
  destruct (if ac_param a then match c_bound c with _ => _ end else _) as [cells|] eqn:Es; [|discriminate].
  assert (length cells = length (w_cells w)) as Hl.
  { destruct (ac_param a); [|injection Es as <-; auto].
    destruct (c_bound c) eqn:Eb; [injection Es as <-; auto|].
    destruct (has_ty t b'); [|discriminate]. eapply store_length; eauto. }
  destruct (ac_void a).
  - injection H as _ <-. auto.
  - apply keeps_assign in H. cbn in H. rewrite Hl in H. exact H.
Qed.

Ltac step :=
  match goal with
  | |- keeps (ret _) => apply keeps_ret
  | |- keeps (raise _) => apply keeps_raise
  | |- keeps (bind _ _) => apply keeps_bind; [|intro]
  | |- keeps (on_cells (fun c => num_zero c _)) => apply keeps_num_zero
  | |- keeps (on_cells (fun c => num_op _ c _)) => apply keeps_num_op
  | |- keeps (m_empty _) => apply keeps_empty
  | |- keeps (m_final _) => apply keeps_final
  | |- keeps (m_next _) => apply keeps_next
  | |- keeps (m_advance _) => apply keeps_advance
  | |- keeps (m_prepare _) => apply keeps_prepare
  | |- keeps (m_commit _) => apply keeps_commit
  | |- keeps (m_cancel _) => apply keeps_cancel
  | |- keeps (m_assign _ _) => apply keeps_assign
  | |- keeps (with_cell _ _) => apply keeps_with_cell; intro
  | |- keeps (act_dispatch _ _ _ _) => apply keeps_act_dispatch
  | |- keeps (if ?b then _ else _) => destruct b
  | |- keeps (match ?x with _ => _ end) => destruct x
  | |- keeps (let '(_, _) := ?x in _) => destruct x
  end.

Definition skip_keeps (k : option (M S pst)) : Prop :=
  match k with None => True | Some a => keeps a end.

Lemma keeps_adapt k rq d p raw :
  skip_keeps k -> (forall rq d, keeps (raw rq d)) -> keeps (adapt ops k rq d p raw).
Proof.
  intros Hk Hr. unfold adapt. destruct k as [k|]; repeat (step || auto).
Qed.

Lemma keeps_create_in p : forall k rq d, skip_keeps k -> keeps (create_in ops k rq d p).
Proof.
  induction p using pat_ind'; intros k rq d Hk; cbn [create_in];
    apply keeps_adapt; auto; intros rq' d'; repeat step; auto.
  all: try (inversion H; subst; auto; fail).
  - apply IHp. exact I.
  - apply IHp1. destruct (is_fail p2); cbn; auto. apply IHp2. exact I.
Qed.

Lemma keeps_create c rq d p : keeps (create ops c rq d p).
Proof.
  apply keeps_create_in. unfold mk_skip_of. destruct (is_fail (c_skip c)); cbn; auto.
  apply keeps_create_in. exact I.
Qed.

Context (env : nat -> option pat).

Definition keeps_self (s : @consume_ty S) : Prop := forall c rq d p st, keeps (s c rq d p st).

Section Classes.
Context (s : @consume_ty S) (Hs : keeps_self s).

Ltac go := repeat step; auto using keeps_create.

Lemma keeps_seq_from c d l : forall rest i q a, keeps (seq_from ops s c d l i q rest a).
Proof. induction rest as [|q' rest IH]; intros; cbn; go. Qed.

Lemma keeps_alt_from c rq d : forall rest i q a, keeps (alt_from ops s c rq d i q rest a).
Proof. induction rest as [|q' rest IH]; intros; cbn; go. Qed.

Lemma keeps_step : keeps_self (consume_step ops env s).
Proof.
  intros c rq d p st. unfold consume_step.
  destruct st;
    [ unfold skip_consume | unfold clean_consume | unfold atomic_consume | .. ]; [go.. | | | | | | | | | | | | | | | ].
  all: destruct p; try apply keeps_raise; try apply keeps_ret;
    unfold char_consume, char_symbol_consume, eoi_consume, lit_consume, starved, sym_consume, sym_stop, uint_consume,
           int_consume, int_digit, int_negate, repeat_consume, not_consume, opt_consume,
           forward_consume, construct_consume, action_consume, except_consume, list_consume,
           recur_consume.
  all: try (unfold nary_enter; repeat step; first [apply keeps_seq_from | apply keeps_alt_from]).
  all: go.
Qed.
End Classes.

Lemma keeps_consume n : keeps_self (consume ops env n).
Proof.
  induction n as [|n IH]; cbn; [intros c rq d p st; apply keeps_raise|now apply keeps_step].
Qed.

End Keep.
