(** The same for any data source: a parser object reaches the rest of the program through its
    destination and the bound destination only. *)
From Coq Require Import List ZArith Bool Arith Lia.
From Verif Require Import Base CharSet Source Dst Pattern Parser Session Rel Local.
Import ListNotations.

Section Any.
Context {U : Type} (ops : source_ops U).
(** The objects around, the place of the destination among them (none: Nil), the calls made
    before, on either side. *)
Context (C : list val) (hole : option (nat * list nat)) (T1 T2 : list event).
Notation Cr := (Cr C hole).
Notation Dr := (Dr C hole).
Notation cells_sim := (cells_sim C hole).
Local Hint Resolve Dr_nil : core.

Definition Lw (w1 w2 : world U) : Prop :=
  w_src w1 = w_src w2 /\ Cr (w_cells w1) (w_cells w2) /\ exists k, w_trace w1 = k ++ T1 /\ w_trace w2 = k ++ T2.

Definition xsim {A} (m1 m2 : M U A) : Prop :=
  forall w1 w2, Lw w1 w2 ->
  match m1 w1 with
  | Done (a, w1') => exists w2', m2 w2 = Done (a, w2') /\ Lw w1' w2'
  | Err e => m2 w2 = Err e
  end.

Lemma xsim_ret {A} (a : A) : xsim (ret a) (ret a).
Proof. intros w1 w2 H. exists w2. split; [reflexivity|exact H]. Qed.
Lemma xsim_raise {A} e : xsim (@raise U A e) (@raise U A e).
Proof. intros w1 w2 H. cbn. auto. Qed.
Lemma xsim_bind {A B} (m1 m2 : M U A) (f1 f2 : A -> M U B) :
  xsim m1 m2 -> (forall a, xsim (f1 a) (f2 a)) -> xsim (bind m1 f1) (bind m2 f2).
Proof.
  intros Hm Hf w1 w2 H. unfold bind. specialize (Hm w1 w2 H).
  destruct (m1 w1) as [[a w1']|e].
  - destruct Hm as (w2' & -> & H'). apply (Hf a _ _ H').
  - now rewrite Hm.
Qed.

Lemma xsim_on_cells f1 f2 : cells_sim f1 f2 -> xsim (on_cells f1) (on_cells f2).
Proof.
  intros Hf w1 w2 (H1 & H3 & H4). unfold on_cells. specialize (Hf _ _ H3).
  destruct (f1 (w_cells w1)).
  - destruct Hf as (c2' & -> & Hc). eexists. split; [reflexivity|]. unfold Lw. cbn. auto.
  - rewrite Hf. auto.
Qed.

Lemma xsim_assign d1 d2 v : Dr d1 d2 -> xsim (m_assign d1 v) (m_assign d2 v).
Proof. intros. now apply xsim_on_cells, assign_sim. Qed.

Lemma xsim_empty : xsim (m_empty ops) (m_empty ops).
Proof. intros w1 w2 H. exists w2. split; auto. unfold m_empty. now rewrite (proj1 H). Qed.
Lemma xsim_final : xsim (m_final ops) (m_final ops).
Proof. intros w1 w2 H. exists w2. split; auto. unfold m_final. now rewrite (proj1 H). Qed.
Lemma xsim_next : xsim (m_next ops) (m_next ops).
Proof. intros w1 w2 H. unfold m_next. rewrite (proj1 H). destruct (so_next ops (w_src w2)); cbn; eauto. Qed.
Lemma xsim_src f : xsim (m_src f) (m_src f).
Proof.
  intros w1 w2 (H1 & H3 & H4). unfold m_src. rewrite H1. destruct (f (w_src w2)); [|auto].
  eexists. split; [reflexivity|]. unfold Lw. cbn. auto.
Qed.
Lemma xsim_advance : xsim (m_advance ops) (m_advance ops).
Proof. apply xsim_src. Qed.
Lemma xsim_prepare : xsim (m_prepare ops) (m_prepare ops).
Proof. apply xsim_src. Qed.
Lemma xsim_commit : xsim (m_commit ops) (m_commit ops).
Proof. apply xsim_src. Qed.
Lemma xsim_cancel : xsim (m_cancel ops) (m_cancel ops).
Proof. apply xsim_src. Qed.

Lemma xsim_with_cell {A} v (f1 f2 : nat -> M U A) :
  (forall k, xsim (f1 (S k)) (f2 (length C + k))) -> xsim (with_cell v f1) (with_cell v f2).
Proof.
  intros Hf w1 w2 (H1 & (v0 & bufs & Hc1 & Hc2) & H4). unfold with_cell.
  assert (length (w_cells w1) = S (length bufs)) as -> by (now rewrite Hc1).
  assert (length (w_cells w2) = length C + length bufs) as ->.
  { destruct hole as [[lv P]|]; [destruct Hc2 as (root & root' & _ & _ & ->)|rewrite Hc2];
      rewrite app_length, ?upd_len; auto. }
  specialize (Hf (length bufs) (World (w_src w1) (w_cells w1 ++ [v]) (w_trace w1))
                               (World (w_src w2) (w_cells w2 ++ [v]) (w_trace w2))).
  match type of Hf with ?L -> _ => assert L as HL end.
  { unfold Lw. cbn. split; auto. split; auto. exists v0, (bufs ++ [v]). rewrite Hc1. split; auto.
    destruct hole as [[lv P]|]; [destruct Hc2 as (root & root' & Ha & Hb & ->)|rewrite Hc2].
    - exists root, root'. rewrite app_assoc. auto.
    - now rewrite app_assoc. }
  specialize (Hf HL). destruct (f1 _ _) as [[a w1']|e].
  - destruct Hf as (w2' & -> & E1 & (v0' & bufs' & Hd1 & Hd2) & E4).
    rewrite Hd1. cbn [nth_error firstn].
    assert (nth_error (w_cells w2') (length C + length bufs) = nth_error bufs' (length bufs) /\
            Cr (v0' :: firstn (length bufs) bufs') (firstn (length C + length bufs) (w_cells w2'))) as [-> Hn].
    { unfold Local.Cr. destruct hole as [[lv P]|]; [destruct Hd2 as (root & root' & Ha & Hb & ->)|rewrite Hd2].
      - split.
        + rewrite nth_error_app2; rewrite upd_len; [f_equal|]; lia.
        + exists v0', (firstn (length bufs) bufs'). split; auto. exists root, root'. split; auto. split; auto.
          rewrite <- (upd_len C lv root') at 1. now rewrite firstn_app_2.
      - split.
        + rewrite nth_error_app2 by lia. f_equal. lia.
        + exists v0', (firstn (length bufs) bufs'). split; auto. now rewrite firstn_app_2. }
    destruct (nth_error bufs' (length bufs)); auto. eexists. split; [reflexivity|]. unfold Lw. cbn. auto.
  - now rewrite Hf.
Qed.

Lemma xsim_act a l d1 d2 k1 k2 : Dr d1 d2 -> (ac_param a = true -> Dr (c_bound k1) (c_bound k2)) ->
  xsim (act_dispatch a l d1 k1) (act_dispatch a l d2 k2).
Proof.
  intros Hd Hb. unfold act_dispatch. destruct (conv (ac_land a) l) as [v|]; [|apply xsim_raise].
  intros w1 w2 Hw. pose proof Hw as (H1 & H3 & H4).
  destruct (ac_param a).
  - specialize (Hb eq_refl). rewrite <- (load_sim C hole _ _ _ _ Hb H3).
    destruct (load (w_cells w1) (c_bound k1)) as [b|]; [|auto].
    destruct (ac_fun a v b) as [r b'].
    pose proof (store_sim C hole _ _ b' Hb _ _ H3) as HS. pose proof (Dr_ty C hole _ _ Hb) as [Ht _].
    assert (match (match c_bound k1 with DNil => Done (w_cells w1) | DRef _ _ t => if has_ty t b' then store (w_cells w1) (c_bound k1) b' else Err EType end) with
            | Done c1' => exists c2', (match c_bound k2 with DNil => Done (w_cells w2) | DRef _ _ t => if has_ty t b' then store (w_cells w2) (c_bound k2) b' else Err EType end) = Done c2' /\ Cr c1' c2'
            | Err e => (match c_bound k2 with DNil => Done (w_cells w2) | DRef _ _ t => if has_ty t b' then store (w_cells w2) (c_bound k2) b' else Err EType end) = Err e end) as HX.
    { destruct (c_bound k1) as [|l1 p1 t1], (c_bound k2) as [|l2 p2 t2]; try (inversion Hb; fail); cbn in Ht.
      - eauto.
      - subst t2. destruct (has_ty t1 b'); auto. }
    match type of HX with match ?x with _ => _ end => destruct x as [c1'|] end.
    + destruct HX as (c2' & -> & Hc). 
      assert (Lw (World (w_src w1) c1' (Event (ac_id a) v :: w_trace w1)) (World (w_src w2) c2' (Event (ac_id a) v :: w_trace w2))) as HW.
      { destruct H4 as (k & H4 & H5). unfold Lw. cbn. rewrite H4, H5. split; auto. split; auto. now exists (Event (ac_id a) v :: k). }
      destruct (ac_void a); [eexists; split; [reflexivity|exact HW]|]. exact (xsim_assign _ _ r Hd _ _ HW).
    + rewrite HX. auto.
  - destruct (ac_fun a v VNil) as [r b'].
    assert (Lw (World (w_src w1) (w_cells w1) (Event (ac_id a) v :: w_trace w1)) (World (w_src w2) (w_cells w2) (Event (ac_id a) v :: w_trace w2))) as HW.
    { destruct H4 as (k & H4 & H5). unfold Lw. cbn. rewrite H4, H5. split; auto. split; auto. now exists (Event (ac_id a) v :: k). }
    destruct (ac_void a); [eexists; split; [reflexivity|exact HW]|]. exact (xsim_assign _ _ r Hd _ _ HW).
Qed.

Definition skip_same (k1 k2 : option (M U pst)) : Prop :=
  match k1, k2 with
  | None, None => True
  | Some a, Some b => xsim a b
  | _, _ => False
  end.

Ltac step :=
  match goal with
  | |- xsim (ret _) (ret _) => apply xsim_ret
  | |- xsim (raise _) (raise _) => apply xsim_raise
  | |- xsim (bind _ _) (bind _ _) => apply xsim_bind; [|intro]
  | |- xsim (on_cells (fun c => num_zero c _)) _ => apply xsim_on_cells, zero_sim; assumption
  | |- xsim (on_cells (fun c => num_op _ c _)) _ => apply xsim_on_cells, op_sim; assumption
  | |- xsim (m_empty _) (m_empty _) => apply xsim_empty
  | |- xsim (m_final _) (m_final _) => apply xsim_final
  | |- xsim (m_next _) (m_next _) => apply xsim_next
  | |- xsim (m_advance _) (m_advance _) => apply xsim_advance
  | |- xsim (m_prepare _) (m_prepare _) => apply xsim_prepare
  | |- xsim (m_commit _) (m_commit _) => apply xsim_commit
  | |- xsim (m_cancel _) (m_cancel _) => apply xsim_cancel
  | |- xsim (m_assign _ _) (m_assign _ _) => apply xsim_assign; assumption
  | |- xsim (with_cell _ _) (with_cell _ _) => apply xsim_with_cell; intro
  | |- xsim (if ?b then _ else _) (if ?b then _ else _) => destruct b
  | |- xsim (match ?x with _ => _ end) (match ?x with _ => _ end) => destruct x
  | |- xsim (let '(_, _) := ?x in _) (let '(_, _) := ?x in _) => destruct x
  end.

Lemma xsim_adapt k1 k2 rq d1 d2 p raw1 raw2 : Dr d1 d2 ->
  skip_same k1 k2 -> (forall rq d1 d2, Dr d1 d2 -> xsim (raw1 rq d1) (raw2 rq d2)) ->
  xsim (adapt ops k1 rq d1 p raw1) (adapt ops k2 rq d2 p raw2).
Proof.
  intros Hd Hk Hr. unfold adapt. destruct (Dr_ty C hole _ _ Hd) as [_ <-].
  destruct (r_recur rq); auto.
  assert (forall rq, xsim
    (if r_atomic rq && negb (f_atomic p)
     then bind (with_cell (default_init (dst_value_ty d1))
            (fun lvl => raw1 (unatomic_req rq) (dst_cell lvl (dst_value_ty d1))))
          (fun x => ret (PAtomic (snd x) (fst x))) else raw1 rq d1)
    (if r_atomic rq && negb (f_atomic p)
     then bind (with_cell (default_init (dst_value_ty d1))
            (fun lvl => raw2 (unatomic_req rq) (dst_cell lvl (dst_value_ty d1))))
          (fun x => ret (PAtomic (snd x) (fst x))) else raw2 rq d2)) as HA.
  { intros. repeat step; auto. apply Hr, Dr_cell. }
  destruct k1 as [k1|], k2 as [k2|]; try contradiction; repeat step; auto; apply Hr, Dr_cell.
Qed.

Ltac seqd l i H :=
  match goal with |- xsim (match seq_dst l i ?d1 with _ => _ end) (match seq_dst l i ?d2 with _ => _ end) =>
    let E := fresh "E" in pose proof (seq_dst_sim C hole l i d1 d2 H) as E;
    destruct (seq_dst l i d1); [destruct E as (? & -> & ?)|rewrite E; apply xsim_raise] end.

Lemma xsim_create_in p : forall k1 k2 rq d1 d2, Dr d1 d2 ->
  skip_same k1 k2 -> xsim (create_in ops k1 rq d1 p) (create_in ops k2 rq d2 p).
Proof.
  induction p using pat_ind'; intros k1 k2 rq d1 d2 Hd Hk; cbn [create_in];
    apply xsim_adapt; auto; intros rq' e1 e2 He.
  all: try (repeat step; auto using Dr_nil, Dr_cell; fail).
  - destruct l; [apply xsim_raise|]. inversion H; subst. seqd (p :: l) 0 He. repeat step; auto.
  - destruct l; [apply xsim_raise|]. inversion H; subst. repeat step; auto.
  - repeat step. apply IHp; [auto|exact I].
  - repeat step. apply IHp1; auto. destruct (is_fail p2); cbn; auto. apply IHp2; [apply Dr_nil|exact I].
Qed.

Lemma skip_same_of c1 c2 : c_skip c1 = c_skip c2 -> skip_same (mk_skip_of ops c1) (mk_skip_of ops c2).
Proof.
  intros E. unfold mk_skip_of. rewrite E. destruct (is_fail (c_skip c2)); cbn; auto.
  apply xsim_create_in; [apply Dr_nil|exact I].
Qed.

Lemma xsim_create c1 c2 rq d1 d2 p : c_skip c1 = c_skip c2 -> Dr d1 d2 ->
  xsim (create ops c1 rq d1 p) (create ops c2 rq d2 p).
Proof. intros. apply xsim_create_in; auto using skip_same_of. Qed.

(** ** Patterns that look at the bound destination of the surrounding pattern *)

Context (env : nat -> option pat).
(** Do definitions of Recur patterns? *)
Context (eb : bool).
Notation binds := (binds eb).

Hypothesis Henv : eb = false -> forall id q, env id = Some q -> binds q = false.

Definition bound_ok (p : pat) (c1 c2 : ctx) : Prop :=
  c_skip c1 = c_skip c2 /\ (binds p = false \/ Dr (c_bound c1) (c_bound c2)).

Definition xself (s1 s2 : @consume_ty U) : Prop :=
  forall c1 c2 rq d1 d2 p a, bound_ok p c1 c2 -> Dr d1 d2 ->
  xsim (s1 c1 rq d1 p a) (s2 c2 rq d2 p a).

Lemma bound_part p q c1 c2 : (binds p = false -> binds q = false) -> bound_ok p c1 c2 -> bound_ok q c1 c2.
Proof. intros H [H1 [H2|H2]]; split; auto. Qed.

Section Classes.
Context (s1 s2 : @consume_ty U) (Hs : xself s1 s2).

Lemma xsim_seq_from c1 c2 d1 d2 l : Dr d1 d2 -> forall rest i q a,
  bound_ok (Seq (q :: rest)) c1 c2 ->
  xsim (seq_from ops s1 c1 d1 l i q rest a) (seq_from ops s2 c2 d2 l i q rest a).
Proof.
  intros Hd. induction rest as [|q' rest IH]; intros i q a Hb; cbn [seq_from]; seqd l i Hd;
    (apply xsim_bind; [apply Hs; auto; eapply bound_part; [|exact Hb]; cbn; rewrite orb_false_iff; tauto|intros [r st]; cbn [fst snd]]).
  - repeat step.
  - destruct r; [|apply xsim_ret|apply xsim_ret]. seqd l (S i) Hd.
    apply xsim_bind; [apply xsim_create; auto; apply Hb|intros]. apply IH.
    eapply bound_part; [|exact Hb]. cbn. rewrite !orb_false_iff. tauto.
Qed.

Lemma xsim_alt_from c1 c2 rq d1 d2 : Dr d1 d2 -> forall rest i q a,
  bound_ok (Alt (q :: rest)) c1 c2 ->
  xsim (alt_from ops s1 c1 rq d1 i q rest a) (alt_from ops s2 c2 rq d2 i q rest a).
Proof.
  intros Hd. induction rest as [|q' rest IH]; intros i q a Hb; cbn [alt_from];
    (apply xsim_bind; [apply Hs; auto; eapply bound_part; [|exact Hb]; cbn; rewrite orb_false_iff; tauto|intros [r st]; cbn [fst snd]]).
  - repeat step.
  - destruct r; [apply xsim_ret| |apply xsim_ret].
    apply xsim_bind; [apply xsim_create; auto; apply Hb|intros]. apply IH.
    eapply bound_part; [|exact Hb]. cbn. rewrite !orb_false_iff. tauto.
Qed.

Lemma bound_skipn_seq l i q rest c1 c2 : skipn i l = q :: rest ->
  bound_ok (Seq l) c1 c2 -> bound_ok (Seq (q :: rest)) c1 c2.
Proof.
  intros E. apply bound_part. cbn [binds]. rewrite <- E. intros H.
  rewrite <- (firstn_skipn i l), existsb_app, orb_false_iff in H. tauto.
Qed.

Lemma xsim_step : xself (consume_step ops env s1) (consume_step ops env s2).
Proof.
  intros c1 c2 rq d1 d2 p st Hb Hd. unfold consume_step. pose proof (proj1 Hb) as Hk.
  destruct (Dr_ty C hole _ _ Hd) as [Ht Hv].
  assert (forall rq q, bound_ok q c1 c2 -> forall a, xsim (s1 c1 rq d1 q a) (s2 c2 rq d2 q a)) as HS by auto.
  assert (forall rq q, bound_ok q c1 c2 -> forall a, xsim (s1 c1 rq DNil q a) (s2 c2 rq DNil q a)) as HN
    by (intros; apply Hs; auto using Dr_nil).
  assert (forall rq q, xsim (create ops c1 rq d1 q) (create ops c2 rq d2 q)) as HC
    by (intros; now apply xsim_create).
  assert (forall rq q, xsim (create ops c1 rq DNil q) (create ops c2 rq DNil q)) as HD
    by (intros; apply xsim_create; auto using Dr_nil).
  destruct st.
  - unfold skip_consume. rewrite Hk. repeat step; auto.
    + apply Hs; [split; auto; right|]; constructor.
    + apply xsim_create; auto using Dr_nil.
  - unfold clean_consume. repeat step; auto.
  - unfold atomic_consume. rewrite <- Hv. repeat step; auto. apply Hs; auto using Dr_cell.
  - destruct p; try apply xsim_raise; unfold char_consume, char_symbol_consume, eoi_consume, starved; repeat step.
  - destruct p; try apply xsim_raise; unfold lit_consume, starved; repeat step; auto.
  - destruct p; try apply xsim_raise. unfold sym_consume, sym_stop. repeat step; auto.
  - destruct p; try apply xsim_raise. unfold uint_consume. repeat step; auto.
  - destruct p; try apply xsim_raise. unfold int_consume, int_digit, int_negate. repeat step; auto.
  - destruct p; try apply xsim_raise; unfold nary_enter; (destruct (_ && _)%bool; [apply xsim_raise|]);
      destruct (skipn i l) as [|q rest] eqn:E; try apply xsim_raise.
    + apply xsim_seq_from; auto. eapply bound_skipn_seq; eauto.
    + apply xsim_alt_from; auto. exact (bound_skipn_seq l i q rest c1 c2 E Hb).
  - destruct p; try apply xsim_raise. unfold except_consume.
    assert (bound_ok p1 c1 c2 /\ bound_ok p2 c1 c2) as [? ?].
    { split; (eapply bound_part; [|exact Hb]); cbn; rewrite orb_false_iff; tauto. }
    repeat step; auto.
  - destruct p; try apply xsim_raise. unfold list_consume.
    assert (bound_ok p1 c1 c2 /\ bound_ok p2 c1 c2) as [? ?].
    { split; (eapply bound_part; [|exact Hb]); cbn; rewrite orb_false_iff; tauto. }
    repeat step; auto.
  - destruct p; try apply xsim_raise. unfold repeat_consume. repeat step; auto.
  - destruct p; try apply xsim_raise. unfold not_consume. repeat step; auto.
  - destruct p; try apply xsim_raise. unfold opt_consume. repeat step; auto.
  - destruct p; try apply xsim_raise; unfold forward_consume; repeat step; auto.
    + apply Hs; auto. destruct Hb; split; auto.
    + apply Hs; auto. destruct Hb; split; auto.
    + apply Hs; auto. split; auto.
  - destruct p; try apply xsim_raise. unfold action_consume.
    assert (ac_param a = true -> Dr (c_bound c1) (c_bound c2)) as Ha.
    { intros E. destruct (proj2 Hb) as [H|H]; auto. cbn in H. rewrite E in H. discriminate. }
    repeat step; auto using xsim_act. apply Hs; auto using Dr_cell.
    eapply bound_part; [|exact Hb]. cbn. rewrite orb_false_iff. tauto.
  - destruct p; try apply xsim_raise. unfold construct_consume. rewrite <- Ht. repeat step; auto. apply Hs; auto using Dr_cell.
  - destruct p; try apply xsim_raise. unfold recur_consume. destruct (env id) as [q|] eqn:E; [|apply xsim_raise].
    repeat step; auto. apply HS. eapply bound_part; [|exact Hb]. cbn. eauto.
Qed.
End Classes.

Lemma xsim_consume n : xself (consume ops env n) (consume ops env n).
Proof.
  induction n as [|n IH]; intros c1 c2 rq d1 d2 p a Hb Hd.
  - apply xsim_raise.
  - cbn. now apply xsim_step.
Qed.

Lemma xsim_run n c1 c2 rq d1 d2 p : bound_ok p c1 c2 -> Dr d1 d2 ->
  xsim (st <- create ops c1 rq d1 p ;; consume ops env n c1 rq d1 p st)
       (st <- create ops c2 rq d2 p ;; consume ops env n c2 rq d2 p st).
Proof.
  intros Hb Hd. apply xsim_bind; [apply xsim_create; auto; apply Hb|]. intros. now apply xsim_consume.
Qed.

End Any.
