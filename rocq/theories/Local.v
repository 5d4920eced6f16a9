(** A parser reaches the rest of the program through its destination and the bound
    destination only: running it there and running it on an object of its own come to
    the same thing. *)
From Coq Require Import List ZArith Bool Arith Lia.
From Verif Require Import Base CharSet Source Dst Pattern Parser Session Rel.
Import ListNotations.

(** ** Paths *)

Lemma nth_upd {A} (l : list A) i x y : nth_error l i = Some y -> nth_error (upd l i x) i = Some x.
Proof.
  revert i. induction l as [|a l IH]; intros [|i] H; cbn in *; try discriminate; auto.
Qed.
Lemma upd_upd {A} (l : list A) i x y : upd (upd l i x) i y = upd l i y.
Proof. revert i. induction l as [|a l IH]; intros [|i]; cbn; auto. now rewrite IH. Qed.
Lemma upd_same {A} (l : list A) i x : nth_error l i = Some x -> upd l i x = l.
Proof.
  revert i. induction l as [|a l IH]; intros [|i] H; cbn in *; try discriminate; [congruence|]. now rewrite IH.
Qed.
Lemma upd_len {A} (l : list A) i x : length (upd l i x) = length l.
Proof. revert i. induction l as [|a l IH]; intros [|i]; cbn; auto. Qed.

Lemma set_get P : forall root x root' q, set_path root P x = Done root' ->
  get_path root' (P ++ q) = get_path x q.
Proof.
  induction P as [|i P IH]; intros root x root' q H; cbn in *; [congruence|].
  destruct root; try discriminate. destruct (nth_error l i) as [y|] eqn:E; [|discriminate].
  destruct (set_path y P x) as [y'|] eqn:E'; [|discriminate]. injection H as <-.
  rewrite (nth_upd _ _ _ _ E). eapply IH; eauto.
Qed.

Lemma set_set P : forall root x root' q z, set_path root P x = Done root' ->
  match set_path x q z with
  | Done x' => exists root'', set_path root P x' = Done root'' /\ set_path root' (P ++ q) z = Done root''
  | Err e => set_path root' (P ++ q) z = Err e
  end.
Proof.
  induction P as [|i P IH]; intros root x root' q z H; cbn [app set_path] in *.
  - injection H as <-. destruct (set_path x q z); eauto.
  - destruct root; try discriminate. destruct (nth_error l i) as [y|] eqn:E; [|discriminate].
    destruct (set_path y P x) as [y'|] eqn:E'; [|discriminate]. injection H as <-.
    rewrite (nth_upd _ _ _ _ E). specialize (IH y x y' q z E').
    destruct (set_path x q z) as [x'|].
    + destruct IH as (y'' & H1 & H2). rewrite H1, H2. cbn. rewrite upd_upd. eauto.
    + now rewrite IH.
Qed.

Lemma get_set P : forall root x, get_path root P = Done x -> set_path root P x = Done root.
Proof.
  induction P as [|i P IH]; intros root x H; cbn in *; [congruence|].
  destruct root; try discriminate. destruct (nth_error l i) as [y|] eqn:E; [|discriminate].
  rewrite (IH _ _ H). cbn. now rewrite upd_same.
Qed.

(** ** The two views *)

Section Local.
(** The objects around, the place of the destination among them (none: Nil), the marks
    already set, the action calls already made. *)
Context (C : list val) (hole : option (nat * list nat)) (base : list (list Z)) (T0 : list event).

Definition Cr (c1 c2 : list val) : Prop :=
  exists v0 bufs, c1 = v0 :: bufs /\
  match hole with
  | None => c2 = C ++ bufs
  | Some (lv, P) => exists root root',
      nth_error C lv = Some root /\ set_path root P v0 = Done root' /\ c2 = upd C lv root' ++ bufs
  end.

Inductive Dr : dst -> dst -> Prop :=
| Dr_nil : Dr DNil DNil
| Dr_hole lv P p t : hole = Some (lv, P) -> Dr (DRef 0 p t) (DRef lv (P ++ p) t)
| Dr_buf k p t : Dr (DRef (S k) p t) (DRef (length C + k) p t).

Definition Lw (w1 w2 : world sfwd) : Prop :=
  sf_cur (w_src w1) = sf_cur (w_src w2) /\ sf_stack (w_src w2) = sf_stack (w_src w1) ++ base /\
  Cr (w_cells w1) (w_cells w2) /\ w_trace w2 = w_trace w1 ++ T0.

Definition xsim {A} (m1 m2 : M sfwd A) : Prop :=
  forall w1 w2, Lw w1 w2 ->
  match m1 w1 with
  | Done (a, w1') => exists w2', m2 w2 = Done (a, w2') /\ Lw w1' w2'
  | Err e => e = EUb UbMark \/ m2 w2 = Err e
  end.

Lemma xsim_ret {A} (a : A) : xsim (ret a) (ret a).
Proof. intros w1 w2 H. exists w2. split; [reflexivity|exact H]. Qed.
Lemma xsim_raise {A} e : xsim (@raise sfwd A e) (@raise sfwd A e).
Proof. intros w1 w2 H. cbn. auto. Qed.
Lemma xsim_bind {A B} (m1 m2 : M sfwd A) (f1 f2 : A -> M sfwd B) :
  xsim m1 m2 -> (forall a, xsim (f1 a) (f2 a)) -> xsim (bind m1 f1) (bind m2 f2).
Proof.
  intros Hm Hf w1 w2 H. unfold bind. specialize (Hm w1 w2 H).
  destruct (m1 w1) as [[a w1']|e].
  - destruct Hm as (w2' & -> & H'). apply (Hf a _ _ H').
  - destruct Hm as [?| ->]; auto.
Qed.

Definition cells_sim (f1 f2 : list val -> outcome (list val)) : Prop :=
  forall c1 c2, Cr c1 c2 ->
  match f1 c1 with
  | Done c1' => exists c2', f2 c2 = Done c2' /\ Cr c1' c2'
  | Err e => f2 c2 = Err e
  end.

Lemma xsim_on_cells f1 f2 : cells_sim f1 f2 -> xsim (on_cells f1) (on_cells f2).
Proof.
  intros Hf w1 w2 (H1 & H2 & H3 & H4). unfold on_cells. specialize (Hf _ _ H3).
  destruct (f1 (w_cells w1)).
  - destruct Hf as (c2' & -> & Hc). eexists. split; [reflexivity|]. unfold Lw. cbn. auto.
  - rewrite Hf. auto.
Qed.

Lemma load_sim d1 d2 c1 c2 : Dr d1 d2 -> Cr c1 c2 -> load c1 d1 = load c2 d2.
Proof.
  intros Hd (v0 & bufs & -> & Hc). destruct Hd as [|lv P p t Hh|k p t].
  - reflexivity.
  - rewrite Hh in Hc. destruct Hc as (root & root' & Hn & Hs & ->). cbn.
    rewrite nth_error_app1.
    + rewrite (nth_upd _ _ _ _ Hn). cbn. symmetry. eapply set_get; eauto.
    + rewrite upd_len. apply nth_error_Some. congruence.
  - cbn [load]. f_equal. f_equal. cbn [nth_error].
    destruct hole as [[lv P]|].
    + destruct Hc as (root & root' & Hn & Hs & ->). rewrite nth_error_app2; rewrite upd_len; [|lia]. f_equal. lia.
    + subst c2. rewrite nth_error_app2 by lia. f_equal. lia.
Qed.

Lemma upd_app_l {A} (l l' : list A) i x : i < length l -> upd (l ++ l') i x = upd l i x ++ l'.
Proof. revert i. induction l as [|a l IH]; intros [|i] H; cbn in *; try lia; auto. rewrite IH; auto. lia. Qed.
Lemma upd_app_r {A} (l l' : list A) i x : upd (l ++ l') (length l + i) x = l ++ upd l' i x.
Proof. induction l as [|a l IH]; cbn; auto. now rewrite IH. Qed.

Lemma store_sim d1 d2 x : Dr d1 d2 -> cells_sim (fun c => store c d1 x) (fun c => store c d2 x).
Proof.
  intros Hd c1 c2 (v0 & bufs & -> & Hc). destruct Hd as [|lv P p t Hh|k p t].
  - cbn. exists c2. split; auto. exists v0, bufs. auto.
  - rewrite Hh in Hc. destruct Hc as (root & root' & Hn & Hs & ->). cbn.
    assert (lv < length C) as Hlt by (apply nth_error_Some; congruence).
    rewrite nth_error_app1 by (now rewrite upd_len).
    rewrite (nth_upd _ _ _ _ Hn). cbn. pose proof (set_set _ _ _ _ p x Hs) as H.
    destruct (set_path v0 p x) as [v0'|].
    + destruct H as (root'' & H1 & H2). rewrite H2. cbn. eexists. split; [reflexivity|].
      exists v0', bufs. split; auto. rewrite Hh. exists root, root''. repeat split; auto.
      rewrite upd_app_l by (now rewrite upd_len). now rewrite upd_upd.
    + rewrite H. reflexivity.
  - cbn [store nth_error].
    assert (nth_error c2 (length C + k) = nth_error bufs k /\ forall y, exists c2',
              upd c2 (length C + k) y = c2' /\ Cr (v0 :: upd bufs k y) c2') as [E1 E2].
    { unfold Cr. destruct hole as [[lv P]|].
      - destruct Hc as (root & root' & Hn & Hs & ->). split.
        + rewrite nth_error_app2; rewrite upd_len; [|lia]. f_equal. lia.
        + intros y. eexists. split; [reflexivity|]. exists v0, (upd bufs k y). split; auto. exists root, root'. repeat split; auto.
          rewrite <- (upd_len C lv root') at 1. apply upd_app_r.
      - subst c2. split.
        + rewrite nth_error_app2 by lia. f_equal. lia.
        + intros y. eexists. split; [reflexivity|]. exists v0, (upd bufs k y). split; auto. apply upd_app_r. }
    rewrite E1. destruct (nth_error bufs k) as [y|]; cbn; [|reflexivity].
    destruct (set_path y p x) as [y'|]; cbn; [|reflexivity].
    destruct (E2 y') as (c2' & <- & H). eauto.
Qed.

Lemma Dr_ty d1 d2 : Dr d1 d2 -> dst_ty d1 = dst_ty d2 /\ dst_value_ty d1 = dst_value_ty d2.
Proof. intros []; auto. Qed.

Lemma assign_sim d1 d2 v : Dr d1 d2 -> cells_sim (fun c => assign c d1 v) (fun c => assign c d2 v).
Proof.
  intros Hd c1 c2 Hc. pose proof (load_sim _ _ _ _ Hd Hc) as HL.
  pose proof (fun x => store_sim _ _ x Hd c1 c2 Hc) as HS. pose proof (Dr_ty _ _ Hd) as [Ht _].
  destruct d1 as [|l p t], d2 as [|l' p' t']; try (inversion Hd; fail); cbn in Ht.
  - cbn. eauto.
  - subst t'. unfold assign. destruct t;
      match goal with |- context [conv ?t v] => destruct (conv t v) end; cbn [obind]; auto; try apply HS.
    rewrite <- HL. destruct (load c1 _) as [y|]; cbn [obind]; auto. destruct y; auto. apply HS.
Qed.

Lemma zero_sim d1 d2 : Dr d1 d2 -> cells_sim (fun c => num_zero c d1) (fun c => num_zero c d2).
Proof.
  intros Hd c1 c2 Hc. pose proof (fun x => store_sim _ _ x Hd c1 c2 Hc) as HS. pose proof (Dr_ty _ _ Hd) as [Ht _].
  destruct d1 as [|l p t], d2 as [|l' p' t']; try (inversion Hd; fail); cbn in Ht.
  - cbn. eauto.
  - subst t'. destruct t; cbn [num_zero]; auto. apply HS.
Qed.

Lemma op_sim f d1 d2 : Dr d1 d2 -> cells_sim (fun c => num_op f c d1) (fun c => num_op f c d2).
Proof.
  intros Hd c1 c2 Hc. pose proof (load_sim _ _ _ _ Hd Hc) as HL.
  pose proof (fun x => store_sim _ _ x Hd c1 c2 Hc) as HS. pose proof (Dr_ty _ _ Hd) as [Ht _].
  destruct d1 as [|l p t], d2 as [|l' p' t']; try (inversion Hd; fail); cbn in Ht.
  - cbn. eauto.
  - subst t'. destruct t; cbn [num_op]; auto. rewrite <- HL. destruct (load c1 _) as [y|]; cbn [obind]; auto.
    destruct y; auto. destruct (arith _ _ _); cbn [obind]; auto. apply HS.
Qed.

Lemma xsim_assign d1 d2 v : Dr d1 d2 -> xsim (m_assign d1 v) (m_assign d2 v).
Proof. intros. now apply xsim_on_cells, assign_sim. Qed.

Lemma xsim_empty : xsim (m_empty sf_ops) (m_empty sf_ops).
Proof.
  intros w1 w2 H. exists w2. split; auto. unfold m_empty. cbn. unfold sf_empty. now rewrite (proj1 H).
Qed.
Lemma xsim_final : xsim (m_final sf_ops) (m_final sf_ops).
Proof. intros w1 w2 H. exists w2. split; auto. Qed.
Lemma xsim_next : xsim (m_next sf_ops) (m_next sf_ops).
Proof.
  intros w1 w2 H. unfold m_next. cbn. unfold sf_next. rewrite (proj1 H).
  destruct (sf_cur (w_src w2)); cbn; eauto.
Qed.
Lemma xsim_src f :
  (forall a b, sf_cur a = sf_cur b -> sf_stack b = sf_stack a ++ base ->
     match f a with
     | Done a' => exists b', f b = Done b' /\ sf_cur a' = sf_cur b' /\ sf_stack b' = sf_stack a' ++ base
     | Err e => e = EUb UbMark \/ f b = Err e
     end) -> xsim (m_src f) (m_src f).
Proof.
  intros Hf w1 w2 (H1 & H2 & H3 & H4). unfold m_src. specialize (Hf _ _ H1 H2).
  destruct (f (w_src w1)).
  - destruct Hf as (b' & -> & Ha & Hb). eexists. split; [reflexivity|]. unfold Lw. cbn. auto.
  - destruct Hf as [| ->]; auto.
Qed.
Lemma xsim_advance : xsim (m_advance sf_ops) (m_advance sf_ops).
Proof.
  apply xsim_src. intros a b Hc Hs. cbn. unfold sf_advance. rewrite Hc.
  destruct (sf_cur b); [auto|]. eexists. split; [reflexivity|]. cbn. auto.
Qed.
Lemma xsim_prepare : xsim (m_prepare sf_ops) (m_prepare sf_ops).
Proof. apply xsim_src. intros a b Hc Hs. cbn. eexists. split; [reflexivity|]. cbn. rewrite Hc, Hs. auto. Qed.
Lemma xsim_commit : xsim (m_commit sf_ops) (m_commit sf_ops).
Proof.
  apply xsim_src. intros a b Hc Hs. cbn. unfold sf_commit. rewrite Hs.
  destruct (sf_stack a) as [|m st]; [auto|]. cbn. eexists. split; [reflexivity|]. cbn. auto.
Qed.
Lemma xsim_cancel : xsim (m_cancel sf_ops) (m_cancel sf_ops).
Proof.
  apply xsim_src. intros a b Hc Hs. cbn. unfold sf_cancel. rewrite Hs.
  destruct (sf_stack a) as [|m st]; [auto|]. cbn. eexists. split; [reflexivity|]. cbn. auto.
Qed.

Lemma Dr_cell k t : Dr (dst_cell (S k) t) (dst_cell (length C + k) t).
Proof. destruct t; constructor. Qed.

Lemma xsim_with_cell {A} v (f1 f2 : nat -> M sfwd A) :
  (forall k, xsim (f1 (S k)) (f2 (length C + k))) -> xsim (with_cell v f1) (with_cell v f2).
Proof.
  intros Hf w1 w2 (H1 & H2 & (v0 & bufs & Hc1 & Hc2) & H4). unfold with_cell.
  assert (length (w_cells w1) = S (length bufs)) as -> by (now rewrite Hc1).
  assert (length (w_cells w2) = length C + length bufs) as ->.
  { destruct hole as [[lv P]|]; [destruct Hc2 as (root & root' & _ & _ & ->)|rewrite Hc2];
      rewrite app_length, ?upd_len; auto. }
  specialize (Hf (length bufs) (World (w_src w1) (w_cells w1 ++ [v]) (w_trace w1))
                               (World (w_src w2) (w_cells w2 ++ [v]) (w_trace w2))).
  match type of Hf with ?L -> _ => assert L as HL end.
  { unfold Lw. cbn. repeat (split; auto). exists v0, (bufs ++ [v]). rewrite Hc1. split; auto.
    destruct hole as [[lv P]|]; [destruct Hc2 as (root & root' & Ha & Hb & ->)|rewrite Hc2].
    - exists root, root'. rewrite app_assoc. auto.
    - now rewrite app_assoc. }
  specialize (Hf HL). destruct (f1 _ _) as [[a w1']|e].
  - destruct Hf as (w2' & -> & E1 & E2 & (v0' & bufs' & Hd1 & Hd2) & E4).
    rewrite Hd1. cbn [nth_error firstn].
    assert (nth_error (w_cells w2') (length C + length bufs) = nth_error bufs' (length bufs) /\
            Cr (v0' :: firstn (length bufs) bufs') (firstn (length C + length bufs) (w_cells w2'))) as [-> Hn].
    { unfold Cr. destruct hole as [[lv P]|]; [destruct Hd2 as (root & root' & Ha & Hb & ->)|rewrite Hd2].
      - split.
        + rewrite nth_error_app2; rewrite upd_len; [f_equal|]; lia.
        + exists v0', (firstn (length bufs) bufs'). split; auto. exists root, root'. split; auto. split; auto.
          rewrite <- (upd_len C lv root') at 1. now rewrite firstn_app_2.
      - split.
        + rewrite nth_error_app2 by lia. f_equal. lia.
        + exists v0', (firstn (length bufs) bufs'). split; auto. now rewrite firstn_app_2. }
    destruct (nth_error bufs' (length bufs)); auto. eexists. split; [reflexivity|]. unfold Lw. cbn. auto.
  - destruct Hf as [| ->]; auto.
Qed.

Lemma xsim_act a l d1 d2 k1 k2 : Dr d1 d2 -> (ac_param a = true -> Dr (c_bound k1) (c_bound k2)) ->
  xsim (act_dispatch a l d1 k1) (act_dispatch a l d2 k2).
Proof.
  intros Hd Hb. unfold act_dispatch. destruct (conv (ac_land a) l) as [v|]; [|apply xsim_raise].
  intros w1 w2 Hw. pose proof Hw as (H1 & H2 & H3 & H4).
  destruct (ac_param a).
  - specialize (Hb eq_refl). rewrite <- (load_sim _ _ _ _ Hb H3).
    destruct (load (w_cells w1) (c_bound k1)) as [b|]; [|auto].
    destruct (ac_fun a v b) as [r b'].
    pose proof (store_sim _ _ b' Hb _ _ H3) as HS. pose proof (Dr_ty _ _ Hb) as [Ht _].
    assert (match (match c_bound k1 with DNil => Done (w_cells w1) | DRef _ _ t => if has_ty t b' then store (w_cells w1) (c_bound k1) b' else Err EType end) with
            | Done c1' => exists c2', (match c_bound k2 with DNil => Done (w_cells w2) | DRef _ _ t => if has_ty t b' then store (w_cells w2) (c_bound k2) b' else Err EType end) = Done c2' /\ Cr c1' c2'
            | Err e => (match c_bound k2 with DNil => Done (w_cells w2) | DRef _ _ t => if has_ty t b' then store (w_cells w2) (c_bound k2) b' else Err EType end) = Err e end) as HX.
    { destruct (c_bound k1) as [|l1 p1 t1], (c_bound k2) as [|l2 p2 t2]; try (inversion Hb; fail); cbn in Ht.
      - eauto.
      - subst t2. destruct (has_ty t1 b'); auto. }
    match type of HX with match ?x with _ => _ end => destruct x as [c1'|] end.
    + destruct HX as (c2' & -> & Hc). 
      assert (Lw (World (w_src w1) c1' (Event (ac_id a) v :: w_trace w1)) (World (w_src w2) c2' (Event (ac_id a) v :: w_trace w2))) as HW.
      { unfold Lw. cbn. rewrite H4. auto. }
      destruct (ac_void a); [eexists; split; [reflexivity|exact HW]|]. exact (xsim_assign _ _ r Hd _ _ HW).
    + rewrite HX. auto.
  - destruct (ac_fun a v VNil) as [r b'].
    assert (Lw (World (w_src w1) (w_cells w1) (Event (ac_id a) v :: w_trace w1)) (World (w_src w2) (w_cells w2) (Event (ac_id a) v :: w_trace w2))) as HW.
    { unfold Lw. cbn. rewrite H4. auto. }
    destruct (ac_void a); [eexists; split; [reflexivity|exact HW]|]. exact (xsim_assign _ _ r Hd _ _ HW).
Qed.

Definition skip_same (k1 k2 : option (M sfwd pst)) : Prop :=
  match k1, k2 with
  | None, None => True
  | Some a, Some b => xsim a b
  | _, _ => False
  end.

Ltac step :=
  match goal with
  | |- xsim (ret _) (ret _) => apply xsim_ret
  | |- xsim (raise _) (raise _) => apply xsim_raise
  | |- xsim (bind _ _) (bind _ _) => apply xsim_bind; [|intro]
  | |- xsim (on_cells (fun c => num_zero c _)) _ => apply xsim_on_cells, zero_sim; assumption
  | |- xsim (on_cells (fun c => num_op _ c _)) _ => apply xsim_on_cells, op_sim; assumption
  | |- xsim (m_empty _) (m_empty _) => apply xsim_empty
  | |- xsim (m_final _) (m_final _) => apply xsim_final
  | |- xsim (m_next _) (m_next _) => apply xsim_next
  | |- xsim (m_advance _) (m_advance _) => apply xsim_advance
  | |- xsim (m_prepare _) (m_prepare _) => apply xsim_prepare
  | |- xsim (m_commit _) (m_commit _) => apply xsim_commit
  | |- xsim (m_cancel _) (m_cancel _) => apply xsim_cancel
  | |- xsim (m_assign _ _) (m_assign _ _) => apply xsim_assign; assumption
  | |- xsim (with_cell _ _) (with_cell _ _) => apply xsim_with_cell; intro
  | |- xsim (if ?b then _ else _) (if ?b then _ else _) => destruct b
  | |- xsim (match ?x with _ => _ end) (match ?x with _ => _ end) => destruct x
  | |- xsim (let '(_, _) := ?x in _) (let '(_, _) := ?x in _) => destruct x
  end.

Lemma xsim_adapt k1 k2 rq d1 d2 p raw1 raw2 : Dr d1 d2 ->
  skip_same k1 k2 -> (forall rq d1 d2, Dr d1 d2 -> xsim (raw1 rq d1) (raw2 rq d2)) ->
  xsim (adapt sf_ops k1 rq d1 p raw1) (adapt sf_ops k2 rq d2 p raw2).
Proof.
  intros Hd Hk Hr. unfold adapt. destruct (Dr_ty _ _ Hd) as [_ <-].
  destruct (r_recur rq); auto.
  assert (forall rq, xsim
    (if r_atomic rq && negb (f_atomic p)
     then bind (with_cell (default_init (dst_value_ty d1))
            (fun lvl => raw1 (unatomic_req rq) (dst_cell lvl (dst_value_ty d1))))
          (fun x => ret (PAtomic (snd x) (fst x))) else raw1 rq d1)
    (if r_atomic rq && negb (f_atomic p)
     then bind (with_cell (default_init (dst_value_ty d1))
            (fun lvl => raw2 (unatomic_req rq) (dst_cell lvl (dst_value_ty d1))))
          (fun x => ret (PAtomic (snd x) (fst x))) else raw2 rq d2)) as HA.
  { intros. repeat step; auto. apply Hr, Dr_cell. }
  destruct k1 as [k1|], k2 as [k2|]; try contradiction; repeat step; auto; apply Hr, Dr_cell.
Qed.

Lemma seq_dst_sim l i d1 d2 : Dr d1 d2 ->
  match seq_dst l i d1 with
  | Done e1 => exists e2, seq_dst l i d2 = Done e2 /\ Dr e1 e2
  | Err e => seq_dst l i d2 = Err e
  end.
Proof.
  intros Hd. unfold seq_dst. destruct Hd as [|lv P p t Hh|k p t].
  - exists DNil. split; auto. constructor.
  - destruct (nth_error l i) as [q|]; [|reflexivity]. destruct (ignores q); [exists DNil; split; [auto|constructor]|].
    assert (forall t, exists e2, Done (DRef lv (P ++ p) t) = Done e2 /\ Dr (DRef 0 p t) e2) as Hx
      by (intros; eexists; split; [reflexivity|now constructor]).
    destruct t; auto. destruct (nth_error l0 _) as [[]|]; try reflexivity; eexists; (split; [reflexivity|]);
      rewrite <- ?app_assoc; now constructor.
  - destruct (nth_error l i) as [q|]; [|reflexivity]. destruct (ignores q); [exists DNil; split; [auto|constructor]|].
    assert (forall t, exists e2, Done (DRef (length C + k) p t) = Done e2 /\ Dr (DRef (S k) p t) e2) as Hx
      by (intros; eexists; split; [reflexivity|now constructor]).
    destruct t; auto. destruct (nth_error l0 _) as [[]|]; try reflexivity; eexists; (split; [reflexivity|]); now constructor.
Qed.

Ltac seqd l i H :=
  match goal with |- xsim (match seq_dst l i ?d1 with _ => _ end) (match seq_dst l i ?d2 with _ => _ end) =>
    let E := fresh "E" in pose proof (seq_dst_sim l i d1 d2 H) as E;
    destruct (seq_dst l i d1); [destruct E as (? & -> & ?)|rewrite E; apply xsim_raise] end.

Lemma xsim_create_in p : forall k1 k2 rq d1 d2, Dr d1 d2 ->
  skip_same k1 k2 -> xsim (create_in sf_ops k1 rq d1 p) (create_in sf_ops k2 rq d2 p).
Proof.
  induction p using pat_ind'; intros k1 k2 rq d1 d2 Hd Hk; cbn [create_in];
    apply xsim_adapt; auto; intros rq' e1 e2 He.
  all: try (repeat step; auto using Dr_nil, Dr_cell; fail).
  - destruct l; [apply xsim_raise|]. inversion H; subst. seqd (p :: l) 0 He. repeat step; auto.
  - destruct l; [apply xsim_raise|]. inversion H; subst. repeat step; auto.
  - repeat step. apply IHp; [auto|exact I].
  - repeat step. apply IHp1; auto. destruct (is_fail p2); cbn; auto. apply IHp2; [apply Dr_nil|exact I].
Qed.

Lemma skip_same_of c1 c2 : c_skip c1 = c_skip c2 -> skip_same (mk_skip_of sf_ops c1) (mk_skip_of sf_ops c2).
Proof.
  intros E. unfold mk_skip_of. rewrite E. destruct (is_fail (c_skip c2)); cbn; auto.
  apply xsim_create_in; [apply Dr_nil|exact I].
Qed.

Lemma xsim_create c1 c2 rq d1 d2 p : c_skip c1 = c_skip c2 -> Dr d1 d2 ->
  xsim (create sf_ops c1 rq d1 p) (create sf_ops c2 rq d2 p).
Proof. intros. apply xsim_create_in; auto using skip_same_of. Qed.

(** ** Patterns that look at the bound destination of the surrounding pattern *)

Context (env : nat -> option pat).
(** Do definitions of Recur patterns? *)
Context (eb : bool).

Fixpoint binds (p : pat) : bool :=
  match p with
  | Seq l | Alt l => existsb binds l
  | Repeat _ _ q | Not q | Opt q | Discard q | Lexeme q | WithSkipper q _ | Construct _ q => binds q
  | Act a q => ac_param a || binds q
  | Except q n => binds q || binds n
  | PList q s => binds q || binds s
  | Recur _ _ => eb
  | _ => false
  end.

Hypothesis Henv : eb = false -> forall id q, env id = Some q -> binds q = false.

Definition bound_ok (p : pat) (c1 c2 : ctx) : Prop :=
  c_skip c1 = c_skip c2 /\ (binds p = false \/ Dr (c_bound c1) (c_bound c2)).

Definition xself (s1 s2 : @consume_ty sfwd) : Prop :=
  forall c1 c2 rq d1 d2 p a, bound_ok p c1 c2 -> Dr d1 d2 ->
  xsim (s1 c1 rq d1 p a) (s2 c2 rq d2 p a).

Lemma bound_part p q c1 c2 : (binds p = false -> binds q = false) -> bound_ok p c1 c2 -> bound_ok q c1 c2.
Proof. intros H [H1 [H2|H2]]; split; auto. Qed.

Section Classes.
Context (s1 s2 : @consume_ty sfwd) (Hs : xself s1 s2).

Lemma xsim_seq_from c1 c2 d1 d2 l : Dr d1 d2 -> forall rest i q a,
  bound_ok (Seq (q :: rest)) c1 c2 ->
  xsim (seq_from sf_ops s1 c1 d1 l i q rest a) (seq_from sf_ops s2 c2 d2 l i q rest a).
Proof.
  intros Hd. induction rest as [|q' rest IH]; intros i q a Hb; cbn [seq_from]; seqd l i Hd;
    (apply xsim_bind; [apply Hs; auto; eapply bound_part; [|exact Hb]; cbn; rewrite orb_false_iff; tauto|intros [r st]; cbn [fst snd]]).
  - repeat step.
  - destruct r; [|apply xsim_ret|apply xsim_ret]. seqd l (S i) Hd.
    apply xsim_bind; [apply xsim_create; auto; apply Hb|intros]. apply IH.
    eapply bound_part; [|exact Hb]. cbn. rewrite !orb_false_iff. tauto.
Qed.

Lemma xsim_alt_from c1 c2 rq d1 d2 : Dr d1 d2 -> forall rest i q a,
  bound_ok (Alt (q :: rest)) c1 c2 ->
  xsim (alt_from sf_ops s1 c1 rq d1 i q rest a) (alt_from sf_ops s2 c2 rq d2 i q rest a).
Proof.
  intros Hd. induction rest as [|q' rest IH]; intros i q a Hb; cbn [alt_from];
    (apply xsim_bind; [apply Hs; auto; eapply bound_part; [|exact Hb]; cbn; rewrite orb_false_iff; tauto|intros [r st]; cbn [fst snd]]).
  - repeat step.
  - destruct r; [apply xsim_ret| |apply xsim_ret].
    apply xsim_bind; [apply xsim_create; auto; apply Hb|intros]. apply IH.
    eapply bound_part; [|exact Hb]. cbn. rewrite !orb_false_iff. tauto.
Qed.

Lemma bound_skipn_seq l i q rest c1 c2 : skipn i l = q :: rest ->
  bound_ok (Seq l) c1 c2 -> bound_ok (Seq (q :: rest)) c1 c2.
Proof.
  intros E. apply bound_part. cbn [binds]. rewrite <- E. intros H.
  rewrite <- (firstn_skipn i l), existsb_app, orb_false_iff in H. tauto.
Qed.

Lemma xsim_step : xself (consume_step sf_ops env s1) (consume_step sf_ops env s2).
Proof.
  intros c1 c2 rq d1 d2 p st Hb Hd. unfold consume_step. pose proof (proj1 Hb) as Hk.
  destruct (Dr_ty _ _ Hd) as [Ht Hv].
  assert (forall rq q, bound_ok q c1 c2 -> forall a, xsim (s1 c1 rq d1 q a) (s2 c2 rq d2 q a)) as HS by auto.
  assert (forall rq q, bound_ok q c1 c2 -> forall a, xsim (s1 c1 rq DNil q a) (s2 c2 rq DNil q a)) as HN
    by (intros; apply Hs; auto using Dr_nil).
  assert (forall rq q, xsim (create sf_ops c1 rq d1 q) (create sf_ops c2 rq d2 q)) as HC
    by (intros; now apply xsim_create).
  assert (forall rq q, xsim (create sf_ops c1 rq DNil q) (create sf_ops c2 rq DNil q)) as HD
    by (intros; apply xsim_create; auto using Dr_nil).
  destruct st.
  - unfold skip_consume. rewrite Hk. repeat step; auto.
    + apply Hs; [split; auto; right|]; constructor.
    + apply xsim_create; auto using Dr_nil.
  - unfold clean_consume. repeat step; auto.
  - unfold atomic_consume. rewrite <- Hv. repeat step; auto. apply Hs; auto using Dr_cell.
  - destruct p; try apply xsim_raise; unfold char_consume, char_symbol_consume, eoi_consume, starved; repeat step.
  - destruct p; try apply xsim_raise; unfold lit_consume, starved; repeat step; auto.
  - destruct p; try apply xsim_raise. unfold sym_consume, sym_stop. repeat step; auto.
  - destruct p; try apply xsim_raise. unfold uint_consume. repeat step; auto.
  - destruct p; try apply xsim_raise. unfold int_consume, int_digit, int_negate. repeat step; auto.
  - destruct p; try apply xsim_raise; unfold nary_enter; (destruct (_ && _)%bool; [apply xsim_raise|]);
      destruct (skipn i l) as [|q rest] eqn:E; try apply xsim_raise.
    + apply xsim_seq_from; auto. eapply bound_skipn_seq; eauto.
    + apply xsim_alt_from; auto. exact (bound_skipn_seq l i q rest c1 c2 E Hb).
  - destruct p; try apply xsim_raise. unfold except_consume.
    assert (bound_ok p1 c1 c2 /\ bound_ok p2 c1 c2) as [? ?].
    { split; (eapply bound_part; [|exact Hb]); cbn; rewrite orb_false_iff; tauto. }
    repeat step; auto.
  - destruct p; try apply xsim_raise. unfold list_consume.
    assert (bound_ok p1 c1 c2 /\ bound_ok p2 c1 c2) as [? ?].
    { split; (eapply bound_part; [|exact Hb]); cbn; rewrite orb_false_iff; tauto. }
    repeat step; auto.
  - destruct p; try apply xsim_raise. unfold repeat_consume. repeat step; auto.
  - destruct p; try apply xsim_raise. unfold not_consume. repeat step; auto.
  - destruct p; try apply xsim_raise. unfold opt_consume. repeat step; auto.
  - destruct p; try apply xsim_raise; unfold forward_consume; repeat step; auto.
    + apply Hs; auto. destruct Hb; split; auto.
    + apply Hs; auto. destruct Hb; split; auto.
    + apply Hs; auto. split; auto.
  - destruct p; try apply xsim_raise. unfold action_consume.
    assert (ac_param a = true -> Dr (c_bound c1) (c_bound c2)) as Ha.
    { intros E. destruct (proj2 Hb) as [H|H]; auto. cbn in H. rewrite E in H. discriminate. }
    repeat step; auto using xsim_act. apply Hs; auto using Dr_cell.
    eapply bound_part; [|exact Hb]. cbn. rewrite orb_false_iff. tauto.
  - destruct p; try apply xsim_raise. unfold construct_consume. rewrite <- Ht. repeat step; auto. apply Hs; auto using Dr_cell.
  - destruct p; try apply xsim_raise. unfold recur_consume. destruct (env id) as [q|] eqn:E; [|apply xsim_raise].
    repeat step; auto. apply HS. eapply bound_part; [|exact Hb]. cbn. eauto.
Qed.
End Classes.

Lemma xsim_consume n : xself (consume sf_ops env n) (consume sf_ops env n).
Proof.
  induction n as [|n IH]; intros c1 c2 rq d1 d2 p a Hb Hd.
  - apply xsim_raise.
  - cbn. now apply xsim_step.
Qed.

Lemma xsim_run n c1 c2 rq d1 d2 p : bound_ok p c1 c2 -> Dr d1 d2 ->
  xsim (st <- create sf_ops c1 rq d1 p ;; consume sf_ops env n c1 rq d1 p st)
       (st <- create sf_ops c2 rq d2 p ;; consume sf_ops env n c2 rq d2 p st).
Proof.
  intros Hb Hd. apply xsim_bind; [apply xsim_create; auto; apply Hb|]. intros. now apply xsim_consume.
Qed.

End Local.
