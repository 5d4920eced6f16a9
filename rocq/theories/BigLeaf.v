(** What the leaves and the skippers do on a complete input. *)
From Coq Require Import List ZArith Bool Arith Lia.
From Verif Require Import Base CharSet Source Dst Pattern Parser Rel Safety Keep Limit Big BigMk.
Import ListNotations.

Definition res (b : bool) : result := if b then SUCCESS else FAILURE.

(** [f] is [o] for every sufficient fuel. *)
Definition evt {X} (f : nat -> outcome X) (o : outcome X) : Prop :=
  exists n0, forall n, n0 <= n -> f n = o.

Definition strip {S} (o : outcome ((result * pst) * world S)) : outcome (result * world S) :=
  match o with Done ((r, _), w) => Done (r, w) | Err e => Err e end.

Section Leaf.
Context (env : nat -> option pat).
Notation consume := (consume sf_ops env).

Lemma consume_up c rq d p st w n m x :
  consume n c rq d p st w = Done x -> n <= m -> consume m c rq d p st w = Done x.
Proof.
  intros H Hl. pose proof (Mono_mono _ w (Mono_consume sf_ops env c rq d p st)) as HM.
  destruct (HM n m Hl) as [E|E]; cbn in E; congruence.
Qed.

Lemma evt_of c rq d p st w n x :
  consume n c rq d p st w = Done x -> evt (fun n => consume n c rq d p st w) (Done x).
Proof. intros H. exists n. intros m Hm. now apply (consume_up _ _ _ _ _ _ n). Qed.

Lemma evt_det c rq d p st w n r st' w' o :
  consume n c rq d p st w = Done ((r, st'), w') ->
  evt (fun n => strip (consume n c rq d p st w)) o -> o = Done (r, w').
Proof.
  intros H [n0 H0]. specialize (H0 (max n n0) ltac:(lia)).
  rewrite (consume_up _ _ _ _ _ _ n (max n n0) _ H) in H0 by lia. cbn in H0. congruence.
Qed.

Lemma evt_step c rq d p st w o :
  evt (fun n => strip (consume_step sf_ops env (consume n) c rq d p st w)) o ->
  evt (fun n => strip (consume n c rq d p st w)) o.
Proof.
  intros [n0 H]. exists (S n0). intros [|n] Hn; [lia|]. cbn. apply H. lia.
Qed.

Lemma evt_const {X} (o : outcome X) : evt (fun _ => o) o.
Proof. exists 0. auto. Qed.

Lemma lit_leaf c rq d l stk cs tr : forall rest s,
  evt (fun n => strip (consume n c rq d (Lit l) (PLit rest) (W s stk cs tr)))
      (let '(b, s') := lit_run rest s in Done (res b, W s' stk cs tr)).
Proof.
  induction rest as [|x rest IH]; intros s; apply evt_step; cbn [consume_step lit_consume lit_run].
  - apply evt_const.
  - destruct s as [|y t]; cbn.
    + apply evt_const.
    + destruct (y =? x)%Z; cbn; [apply IH|apply evt_const].
Qed.

Lemma uint_leaf c rq d b lo hi stk tr : forall s cs cnt,
  evt (fun n => strip (consume n c rq d (UInt b lo hi) (PUInt cnt) (W s stk cs tr)))
      (obind (uint_run b lo hi d cnt cs s) (fun '(r, s', cs') => Done (res r, W s' stk cs' tr))).
Proof.
  induction s as [|x t IH]; intros cs cnt; apply evt_step; cbn [consume_step]; unfold uint_consume, bind, on_cells; cbn.
  - apply evt_const.
  - destruct (digit_valid b x); cbn; [|apply evt_const].
    destruct (num_op (fun z => (z * b)%Z) cs d) as [c1|e]; cbn; [|apply evt_const].
    destruct (num_op (fun z => (z + digit_value b x)%Z) c1 d) as [c2|e]; cbn; [|apply evt_const].
    destruct (cnt + 1 =? hi)%Z; cbn; [apply evt_const|apply IH].
Qed.

Lemma digits_leaf c rq d b lo hi stk tr neg : forall s cs cnt,
  evt (fun n => strip (consume n c rq d (Int b lo hi) (PInt cnt false neg) (W s stk cs tr)))
      (obind (uint_run b lo hi d cnt cs s) (fun '(r, s', cs') =>
       obind (neg_cells d neg cs') (fun c3 => Done (res r, W s' stk c3 tr)))).
Proof.
  induction s as [|x t IH]; intros cs cnt; apply evt_step; cbn [consume_step];
    unfold int_consume, int_digit, int_negate, neg_cells, bind, on_cells; cbn.
  - destruct neg; cbn; [|apply evt_const]. destruct (num_op (fun z => (z * -1)%Z) cs d); cbn; apply evt_const.
  - rewrite Bool.andb_false_r.
    destruct (digit_valid b x); cbn.
    + destruct (num_op (fun z => (z * b)%Z) cs d) as [c1|e]; cbn; [|apply evt_const].
      destruct (num_op (fun z => (z + digit_value b x)%Z) c1 d) as [c2|e]; cbn; [|apply evt_const].
      destruct (cnt + 1 =? hi)%Z; cbn; [|apply IH].
      destruct neg; cbn; [|apply evt_const]. destruct (num_op (fun z => (z * -1)%Z) c2 d); cbn; apply evt_const.
    + cbn. destruct neg; cbn; [|apply evt_const]. destruct (num_op (fun z => (z * -1)%Z) cs d); cbn; apply evt_const.
Qed.

Lemma int_leaf c rq d b lo hi stk tr s cs :
  evt (fun n => strip (consume n c rq d (Int b lo hi) (PInt 0 true false) (W s stk cs tr)))
      (obind (int_run b lo hi d cs s) (fun '(r, s', cs') => Done (res r, W s' stk cs' tr))).
Proof.
  assert (forall neg s0, obind (obind (uint_run b lo hi d 0 cs s0) (fun '(r, s2, c2) =>
             obind (neg_cells d neg c2) (fun c3 => Done (r, s2, c3))))
            (fun '(r, s', cs') => Done (res r, W s' stk cs' tr))
          = obind (uint_run b lo hi d 0 cs s0) (fun '(r, s', cs') =>
       obind (neg_cells d neg cs') (fun c3 => Done (res r, W s' stk c3 tr)))) as HE.
  { intros neg s0. destruct (uint_run b lo hi d 0 cs s0) as [[[r s'] c']|e]; cbn; auto.
    destruct (neg_cells d neg c'); reflexivity. }
  unfold int_run. destruct s as [|x t].
  - exists 1. intros [|n] Hn; [lia|]. reflexivity.
  - destruct (x =? 45)%Z eqn:E1; [|destruct (x =? 43)%Z eqn:E2].
    + rewrite HE. apply evt_step. cbn [consume_step]. unfold int_consume, bind; cbn. rewrite E1. cbn.
      apply digits_leaf.
    + rewrite HE. apply evt_step. cbn [consume_step]. unfold int_consume, bind; cbn. rewrite E1, E2. cbn.
      apply digits_leaf.
    + rewrite HE.
      destruct (digits_leaf c rq d b lo hi stk tr false (x :: t) cs 0%Z) as [n0 H0].
      exists (S n0). intros [|n] Hn; [lia|]. specialize (H0 (S n) ltac:(lia)). rewrite <- H0.
      cbn [Parser.consume consume_step]. unfold int_consume, bind; cbn. now rewrite E1, E2.
Qed.

Definition sym_stk (valid : option trie) (m : list Z) (stk : list (list Z)) :=
  match valid with Some _ => m :: stk | None => stk end.

Lemma sym_leaf c rq d mm stk tr cs : forall s nx valid m,
  evt (fun n => strip (consume n c rq d (Symbol mm) (PSym nx valid) (W s (sym_stk valid m stk) cs tr)))
      (obind (sym_run d nx valid m cs s) (fun '(r, s', cs') => Done (res r, W s' stk cs' tr))).
Proof.
  induction s as [|x t IH]; intros nx valid m; apply evt_step; cbn [consume_step];
    unfold sym_consume, sym_stop, m_assign, on_cells, bind; cbn.
  - destruct valid as [v|]; cbn; [|apply evt_const].
    destruct (sym_value v); cbn; [|apply evt_const].
    destruct (assign cs d a); cbn; apply evt_const.
  - destruct (assoc x (trie_child nx)) as [n'|]; cbn.
    + destruct (trie_val n') as [v|] eqn:Ev; cbn.
      * destruct valid as [v0|]; cbn.
        -- destruct (trie_child n'); cbn.
           ++ destruct (assign cs d v); cbn; apply evt_const.
           ++ apply (IH n' (Some n') t).
        -- destruct (trie_child n'); cbn.
           ++ destruct (assign cs d v); cbn; apply evt_const.
           ++ apply (IH n' (Some n') t).
      * apply IH.
    + destruct valid as [v|]; cbn; [|apply evt_const].
      destruct (sym_value v); cbn; [|apply evt_const].
      destruct (assign cs d a); cbn; apply evt_const.
Qed.

(** Skippers. *)
Definition skip_out (stk : list (list Z)) cs tr (p : pat) s : outcome (result * world sfwd) :=
  match skip1 p s with
  | Some s' => Done (SUCCESS, W s' stk cs tr)
  | None => Done (FAILURE, W s stk cs tr)
  end.


Fixpoint skip_all (l : list pat) (s : list Z) : option (list Z) :=
  match l with [] => Some s | q :: t => match skip1 q s with Some r => skip_all t r | None => None end end.
Fixpoint skip_any (l : list pat) (s : list Z) : option (list Z) :=
  match l with [] => None | q :: t => match skip1 q s with Some r => Some r | None => skip_any t s end end.
Fixpoint skip_rep (lo : nat) (q : pat) (f n : nat) (s : list Z) : option (list Z) :=
  match f with
  | 0 => None
  | S f' => match skip1 q s with Some r => skip_rep lo q f' (S n) r | None => if lo <=? n then Some s else None end
  end.
Lemma skip1_seq l s : skip1 (Seq l) s = skip_all l s.
Proof. reflexivity. Qed.
Lemma skip1_alt l s : skip1 (Alt l) s = skip_any l s.
Proof. induction l as [|q l IH]; [reflexivity|]. cbn [skip_any]. now rewrite <- IH. Qed.
Lemma skip1_rep lo hi q s : skip1 (Repeat lo hi q) s = skip_rep lo q (S (length s)) 0 s.
Proof.
  assert (forall f n s, (fix go (f n : nat) s := match f with
            | 0 => None
            | S f' => match skip1 q s with Some r => go f' (S n) r | None => if lo <=? n then Some s else None end
            end) f n s = skip_rep lo q f n s) as G.
  { induction f as [|f IH]; intros n s0; [reflexivity|]. cbn [skip_rep]. destruct (skip1 q s0); [apply IH|reflexivity]. }
  exact (G (S (length s)) 0 s).
Qed.
Lemma skip1_lit l : forall s, match skip1 (Lit l) s with Some t => lit_run l s = (true, t) | None => exists t, lit_run l s = (false, t) end.
Proof.
  induction l as [|x l IH]; intros s; cbn; auto. destruct s as [|y t]; eauto. destruct (y =? x)%Z; eauto. apply IH.
Qed.

(** The text left is behind the text read, if anything was. *)
Lemma skip_suffix p : forall s t, skip1 p s = Some t -> exists k, s = k ++ t /\ (moves p = true -> k <> []).
Proof.
  induction p using pat_ind'; intros s0 t0 E; try discriminate E.
  - cbn in E. destruct s0 as [|y u]; [discriminate|]. destruct (is_valid s y); [|discriminate]. injection E as <-. exists [y]. split; [reflexivity|discriminate].
  - cbn in E. destruct s0 as [|y u]; [discriminate|]. destruct (assoc y m); [|discriminate]. injection E as <-. exists []. split; [reflexivity|discriminate].
  - cbn in E. destruct s0; [|discriminate]. injection E as <-. exists []. split; [reflexivity|discriminate].
  - cbn [moves]. assert (exists k, s0 = k ++ t0 /\ k = s) as (k & -> & ->).
    { clear -E. cbn [skip1] in E. revert s0 E. induction s as [|x l IH]; intros s0 E; cbn in E; [injection E as <-; exists []; auto|].
      destruct s0 as [|y u]; [discriminate|]. destruct (y =? x)%Z eqn:Ex; [|discriminate]. apply Z.eqb_eq in Ex. subst.
      destruct (IH _ E) as (k & -> & ->). exists (x :: l). auto. }
    exists s. split; auto. destruct s; [discriminate|intros _; discriminate].
  - rewrite skip1_seq in E. cbn [moves]. revert s0 E. induction H as [|q l Hq _ IHl]; intros s0 E; cbn [skip_all existsb] in *.
    + injection E as <-. exists []. split; [reflexivity|discriminate].
    + destruct (skip1 q s0) as [s1|] eqn:E1; [|discriminate]. destruct (Hq _ _ E1) as (k1 & -> & N1). destruct (IHl _ E) as (k2 & -> & N2).
      exists (k1 ++ k2). rewrite <- app_assoc. split; auto. intros B N. apply app_eq_nil in N. destruct N. subst.
      apply orb_prop in B. destruct B as [B|B]; [now apply N1|now apply N2].
  - rewrite skip1_alt in E. cbn [moves]. induction H as [|q l Hq _ IHl]; cbn [skip_any forallb] in *; [discriminate|].
    destruct (skip1 q s0) as [s1|] eqn:E1.
    + injection E as ->. destruct (Hq _ _ E1) as (k & Ek & N). exists k. split; auto. intros B. apply andb_prop in B. now apply N.
    + destruct (IHl E) as (k & Ek & N). exists k. split; auto. intros B. apply andb_prop in B. now apply N.
  - rewrite skip1_rep in E. cbn [moves].
    assert (forall f n s0, skip_rep lo p f n s0 = Some t0 -> exists k, s0 = k ++ t0 /\ (moves p = true -> n < lo -> k <> [])) as G.
    { clear -IHp. induction f as [|f IH]; intros n s0 E; cbn in E; [discriminate|]. destruct (skip1 p s0) as [s1|] eqn:E1.
      - destruct (IHp _ _ E1) as (k1 & -> & N1). destruct (IH _ _ E) as (k2 & -> & N2). exists (k1 ++ k2). rewrite <- app_assoc. split; auto.
        intros B _ N. apply app_eq_nil in N. destruct N. now apply N1.
      - destruct (lo <=? n) eqn:El; [|discriminate]. injection E as <-. exists []. split; auto. intros _ L. apply Nat.leb_le in El. lia. }
    destruct (G _ _ _ E) as (k & -> & N). exists k. split; auto. intros B. apply andb_prop in B. destruct B as [B1 B2].
    apply negb_true_iff, Nat.eqb_neq in B1. apply N; auto. lia.
  - cbn [skip1] in E. cbn [moves]. now apply IHp.
  - cbn [skip1] in E. cbn [moves]. now apply IHp.
  - cbn [skip1] in E. cbn [moves]. destruct (skip1 p2 s0); [discriminate|]. now apply IHp1.
Qed.

(** [f] comes to [r] and [w] for every sufficient fuel. *)
Definition always (f : nat -> outcome ((result * pst) * world sfwd)) (r : result) (w : world sfwd) : Prop :=
  exists n0, forall n, n0 <= n -> exists st, f n = Done ((r, st), w).

(** What was made from [s], with marks at [s], and run: as [skip1] says. *)
Definition blk (rq : req) (p : pat) : Prop := exists st j, forall s stk cs tr,
  create_in sf_ops None rq DNil p (W s stk cs tr) = Done (st, W s (repeat s j ++ stk) cs tr) /\
  match skip1 p s with
  | Some t => always (fun n => consume n skip_ctx rq DNil p st (W s (repeat s j ++ stk) cs tr)) SUCCESS (W t stk cs tr)
  | None => exists t, (r_clean rq = true -> t = s) /\
      always (fun n => consume n skip_ctx rq DNil p st (W s (repeat s j ++ stk) cs tr)) FAILURE (W t stk cs tr)
  end.

Lemma blk_clean a cn p : f_clean p = false -> blk (Req a false cn false) p -> forall cl, blk (Req a cl cn false) p.
Proof.
  intros Hf H [|]; [|exact H]. destruct H as (st & j & H). exists (PClean st), (S j). intros s stk cs tr.
  assert (forall w, create_in sf_ops None (Req a true cn false) DNil p w =
            bind (create_in sf_ops None (Req a false cn false) DNil p) (fun c => bind (m_prepare sf_ops) (fun _ => ret (PClean c))) w) as HE.
  { destruct p; try discriminate Hf; cbn [create_in]; unfold adapt; cbn [r_recur r_clean r_atomic]; rewrite Hf; reflexivity. }
  split.
  - rewrite HE. unfold bind. rewrite (proj1 (H s stk cs tr)). reflexivity.
  - destruct (H s (s :: stk) cs tr) as [_ Hr].
    assert (repeat s j ++ s :: stk = repeat s (S j) ++ stk) as E2 by (change (repeat s (S j)) with (s :: repeat s j); rewrite repeat_cons, <- app_assoc; reflexivity). rewrite E2 in Hr.
    destruct (skip1 p s) as [t|].
    + destruct Hr as [n0 Hr]. exists (S n0). intros [|n] Hn; [lia|]. destruct (Hr n ltac:(lia)) as [st' E].
      cbn [Parser.consume consume_step]. unfold clean_consume, bind. change (unclean_req (Req a true cn false)) with (Req a false cn false). rewrite E.
      eexists; reflexivity.
    + destruct Hr as (t & _ & n0 & Hr). exists s. split; auto. exists (S n0). intros [|n] Hn; [lia|]. destruct (Hr n ltac:(lia)) as [st' E].
      cbn [Parser.consume consume_step]. unfold clean_consume, bind. change (unclean_req (Req a true cn false)) with (Req a false cn false). rewrite E.
      eexists; reflexivity.
Qed.

Lemma evt_always c rq d p st w r w' : evt (fun n => strip (consume n c rq d p st w)) (Done (r, w')) ->
  always (fun n => consume n c rq d p st w) r w'.
Proof.
  intros [n0 H]. exists n0. intros n Hn. specialize (H n Hn). destruct (consume n c rq d p st w) as [[[r0 st0] w0]|]; [|discriminate].
  cbn in H. injection H as -> ->. eauto.
Qed.
Lemma always_evt c rq d p st w r w' : always (fun n => consume n c rq d p st w) r w' ->
  evt (fun n => strip (consume n c rq d p st w)) (Done (r, w')).
Proof. intros [n0 H]. exists n0. intros n Hn. destruct (H n Hn) as [st' ->]. reflexivity. Qed.

Lemma blk_seq q l : Forall (blk seq_req) (q :: l) -> forall a cn, a = false -> blk (Req a false cn false) (Seq (q :: l)).
Proof.
  intros HF a cn ->. inversion HF as [|? ? (st & j & Hq) HF']; subst. exists (PNary 0 st), j. intros s stk cs tr. split.
  { change (bind (create_in sf_ops None seq_req DNil q) (fun c => ret (PNary 0 c)) (W s stk cs tr) = Done (PNary 0 st, W s (repeat s j ++ stk) cs tr)).
    unfold bind. now rewrite (proj1 (Hq s stk cs tr)). }
  rewrite skip1_seq.
  assert (forall L i, match skip_all (q :: l) s with
          | Some t => always (fun n => seq_from sf_ops (consume n) skip_ctx DNil L i q l st (W s (repeat s j ++ stk) cs tr)) SUCCESS (W t stk cs tr)
          | None => exists t, always (fun n => seq_from sf_ops (consume n) skip_ctx DNil L i q l st (W s (repeat s j ++ stk) cs tr)) FAILURE (W t stk cs tr)
          end) as G.
  { clear HF. revert q st j Hq s. induction l as [|q' l IH]; intros q st j Hq s L i; cbn [skip_all seq_from seq_dst].
    - destruct (Hq s stk cs tr) as [_ Hr]. destruct (skip1 q s) as [t|].
      + destruct Hr as [n0 Hr]. exists n0. intros n Hn. destruct (Hr n Hn) as [st' E]. unfold bind. rewrite E. eexists; reflexivity.
      + destruct Hr as (t & _ & n0 & Hr). exists t, n0. intros n Hn. destruct (Hr n Hn) as [st' E]. unfold bind. rewrite E. eexists; reflexivity.
    - destruct (Hq s stk cs tr) as [_ Hr]. inversion HF' as [|? ? (st1 & j1 & Hq1) HF1]; subst. destruct (skip1 q s) as [t|].
      + destruct Hr as [n0 Hr]. specialize (IH HF1 q' st1 j1 Hq1 t L (S i)). cbn [skip_all] in IH.
        destruct (match skip1 q' t with Some r => skip_all l r | None => None end) as [t2|].
        * destruct IH as [n1 H1]. exists (max n0 n1). intros n Hn. destruct (Hr n ltac:(lia)) as [st' E]. unfold bind at 1. rewrite E. cbn [fst snd].
          unfold bind. change (create sf_ops skip_ctx seq_req DNil q') with (create_in sf_ops None seq_req DNil q'). rewrite (proj1 (Hq1 t stk cs tr)). apply H1. lia.
        * destruct IH as (t2 & n1 & H1). exists t2, (max n0 n1). intros n Hn. destruct (Hr n ltac:(lia)) as [st' E]. unfold bind at 1. rewrite E. cbn [fst snd].
          unfold bind. change (create sf_ops skip_ctx seq_req DNil q') with (create_in sf_ops None seq_req DNil q'). rewrite (proj1 (Hq1 t stk cs tr)). apply H1. lia.
      + destruct Hr as (t & _ & n0 & Hr). exists t, n0. intros n Hn. destruct (Hr n Hn) as [st' E]. unfold bind. rewrite E. eexists; reflexivity. }
  specialize (G (q :: l) 0). destruct (skip_all (q :: l) s) as [t|].
  - destruct G as [n0 G]. exists (S n0). intros [|n] Hn; [lia|]. destruct (G n ltac:(lia)) as [st' E]. exists st'. exact E.
  - destruct G as (t & n0 & G). exists t. split; [discriminate|]. exists (S n0). intros [|n] Hn; [lia|]. destruct (G n ltac:(lia)) as [st' E]. exists st'. exact E.
Qed.

Lemma blk_alt q l a cl cn : Forall (blk (Req a true cn false)) (q :: l) -> blk (Req a cl cn false) (Alt (q :: l)).
Proof.
  intros HF. inversion HF as [|? ? (st & j & Hq) HF']; subst. exists (PNary 0 st), j. intros s stk cs tr. split.
  { assert (create_in sf_ops None (Req a cl cn false) DNil (Alt (q :: l)) (W s stk cs tr) =
            bind (create_in sf_ops None (Req a true cn false) DNil q) (fun c => ret (PNary 0 c)) (W s stk cs tr)) as -> by (destruct a, cl; reflexivity).
    unfold bind. now rewrite (proj1 (Hq s stk cs tr)). }
  rewrite skip1_alt.
  assert (forall i, match skip_any (q :: l) s with
          | Some t => always (fun n => alt_from sf_ops (consume n) skip_ctx (Req a cl cn false) DNil i q l st (W s (repeat s j ++ stk) cs tr)) SUCCESS (W t stk cs tr)
          | None => always (fun n => alt_from sf_ops (consume n) skip_ctx (Req a cl cn false) DNil i q l st (W s (repeat s j ++ stk) cs tr)) FAILURE (W s stk cs tr)
          end) as G.
  { clear HF. revert q st j Hq. induction l as [|q' l IH]; intros q st j Hq i; cbn [skip_any alt_from]; change (alt_req (Req a cl cn false)) with (Req a true cn false).
    - destruct (Hq s stk cs tr) as [_ Hr]. destruct (skip1 q s) as [t|].
      + destruct Hr as [n0 Hr]. exists n0. intros n Hn. destruct (Hr n Hn) as [st' E]. unfold bind. rewrite E. eexists; reflexivity.
      + destruct Hr as (t & Ht & n0 & Hr). rewrite (Ht eq_refl) in Hr. exists n0. intros n Hn. destruct (Hr n Hn) as [st' E]. unfold bind. rewrite E. eexists; reflexivity.
    - destruct (Hq s stk cs tr) as [_ Hr]. inversion HF' as [|? ? (st1 & j1 & Hq1) HF1]; subst. destruct (skip1 q s) as [t|].
      + destruct Hr as [n0 Hr]. exists n0. intros n Hn. destruct (Hr n Hn) as [st' E]. unfold bind. rewrite E. eexists; reflexivity.
      + destruct Hr as (t & Ht & n0 & Hr). rewrite (Ht eq_refl) in Hr. specialize (IH HF1 q' st1 j1 Hq1 (S i)). cbn [skip_any] in IH.
        destruct (match skip1 q' s with Some r => Some r | None => skip_any l s end) as [t2|];
          destruct IH as [n1 H1]; exists (max n0 n1); intros n Hn; destruct (Hr n ltac:(lia)) as [st' E]; unfold bind at 1; rewrite E; cbn [fst snd];
          unfold bind; change (create sf_ops skip_ctx (Req a true cn false) DNil q') with (create_in sf_ops None (Req a true cn false) DNil q');
          rewrite (proj1 (Hq1 s stk cs tr)); apply H1; lia. }
  specialize (G 0). destruct (skip_any (q :: l) s) as [t|].
  - destruct G as [n0 G]. exists (S n0). intros [|n] Hn; [lia|]. destruct (G n ltac:(lia)) as [st' E]. exists st'. exact E.
  - exists s. split; auto. destruct G as (n0 & G). exists (S n0). intros [|n] Hn; [lia|]. destruct (G n ltac:(lia)) as [st' E]. exists st'. exact E.
Qed.

Lemma blk_rep lo q cn : moves q = true -> cn && (lo =? 0) = false ->
  blk (Req true true cn false) q -> blk (Req false false cn false) (Repeat lo 0 q).
Proof.
  intros He Hc (st & j & Hq). exists (PRepeat 0 st), j. intros s stk cs tr. split.
  { assert (create_in sf_ops None (Req false false cn false) DNil (Repeat lo 0 q) (W s stk cs tr) =
            bind (create_in sf_ops None (Req true true cn false) DNil q) (fun c => ret (PRepeat 0 c)) (W s stk cs tr)) as ->.
    { cbn [create_in]. unfold adapt. cbn [r_recur r_atomic r_clean andb r_consumes]. rewrite Hc. unfold repeat_req. cbn [r_consumes Nat.eqb].
      rewrite orb_true_r. reflexivity. }
    unfold bind. now rewrite (proj1 (Hq s stk cs tr)). }
  rewrite skip1_rep.
  assert (forall f n s, length s < f -> match skip_rep lo q f n s with
          | Some t => always (fun m => consume m skip_ctx (Req false false cn false) DNil (Repeat lo 0 q) (PRepeat n st) (W s (repeat s j ++ stk) cs tr)) SUCCESS (W t stk cs tr)
          | None => exists t, always (fun m => consume m skip_ctx (Req false false cn false) DNil (Repeat lo 0 q) (PRepeat n st) (W s (repeat s j ++ stk) cs tr)) FAILURE (W t stk cs tr)
          end) as G.
  { clear s. induction f as [|f IH]; intros n s Hf; [lia|]. cbn [skip_rep]. destruct (Hq s stk cs tr) as [_ Hr].
    assert (forall m, consume (S m) skip_ctx (Req false false cn false) DNil (Repeat lo 0 q) (PRepeat n st) (W s (repeat s j ++ stk) cs tr) =
      repeat_consume sf_ops (consume m) skip_ctx (Req false false cn false) DNil (Repeat lo 0 q) lo 0 q n st (W s (repeat s j ++ stk) cs tr)) as Hm by reflexivity.
    assert (repeat_req lo 0 (Req false false cn false) = Req true true cn false) as Hrq by (unfold repeat_req; cbn; now rewrite orb_true_r).
    destruct (skip1 q s) as [t|] eqn:E1.
    - destruct Hr as [n0 Hr]. destruct (skip_suffix _ _ _ E1) as (k & Ek & N). specialize (N He).
      assert (length t < f) as Ht by (rewrite Ek, app_length in Hf; destruct k; [easy|cbn in Hf; lia]).
      specialize (IH (S n) t Ht). destruct (skip_rep lo q f (S n) t) as [t2|].
      + destruct IH as [n1 H1]. exists (S (max n0 n1)). intros [|m] Hn; [lia|]. rewrite Hm. unfold repeat_consume. rewrite Hrq.
        destruct (Hr m ltac:(lia)) as [st' E]. unfold bind at 1. rewrite E. cbn [fst snd negb Nat.eqb andb]. unfold bind.
        change (create sf_ops skip_ctx (Req true true cn false) DNil q) with (create_in sf_ops None (Req true true cn false) DNil q).
        rewrite (proj1 (Hq t stk cs tr)). apply H1. lia.
      + destruct IH as (t2 & n1 & H1). exists t2, (S (max n0 n1)). intros [|m] Hn; [lia|]. rewrite Hm. unfold repeat_consume. rewrite Hrq.
        destruct (Hr m ltac:(lia)) as [st' E]. unfold bind at 1. rewrite E. cbn [fst snd negb Nat.eqb andb]. unfold bind.
        change (create sf_ops skip_ctx (Req true true cn false) DNil q) with (create_in sf_ops None (Req true true cn false) DNil q).
        rewrite (proj1 (Hq t stk cs tr)). apply H1. lia.
    - destruct Hr as (t & Ht & n0 & Hr). rewrite (Ht eq_refl) in Hr. destruct (lo <=? n) eqn:El.
      + exists (S n0). intros [|m] Hn; [lia|]. rewrite Hm. unfold repeat_consume. rewrite Hrq.
        destruct (Hr m ltac:(lia)) as [st' E]. unfold bind at 1. rewrite E. cbn [fst snd]. rewrite El. eexists; reflexivity.
      + exists s, (S n0). intros [|m] Hn; [lia|]. rewrite Hm. unfold repeat_consume. rewrite Hrq.
        destruct (Hr m ltac:(lia)) as [st' E]. unfold bind at 1. rewrite E. cbn [fst snd]. rewrite El. eexists; reflexivity. }
  specialize (G (S (length s)) 0 s (Nat.lt_succ_diag_r _)). destruct (skip_rep lo q (S (length s)) 0 s); auto.
  destruct G as [t G]. exists t. split; [discriminate|exact G].
Qed.

Lemma blk_except q neg a cn : blk neg_req neg -> blk (Req a false cn false) q -> blk (Req a false cn false) (Except q neg).
Proof.
  intros (st & j & Hn) (stq & jq & Hq). exists (PExcept 0 st), j. intros s stk cs tr. split.
  { assert (create_in sf_ops None (Req a false cn false) DNil (Except q neg) (W s stk cs tr) =
            bind (create_in sf_ops None neg_req DNil neg) (fun c => ret (PExcept 0 c)) (W s stk cs tr)) as -> by (destruct a; reflexivity).
    unfold bind. now rewrite (proj1 (Hn s stk cs tr)). }
  assert (forall m, consume (S m) skip_ctx (Req a false cn false) DNil (Except q neg) (PExcept 0 st) (W s (repeat s j ++ stk) cs tr) =
    except_consume sf_ops (consume m) skip_ctx (Req a false cn false) DNil q neg 0 st (W s (repeat s j ++ stk) cs tr)) as Hm by reflexivity.
  cbn [skip1]. destruct (Hn s stk cs tr) as [_ Hr]. destruct (skip1 neg s) as [t|].
  - destruct Hr as [n0 Hr]. exists t. split; [discriminate|]. exists (S n0). intros [|m] Hl; [lia|]. rewrite Hm. unfold except_consume.
    destruct (Hr m ltac:(lia)) as [st' E]. unfold bind. rewrite E. eexists; reflexivity.
  - destruct Hr as (t & Ht & n0 & Hr). rewrite (Ht eq_refl) in Hr. destruct (Hq s stk cs tr) as [Hc Hr2]. destruct (skip1 q s) as [t2|].
    + destruct Hr2 as [n1 H1]. exists (S (max n0 n1)). intros [|m] Hl; [lia|]. rewrite Hm. unfold except_consume.
      destruct (Hr m ltac:(lia)) as [st' E]. destruct (H1 m ltac:(lia)) as [st2 E2]. unfold bind at 1. rewrite E. cbn [fst snd].
      change (except_req (Req a false cn false)) with (Req a false cn false).
      change (create sf_ops skip_ctx (Req a false cn false) DNil q) with (create_in sf_ops None (Req a false cn false) DNil q).
      unfold bind. rewrite Hc, E2. eexists; reflexivity.
    + destruct Hr2 as (t2 & _ & n1 & H1). exists t2. split; [discriminate|]. exists (S (max n0 n1)). intros [|m] Hl; [lia|]. rewrite Hm. unfold except_consume.
      destruct (Hr m ltac:(lia)) as [st' E]. destruct (H1 m ltac:(lia)) as [st2 E2]. unfold bind at 1. rewrite E. cbn [fst snd].
      change (except_req (Req a false cn false)) with (Req a false cn false).
      change (create sf_ops skip_ctx (Req a false cn false) DNil q) with (create_in sf_ops None (Req a false cn false) DNil q).
      unfold bind. rewrite Hc, E2. eexists; reflexivity.
Qed.

Lemma blk_one p q a cl cn : (p = Discard q \/ p = Lexeme q) -> blk (Req a cl cn false) q -> blk (Req a cl cn false) p.
Proof.
  intros Hp (st & j & Hq). exists (POne st), j. intros s stk cs tr. split.
  { assert (create_in sf_ops None (Req a cl cn false) DNil p (W s stk cs tr) =
            bind (create_in sf_ops None (Req a cl cn false) DNil q) (fun c => ret (POne c)) (W s stk cs tr)) as -> by (destruct Hp as [-> | ->], a, cl; reflexivity).
    unfold bind. now rewrite (proj1 (Hq s stk cs tr)). }
  assert (skip1 p s = skip1 q s) as -> by (destruct Hp as [-> | ->]; reflexivity).
  assert (forall m, consume (S m) skip_ctx (Req a cl cn false) DNil p (POne st) (W s (repeat s j ++ stk) cs tr) =
    forward_consume (consume m) skip_ctx (Req a cl cn false) DNil q st (W s (repeat s j ++ stk) cs tr)) as Hm by (destruct Hp as [-> | ->]; reflexivity).
  destruct (Hq s stk cs tr) as [_ Hr]. destruct (skip1 q s) as [t|].
  - destruct Hr as [n0 Hr]. exists (S n0). intros [|m] Hl; [lia|]. rewrite Hm. unfold forward_consume.
    destruct (Hr m ltac:(lia)) as [st' E]. unfold bind. rewrite E. eexists; reflexivity.
  - destruct Hr as (t & Ht & n0 & Hr). exists t. split; auto. exists (S n0). intros [|m] Hl; [lia|]. rewrite Hm. unfold forward_consume.
    destruct (Hr m ltac:(lia)) as [st' E]. unfold bind. rewrite E. eexists; reflexivity.
Qed.

Lemma blk_leaf p rq : match p with Char _ | CharSymbol _ | Eoi | Fail => True | _ => False end -> r_recur rq = false -> blk rq p.
Proof.
  intros Hp Hr. exists PLeaf, 0. intros s stk cs tr. split.
  { destruct rq as [a cl cn rc]. cbn in Hr. subst. destruct p; try easy; destruct a, cl; reflexivity. }
  destruct p; try easy; cbn [skip1].
  - destruct s as [|x t]; [|destruct (is_valid s0 x) eqn:E].
    + exists []. split; auto. exists 1. intros [|n] Hn; [lia|]. eexists; reflexivity.
    + exists 1. intros [|n] Hn; [lia|]. cbn. unfold char_consume, bind. cbn. rewrite E. eexists; reflexivity.
    + exists (x :: t). split; auto. exists 1. intros [|n] Hn; [lia|]. cbn. unfold char_consume, bind. cbn. rewrite E. eexists; reflexivity.
  - destruct s as [|x t]; [|destruct (assoc x m) eqn:E].
    + exists []. split; auto. exists 1. intros [|n] Hn; [lia|]. eexists; reflexivity.
    + exists 1. intros [|n] Hn; [lia|]. cbn. unfold char_symbol_consume, bind. cbn. rewrite E. eexists; reflexivity.
    + exists (x :: t). split; auto. exists 1. intros [|n] Hn; [lia|]. cbn. unfold char_symbol_consume, bind. cbn. rewrite E. eexists; reflexivity.
  - destruct s as [|x t].
    + exists 1. intros [|n] Hn; [lia|]. eexists; reflexivity.
    + exists (x :: t). split; auto. exists 1. intros [|n] Hn; [lia|]. eexists; reflexivity.
  - exists s. split; auto. exists 1. intros [|n] Hn; [lia|]. eexists; reflexivity.
Qed.

Lemma blk_all p : forall rq, sblk rq p = true -> r_recur rq = false -> blk rq p.
Proof.
  induction p using pat_ind'; intros [at_ cl cn rc] Hs Hr; try discriminate Hs; cbn in Hr; subst rc.
  1-4: now apply blk_leaf.
  - apply blk_clean; [reflexivity|]. exists (PLit s), 0. intros s0 stk cs tr. split; [destruct at_; reflexivity|]. pose proof (skip1_lit s s0) as E.
    pose proof (lit_leaf skip_ctx (Req at_ false cn false) DNil s stk cs tr s s0) as G.
    destruct (skip1 (Lit s) s0) as [t|].
    + rewrite E in G. apply evt_always. exact G.
    + destruct E as [t E]. rewrite E in G. exists t. split; [discriminate|]. apply evt_always. exact G.
  - destruct l as [|q l]; [discriminate|]. cbn [sblk r_atomic] in Hs. apply andb_prop in Hs. destruct Hs as [Ha Hs]. apply negb_true_iff in Ha. subst.
    apply blk_clean; [reflexivity|]. apply blk_seq; [|reflexivity]. rewrite forallb_forall in Hs. rewrite Forall_forall in *. intros x Hx.
    apply H; auto.
  - destruct l as [|q l]; [discriminate|]. cbn [sblk alt_req r_atomic r_consumes] in Hs. apply blk_alt. rewrite forallb_forall in Hs. rewrite Forall_forall in *. intros x Hx.
    apply H; auto.
  - cbn [sblk r_atomic r_consumes repeat_req] in Hs. repeat (apply andb_prop in Hs; destruct Hs as [Hs ?]).
    apply negb_true_iff in Hs. apply negb_true_iff in H2. apply Nat.eqb_eq in H1. subst. apply blk_clean; [reflexivity|]. apply blk_rep; auto.
    apply IHp; auto. unfold repeat_req in H. cbn [r_consumes] in H. replace (negb (lo =? 0) || (0 =? 0)) with true in H by (now rewrite orb_true_r). exact H.
  - cbn [sblk] in Hs. eapply blk_one; eauto.
  - cbn [sblk] in Hs. eapply blk_one; eauto.
  - cbn [sblk] in Hs. apply andb_prop in Hs. destruct Hs. apply blk_clean; [reflexivity|]. apply blk_except; auto.
Qed.

Lemma sfree_blk p : sfree p = true -> sblk skip_req p = true.
Proof.
  induction p using pat_ind'; cbn [sfree sblk]; try discriminate; auto. destruct l as [|q l]; [discriminate|]. intros Hs. apply andb_prop in Hs.
  destruct Hs as [H1 H2]. inversion H; subst. cbn [forallb]. change (alt_req skip_req) with skip_req. rewrite H2, H4; auto.
Qed.

Lemma skip_leaf p stk cs tr : sfree p = true -> forall s,
  evt (fun n => strip (consume n skip_ctx skip_req DNil p (skip_st p) (W s stk cs tr)))
      (skip_out stk cs tr p s).
Proof.
  intros Hs s. destruct (blk_all p skip_req (sfree_blk _ Hs) eq_refl) as (st & j & H). destruct (makes_skip p Hs) as [Hm Ho].
  assert (st = skip_st p /\ j = 0) as [-> ->].
  { destruct (H [] [] [] []) as [E _]. rewrite Hm in E. cbn [mk_ret] in E. rewrite Ho in E. injection E as E1 E2. split; auto.
    destruct j; [reflexivity|discriminate]. }
  destruct (H s stk cs tr) as [_ Hr]. unfold skip_out. cbn [repeat app] in Hr. destruct (skip1 p s) as [t|].
  - now apply always_evt.
  - destruct Hr as (t & Ht & Hr). rewrite (Ht eq_refl) in Hr. now apply always_evt.
Qed.

End Leaf.
