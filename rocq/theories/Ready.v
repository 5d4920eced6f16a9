(** Primitive parsers wait exactly as long as what they were given leaves the answer open. *)
From Coq Require Import List ZArith Bool Arith Lia.
From Verif Require Import Base CharSet Source Dst Pattern Parser Session SpecSession SpecPeg SpecWait SpecReady.
From Verif Require Import Limit SessionProofs WaitThms Leaf.
Import ListNotations.

(** [A] was read, [B] is still there, and the end is not known. *)
Definition at_ (A B : list Z) (k : list nat) (c : list val) (tr : list event) : world cursor :=
  World (Cursor (A ++ B) false (length A) k) c tr.

Section Ops.
Context (A B : list Z) (k : list nat) (c : list val) (tr : list event) (x : Z).

Lemma at_empty : m_empty (a_ops true) (at_ A [] k c tr) = Done (true, at_ A [] k c tr).
Proof. unfold m_empty, at_. cbn. unfold a_empty. cbn. now rewrite app_nil_r, Nat.leb_refl. Qed.
Lemma at_full : m_empty (a_ops true) (at_ A (x :: B) k c tr) = Done (false, at_ A (x :: B) k c tr).
Proof.
  unfold m_empty, at_. cbn. unfold a_empty. cbn. rewrite app_length. cbn.
  destruct (Nat.leb_spec (length A + S (length B)) (length A)); [lia|reflexivity].
Qed.
Lemma at_final : m_final (a_ops true) (at_ A B k c tr) = Done (false, at_ A B k c tr).
Proof. reflexivity. Qed.
Lemma at_next : m_next (a_ops true) (at_ A (x :: B) k c tr) = Done (x, at_ A (x :: B) k c tr).
Proof.
  unfold m_next, at_. cbn. unfold a_next. cbn. rewrite nth_error_app2 by lia. now rewrite Nat.sub_diag.
Qed.
Lemma at_advance : m_advance (a_ops true) (at_ A (x :: B) k c tr) = Done (tt, at_ (A ++ [x]) B k c tr).
Proof.
  unfold m_advance, m_src, at_. cbn. unfold a_advance, a_empty. cbn. rewrite app_length. cbn.
  destruct (Nat.leb_spec (length A + S (length B)) (length A)); [lia|]. cbn.
  rewrite <- app_assoc, app_length, Nat.add_1_r. reflexivity.
Qed.
Lemma at_cells f : on_cells f (at_ A B k c tr) = match f c with Done c' => Done (tt, at_ A B k c' tr) | Err e => Err e end.
Proof. reflexivity. Qed.
Lemma at_prepare : m_prepare (a_ops true) (at_ A B k c tr) = Done (tt, at_ A B (length A :: k) c tr).
Proof. reflexivity. Qed.
Lemma at_cancel u w : m_cancel (a_ops true) (at_ A B k c tr) = Done (u, w) -> exists k', w = at_ A B k' c tr.
Proof. unfold m_cancel, m_src, at_. cbn. destruct k; intros [= <- <-]; eauto. Qed.
End Ops.

Section Leaf.
Context (env : nat -> option pat) (cx : ctx) (rq : req) (d : dst).
Local Notation run := (consume (a_ops true) env).

Ltac op := first [rewrite at_empty | rewrite at_full | rewrite at_final | rewrite at_next | rewrite at_advance | rewrite at_prepare].

Lemma lit_ready L : forall n rest A B k c tr r st w,
  run n cx rq d (Lit L) (PLit rest) (at_ A B k c tr) = Done ((r, st), w) -> (r = PARTIAL <-> short_of B rest).
Proof.
  induction n as [|n IH]; intros rest A B k c tr r st w; [discriminate|].
  cbn [consume consume_step]. unfold lit_consume. destruct rest as [|y rest].
  - intros [= <- <- <-]. split; [discriminate|]. intros (z & b & E). destruct B; discriminate.
  - unfold starved, bind. destruct B as [|x B].
    + op. op. intros [= <- <- <-]. split; [|auto]. intros _. exists y, rest. reflexivity.
    + op. op. destruct (Z.eqb_spec x y) as [->|N].
      * op. intros H. rewrite (IH _ _ _ _ _ _ _ _ _ H). unfold short_of. split; intros (z & b & E); exists z, b.
        -- cbn. now rewrite E.
        -- now injection E.
      * intros [= <- <- <-]. split; [discriminate|]. intros (z & b & E). cbn in E. congruence.
Qed.

Lemma char_ready s n A B k c tr r st w :
  run n cx rq d (Char s) PLeaf (at_ A B k c tr) = Done ((r, st), w) -> (r = PARTIAL <-> B = []).
Proof.
  destruct n as [|n]; [discriminate|]. cbn [consume consume_step]. unfold char_consume, starved, bind.
  destruct B as [|x B]; op; op.
  - intros [= <- <- <-]. tauto.
  - destruct (is_valid s x); [|intros [= <- <- <-]; split; discriminate].
    unfold m_assign. rewrite at_cells. destruct (assign c d (VNum x)); [|discriminate]. op.
    intros [= <- <- <-]; split; discriminate.
Qed.

Lemma char_symbol_ready m n A B k c tr r st w :
  run n cx rq d (CharSymbol m) PLeaf (at_ A B k c tr) = Done ((r, st), w) -> (r = PARTIAL <-> B = []).
Proof.
  destruct n as [|n]; [discriminate|]. cbn [consume consume_step]. unfold char_symbol_consume, starved, bind.
  destruct B as [|x B]; op; op.
  - intros [= <- <- <-]. tauto.
  - destruct (assoc x m); [|intros [= <- <- <-]; split; discriminate].
    unfold m_assign. rewrite at_cells. destruct (assign c d v); [|discriminate].
    intros [= <- <- <-]; split; discriminate.
Qed.

Lemma eoi_ready n A B k c tr r st w :
  run n cx rq d Eoi PLeaf (at_ A B k c tr) = Done ((r, st), w) -> (r = PARTIAL <-> B = []).
Proof.
  destruct n as [|n]; [discriminate|]. cbn [consume consume_step]. unfold eoi_consume, bind.
  destruct B as [|x B]; op; try op.
  - intros [= <- <- <-]. tauto.
  - intros [= <- <- <-]; split; discriminate.
Qed.

(** ** Numbers *)

Section Num.
Context (b lo hi : Z) (Hb : (2 <= b <= 35)%Z).

Definition open_ (cnt : Z) (s : list Z) : Prop :=
  Forall (fun z => is_digit b z = true) s /\ (0 < hi -> cnt + Z.of_nat (length s) < hi)%Z.

Lemma open_nil cnt : (hi <= 0 \/ cnt < hi)%Z -> open_ cnt [].
Proof. intros H. split; [constructor|]. cbn. lia. Qed.

Lemma open_cons cnt x s : is_digit b x = true -> (open_ (cnt + 1) s <-> open_ cnt (x :: s)).
Proof.
  intros Hx. unfold open_. cbn [length]. split; intros [H1 H2].
  - split; [constructor; auto|]. lia.
  - inversion H1; subst. split; auto. lia.
Qed.

Lemma uint_ready : forall n cnt A B k c tr r st w, Forall (tok ct_char) B -> (0 <= cnt)%Z -> (hi <= 0 \/ cnt < hi)%Z ->
  run n cx rq d (UInt b lo hi) (PUInt cnt) (at_ A B k c tr) = Done ((r, st), w) -> (r = PARTIAL <-> open_ cnt B).
Proof.
  induction n as [|n IH]; intros cnt A B k c tr r st w HB H0 Hh; [discriminate|].
  cbn [consume consume_step]. unfold uint_consume, bind. destruct B as [|x B]; op; op.
  - intros [= <- <- <-]. pose proof (open_nil cnt Hh). tauto.
  - inversion HB as [|? ? Hx HB']; subst. rewrite digit_valid_ok by auto. destruct (is_digit b x) eqn:Ex.
    + rewrite at_cells. destruct (num_op _ c d) as [c1|]; [|discriminate].
      rewrite at_cells. destruct (num_op _ c1 d) as [c2|]; [|discriminate]. op.
      destruct (Z.eqb_spec (cnt + 1) hi) as [E|N].
      * intros [= <- <- <-]. split; [discriminate|]. intros [_ H]. cbn [length] in H. lia.
      * intros H. rewrite (IH (cnt + 1)%Z _ _ _ _ _ _ _ _ HB' ltac:(lia) ltac:(lia) H). now apply open_cons.
    + intros [= <- <- <-]. split; [destruct (lo <=? cnt)%Z; discriminate|]. intros [H _]. inversion H; congruence.
Qed.

Lemma int_ready_rest : forall n cnt look neg A B k c tr r st w, Forall (tok ct_char) B -> (0 <= cnt)%Z -> (hi <= 0 \/ cnt < hi)%Z ->
  look = false ->
  run n cx rq d (Int b lo hi) (PInt cnt look neg) (at_ A B k c tr) = Done ((r, st), w) -> (r = PARTIAL <-> open_ cnt B).
Proof.
  induction n as [|n IH]; intros cnt look neg A B k c tr r st w HB H0 Hh ->; [discriminate|].
  cbn [consume consume_step]. unfold int_consume, int_digit, bind. rewrite andb_false_r. destruct B as [|x B]; op; op.
  - intros [= <- <- <-]. pose proof (open_nil cnt Hh). tauto.
  - inversion HB as [|? ? Hx HB']; subst. rewrite digit_valid_ok by auto. destruct (is_digit b x) eqn:Ex.
    + rewrite at_cells. destruct (num_op _ c d) as [c1|]; [|discriminate].
      rewrite at_cells. destruct (num_op _ c1 d) as [c2|]; [|discriminate]. op.
      destruct (Z.eqb_spec (cnt + 1) hi) as [E|N].
      * destruct (int_negate d neg _) as [[[] w1]|]; [|discriminate].
        intros [= <- <- <-]. split; [discriminate|]. intros [_ H]. cbn [length] in H. clear - H0 E H. assert (0 < hi)%Z as H1 by lia. specialize (H H1). lia.
      * intros H. rewrite (IH (cnt + 1)%Z _ _ _ _ _ _ _ _ _ _ HB' ltac:(lia) ltac:(lia) eq_refl H). now apply open_cons.
    + destruct (int_negate d neg _) as [[[] w1]|]; [|discriminate].
      intros [= <- <- <-]. split; [destruct (lo <=? cnt)%Z; discriminate|]. intros [H _]. inversion H; congruence.
Qed.

Lemma int_ready n A B k c tr r st w : Forall (tok ct_char) B ->
  run n cx rq d (Int b lo hi) (PInt 0 true false) (at_ A B k c tr) = Done ((r, st), w) -> (r = PARTIAL <-> open_ 0 (unsigned B)).
Proof.
  intros HB. destruct n as [|n]; [discriminate|]. destruct B as [|x B].
  - cbn [consume consume_step]. unfold int_consume, bind. op. op. intros [= <- <- <-].
    assert (hi <= 0 \/ 0 < hi)%Z as Hh by lia. pose proof (open_nil 0 Hh). tauto.
  - inversion HB as [|? ? Hx HB']; subst. cbn [consume consume_step unsigned]. unfold int_consume. cbn [Z.eqb andb].
    unfold bind at 1. op. unfold bind at 1. op.
    assert (hi <= 0 \/ 0 < hi)%Z as Hh by lia.
    destruct (Z.eqb_spec x 45) as [E|N1]; [|destruct (Z.eqb_spec x 43) as [E|N2]]; cbn [orb].
    + unfold bind. op. intros H. eapply int_ready_rest; [exact HB'|lia|exact Hh|reflexivity|exact H].
    + unfold bind. op. intros H. eapply int_ready_rest; [exact HB'|lia|exact Hh|reflexivity|exact H].
    + intros H. apply (int_ready_rest (S n) 0 false false A (x :: B) k c tr r st w HB); auto; [lia|].
      cbn [consume consume_step]. unfold int_consume. cbn [Z.eqb andb].
      unfold bind at 1. op. unfold bind at 1. op. exact H.
Qed.
End Num.

(** ** Symbol tables *)

(** Every node has an entry at it or below it. *)
Inductive live : trie -> Prop :=
| live_here v l : live (Node (Some v) l)
| live_below v l x n : assoc x l = Some n -> live n -> live (Node v l).

Lemma live_find n : live n <-> exists key x, trie_find n key = Some x.
Proof.
  split.
  - induction 1 as [v l|v l x n E _ (key & y & IH)]; [now exists [], v|]. exists (x :: key), y. cbn. now rewrite E.
  - intros (key & y & H). revert n H. induction key as [|x key IH]; intros [v l] H; cbn in H.
    + subst. constructor.
    + destruct (assoc x l) eqn:E; [|discriminate]. apply (live_below _ _ x t); auto.
Qed.

(** All nodes below are so. *)
Inductive lush : trie -> Prop :=
| lush_mk v l : (forall x n, In (x, n) l -> live n /\ lush n) -> lush (Node v l).

Lemma assoc_set_in {T} k (a : T) l y b : In (y, b) (assoc_set k a l) -> (y = k /\ b = a) \/ In (y, b) l.
Proof.
  induction l as [|[k' a'] l IH]; cbn.
  - intros [[= <- <-]|[]]; auto.
  - destruct (Z.eqb k k'); cbn; intros [H|H]; auto.
    + injection H as <- <-. auto.
    + destruct (IH H); auto.
Qed.

Lemma assoc_in {T} x (l : list (Z * T)) n : assoc x l = Some n -> In (x, n) l.
Proof.
  induction l as [|[y m] l IH]; cbn; [discriminate|]. destruct (Z.eqb_spec x y); [intros [= ->]; subst; auto|auto].
Qed.

Lemma lush_insert key v : forall n, lush n -> lush (trie_insert key v n).
Proof.
  induction key as [|x key IH]; intros [v0 l] H; cbn.
  - inversion H; subst. now constructor.
  - inversion H as [? ? HL]; subst. constructor. intros y m Hm. apply assoc_set_in in Hm. destruct Hm as [[-> ->]|Hm]; [|eauto].
    split.
    + apply live_find. exists key, v. apply trie_find_same.
    + apply IH. destruct (assoc x l) eqn:E; [apply assoc_in in E; now apply HL in E|]. constructor. intros ? ? [].
Qed.

Lemma lush_build e : lush (trie_build e).
Proof.
  unfold trie_build. assert (lush (Node None [])) as H by (constructor; intros ? ? []). revert H.
  generalize (Node None []). induction e as [|[key v] e IH]; intros n H; cbn; auto. apply IH. now apply lush_insert.
Qed.

(** An entry below [n] that starts with [s] and has more. *)
Definition longer (n : trie) (s : list Z) : Prop := exists z b v, trie_find n (s ++ z :: b) = Some v.

Lemma longer_child n : lush n -> (longer n [] <-> trie_child n <> []).
Proof.
  intros H. destruct n as [v [|[x n] l]]; cbn.
  - split; [|congruence]. intros (z & b & y & E). discriminate.
  - split; [discriminate|]. intros _. inversion H as [? ? HL]; subst. destruct (HL x n (or_introl eq_refl)) as [Hn _].
    apply live_find in Hn. destruct Hn as (key & y & E). exists x, key, y. cbn. now rewrite Z.eqb_refl.
Qed.

Lemma sym_ready e : forall n nx valid A B k c tr r st w, lush nx ->
  run n cx rq d (Symbol e) (PSym nx valid) (at_ A B k c tr) = Done ((r, st), w) ->
  (r = PARTIAL <-> B = [] \/ longer nx B).
Proof.
  assert (forall valid nx w0 r st w, sym_stop (a_ops true) d nx valid w0 = Done ((r, st), w) -> r <> PARTIAL) as HS.
  { intros valid nx w0 r st w. unfold sym_stop. destruct valid as [m|]; [|now intros [= <- <- <-]].
    destruct (sym_value m); [|discriminate]. unfold bind. destruct (m_assign _ _ _) as [[[] w1]|]; [|discriminate].
    destruct (m_commit _ _) as [[[] w2]|]; [|discriminate]. now intros [= <- <- <-]. }
  induction n as [|n IH]; intros nx valid A B k c tr r st w HL; [discriminate|].
  cbn [consume consume_step]. unfold sym_consume, bind. destruct B as [|x B]; op; op.
  - intros [= <- <- <-]. tauto.
  - destruct (assoc x (trie_child nx)) as [m|] eqn:Ea.
    2:{ intros H. apply HS in H. split; [congruence|]. intros [H'|(z & b & v & H')]; [discriminate|]. cbn in H'. now rewrite Ea in H'. }
    assert (lush m) as Hm. { inversion HL; subst. cbn in Ea. apply assoc_in in Ea. now apply H in Ea. }
    assert (longer nx (x :: B) <-> longer m B) as HE. { unfold longer. cbn. now rewrite Ea. }
    op. destruct (trie_val m) as [v|] eqn:Ev.
    2:{ intros H. rewrite (IH _ _ _ _ _ _ _ _ _ _ Hm H), HE. split; [|intros [X|X]; [discriminate X|auto]]. intros [->|H']; auto. right.
        apply longer_child; auto. assert (live m) as Hl. { inversion HL; subst. cbn in Ea. apply assoc_in in Ea. now apply H0 in Ea. }
        intros N. inversion Hl as [? ? E1|? ? y m' E1 E2 E3]; subst; cbn in *; [congruence|rewrite N in E1; discriminate]. }
    assert (forall u w1, (match valid with Some _ => m_cancel (a_ops true) | None => ret tt end) (at_ (A ++ [x]) B k c tr) = Done (u, w1) ->
      exists k', w1 = at_ (A ++ [x]) B k' c tr) as HC.
    { intros u w1. destruct valid; [apply at_cancel|]. intros [= <- <-]. eauto. }
    match goal with |- match ?o with Done _ => _ | Err _ => _ end = _ -> _ => destruct o as [[u w1]|]; [|discriminate] end.
    destruct (HC u w1 eq_refl) as (k' & ->). destruct (trie_child m) as [|ch l] eqn:Ec.
    + unfold m_assign. rewrite at_cells. destruct (assign c d v); [|discriminate]. intros [= <- <- <-].
      split; [discriminate|]. intros [H|H]; [discriminate|]. apply HE in H. destruct H as (z & b & y & H).
      destruct B; cbn in H; rewrite Ec in H; discriminate.
    + op. intros H. rewrite (IH _ _ _ _ _ _ _ _ _ _ Hm H), HE. split; [|intros [X|X]; [discriminate X|auto]]. intros [->|H']; auto. right.
      apply longer_child; auto. congruence.
Qed.

Lemma longer_build e s : longer (trie_build e) s <-> exists key x, In (key, x) e /\ short_of s key.
Proof.
  unfold longer, short_of. split.
  - intros (z & b & v & H). apply trie_build_find in H. exists (s ++ z :: b), v. eauto.
  - intros (key & x & H & z & b & ->). destruct (trie_find (trie_build e) (s ++ z :: b)) as [v|] eqn:E; [eauto|].
    now apply trie_build_none with (v := x) in E.
Qed.
End Leaf.

(** ** Sessions *)

Lemma open_legal l : ended l = false -> legal l = true.
Proof. induction l as [|[b []|] l IH]; cbn; auto. discriminate. Qed.

Lemma run_ready env t v p m inp r st w : primitive p = true -> Forall (tok ct_char) inp ->
  a_run env t v p m inp false = Done ((r, st), w) -> (r = PARTIAL <-> unsettled p inp).
Proof.
  intros Hp Hi. unfold a_run, top_run, top_create, top_consume, bind, create.
  change (World (Cursor inp false 0 []) [v] []) with (at_ [] inp [] [v] []).
  destruct p; try discriminate Hp; cbn [create_in adapt mk_skip_of]; cbn [top_ctx c_skip is_fail]; cbn -[consume at_].
  all: try (destruct m as [|m]; [discriminate|]; intros [= <- <- <-]; split; [discriminate|tauto]).
  all: cbn [unsettled].
  - apply char_ready.
  - apply char_symbol_ready.
  - apply eoi_ready.
  - apply lit_ready.
  - intros H. rewrite (sym_ready env _ _ _ _ _ _ _ _ _ _ _ _ _ _ _ (lush_build _) H), longer_build. tauto.
  - apply andb_true_iff in Hp. destruct Hp as [H1 H2]. apply Z.leb_le in H1. apply Z.leb_le in H2.
    unfold bind. rewrite at_cells. destruct (num_zero _ _) as [c0|]; [|discriminate]. intros H. rewrite (uint_ready env _ _ _ base dmin dmax (conj H1 H2) _ _ _ _ _ _ _ _ _ _ Hi (Z.le_refl 0) ltac:(lia) H).
    reflexivity.
  - apply andb_true_iff in Hp. destruct Hp as [H1 H2]. apply Z.leb_le in H1. apply Z.leb_le in H2.
    unfold bind. rewrite at_cells. destruct (num_zero _ _) as [c0|]; [|discriminate]. intros H. rewrite (int_ready env _ _ _ base dmin dmax (conj H1 H2) _ _ _ _ _ _ _ _ _ Hi H).
    reflexivity.
Qed.

Theorem leaf_waits env t v p n l s : primitive p = true -> Forall (tok ct_char) (fed l) -> ended l = false ->
  run_session env n t v p (l ++ [Consume]) = Done s -> (s_res s = None <-> unsettled p (fed l)).
Proof.
  intros Hp Hi He E. pose proof (session_shows_a env t v p n (l ++ [Consume])) as HA. rewrite E in HA. cbn in HA.
  destruct (a_session env t v p n (l ++ [Consume])) as [a|] eqn:Ea; [|discriminate].
  destruct (shown_run env t v p n l _ (open_legal l He) Ea ltac:(discriminate)) as (o' & [_ [m Hm]] & HS).
  rewrite He in Hm. rewrite <- HS in HA. destruct o' as [[[r st] w]|]; [|discriminate]. cbn in HA. injection HA as HA _ _.
  rewrite HA, <- (run_ready env t v p m (fed l) r st w Hp Hi Hm). destruct r; split; congruence.
Qed.
