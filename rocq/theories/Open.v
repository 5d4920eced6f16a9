(** A range whose end is not known yet: the same source as for a complete input, except that it
    is not final.  Primitive parsers on it, and what a run that answers says about complete inputs. *)
From Coq Require Import List ZArith Bool Arith Lia.
From Verif Require Import Base CharSet Source Dst Pattern Parser Session SpecSession SpecPeg SpecReady.
From Verif Require Import Rel Limit Leaf Ready.
From Verif Require Resume.
Import ListNotations.

Definition olift (f : bool) (o : outcome sfwd) : outcome (sfwd * bool) :=
  match o with Done x => Done (x, f) | Err e => Err e end.

Definition o_ops : source_ops (sfwd * bool) := {|
  so_empty := fun x => sf_empty (fst x); so_final := snd; so_next := fun x => sf_next (fst x);
  so_advance := fun x => olift (snd x) (sf_advance (fst x)); so_prepare := fun x => (sf_prepare (fst x), snd x);
  so_commit := fun x => olift (snd x) (sf_commit (fst x)); so_cancel := fun x => olift (snd x) (sf_cancel (fst x));
  so_resumable := true |}.

(** [B] is there, and the end is not known. *)
Definition O (B : list Z) (k : list (list Z)) (c : list val) (tr : list event) : world (sfwd * bool) :=
  World (Sfwd B k, false) c tr.

Section Ops.
Context (B : list Z) (k : list (list Z)) (c : list val) (tr : list event) (x : Z).
Lemma at_empty : m_empty o_ops (O [] k c tr) = Done (true, O [] k c tr).
Proof. reflexivity. Qed.
Lemma at_full : m_empty o_ops (O (x :: B) k c tr) = Done (false, O (x :: B) k c tr).
Proof. reflexivity. Qed.
Lemma at_final : m_final o_ops (O B k c tr) = Done (false, O B k c tr).
Proof. reflexivity. Qed.
Lemma at_next : m_next o_ops (O (x :: B) k c tr) = Done (x, O (x :: B) k c tr).
Proof. reflexivity. Qed.
Lemma at_advance : m_advance o_ops (O (x :: B) k c tr) = Done (tt, O B k c tr).
Proof. reflexivity. Qed.
Lemma at_cells f : on_cells f (O B k c tr) = match f c with Done c' => Done (tt, O B k c' tr) | Err e => Err e end.
Proof. reflexivity. Qed.
Lemma at_prepare : m_prepare o_ops (O B k c tr) = Done (tt, O B (B :: k) c tr).
Proof. reflexivity. Qed.
Lemma at_cancel u w : m_cancel o_ops (O B k c tr) = Done (u, w) -> exists k', w = O B k' c tr.
Proof. unfold m_cancel, m_src, O. cbn. unfold sf_cancel. cbn. destruct k; intros [= <- <-]; eauto. Qed.
End Ops.

Section Leaf.
Context (env : nat -> option pat) (cx : ctx) (rq : req) (d : dst).
Local Notation run := (consume o_ops env).

Ltac op := first [rewrite at_empty | rewrite at_full | rewrite at_final | rewrite at_next | rewrite at_advance | rewrite at_prepare].

Lemma o_lit_ready L : forall n rest B k c tr r st w,
  run n cx rq d (Lit L) (PLit rest) (O B k c tr) = Done ((r, st), w) -> (r = PARTIAL <-> short_of B rest).
Proof.
  induction n as [|n IH]; intros rest B k c tr r st w; [discriminate|].
  cbn [consume consume_step]. unfold lit_consume. destruct rest as [|y rest].
  - intros [= <- <- <-]. split; [discriminate|]. intros (z & b & E). destruct B; discriminate.
  - unfold starved, bind. destruct B as [|x B].
    + op. op. intros [= <- <- <-]. split; [|auto]. intros _. exists y, rest. reflexivity.
    + op. op. destruct (Z.eqb_spec x y) as [->|N].
      * op. intros H. rewrite (IH _ _ _ _ _ _ _ _ H). unfold short_of. split; intros (z & b & E); exists z, b.
        -- cbn. now rewrite E.
        -- now injection E.
      * intros [= <- <- <-]. split; [discriminate|]. intros (z & b & E). cbn in E. congruence.
Qed.

Lemma o_char_ready s n B k c tr r st w :
  run n cx rq d (Char s) PLeaf (O B k c tr) = Done ((r, st), w) -> (r = PARTIAL <-> B = []).
Proof.
  destruct n as [|n]; [discriminate|]. cbn [consume consume_step]. unfold char_consume, starved, bind.
  destruct B as [|x B]; op; op.
  - intros [= <- <- <-]. tauto.
  - destruct (is_valid s x); [|intros [= <- <- <-]; split; discriminate].
    unfold m_assign. rewrite at_cells. destruct (assign c d (VNum x)); [|discriminate]. op.
    intros [= <- <- <-]; split; discriminate.
Qed.

Lemma o_char_symbol_ready m n B k c tr r st w :
  run n cx rq d (CharSymbol m) PLeaf (O B k c tr) = Done ((r, st), w) -> (r = PARTIAL <-> B = []).
Proof.
  destruct n as [|n]; [discriminate|]. cbn [consume consume_step]. unfold char_symbol_consume, starved, bind.
  destruct B as [|x B]; op; op.
  - intros [= <- <- <-]. tauto.
  - destruct (assoc x m); [|intros [= <- <- <-]; split; discriminate].
    unfold m_assign. rewrite at_cells. destruct (assign c d v); [|discriminate].
    intros [= <- <- <-]; split; discriminate.
Qed.

Lemma o_eoi_ready n B k c tr r st w :
  run n cx rq d Eoi PLeaf (O B k c tr) = Done ((r, st), w) -> (r = PARTIAL <-> B = []).
Proof.
  destruct n as [|n]; [discriminate|]. cbn [consume consume_step]. unfold eoi_consume, bind.
  destruct B as [|x B]; op; try op.
  - intros [= <- <- <-]. tauto.
  - intros [= <- <- <-]; split; discriminate.
Qed.

(** ** Numbers *)

Section Num.
Context (b lo hi : Z) (Hb : (2 <= b <= 35)%Z).

Lemma o_uint_ready : forall n cnt B k c tr r st w, Forall (tok ct_char) B -> (0 <= cnt)%Z -> (hi <= 0 \/ cnt < hi)%Z ->
  run n cx rq d (UInt b lo hi) (PUInt cnt) (O B k c tr) = Done ((r, st), w) -> (r = PARTIAL <-> open_ b hi cnt B).
Proof.
  induction n as [|n IH]; intros cnt B k c tr r st w HB H0 Hh; [discriminate|].
  cbn [consume consume_step]. unfold uint_consume, bind. destruct B as [|x B]; op; op.
  - intros [= <- <- <-]. pose proof (open_nil b hi cnt Hh). tauto.
  - inversion HB as [|? ? Hx HB']; subst. rewrite digit_valid_ok by auto. destruct (is_digit b x) eqn:Ex.
    + rewrite at_cells. destruct (num_op _ c d) as [c1|]; [|discriminate].
      rewrite at_cells. destruct (num_op _ c1 d) as [c2|]; [|discriminate]. op.
      destruct (Z.eqb_spec (cnt + 1) hi) as [E|N].
      * intros [= <- <- <-]. split; [discriminate|]. intros [_ H]. cbn [length] in H. lia.
      * intros H. rewrite (IH (cnt + 1)%Z _ _ _ _ _ _ _ HB' ltac:(lia) ltac:(lia) H). now apply open_cons.
    + intros [= <- <- <-]. split; [destruct (lo <=? cnt)%Z; discriminate|]. intros [H _]. inversion H; congruence.
Qed.

Lemma o_int_ready_rest : forall n cnt look neg B k c tr r st w, Forall (tok ct_char) B -> (0 <= cnt)%Z -> (hi <= 0 \/ cnt < hi)%Z ->
  look = false ->
  run n cx rq d (Int b lo hi) (PInt cnt look neg) (O B k c tr) = Done ((r, st), w) -> (r = PARTIAL <-> open_ b hi cnt B).
Proof.
  induction n as [|n IH]; intros cnt look neg B k c tr r st w HB H0 Hh ->; [discriminate|].
  cbn [consume consume_step]. unfold int_consume, int_digit, bind. rewrite andb_false_r. destruct B as [|x B]; op; op.
  - intros [= <- <- <-]. pose proof (open_nil b hi cnt Hh). tauto.
  - inversion HB as [|? ? Hx HB']; subst. rewrite digit_valid_ok by auto. destruct (is_digit b x) eqn:Ex.
    + rewrite at_cells. destruct (num_op _ c d) as [c1|]; [|discriminate].
      rewrite at_cells. destruct (num_op _ c1 d) as [c2|]; [|discriminate]. op.
      destruct (Z.eqb_spec (cnt + 1) hi) as [E|N].
      * destruct (int_negate d neg _) as [[[] w1]|]; [|discriminate].
        intros [= <- <- <-]. split; [discriminate|]. intros [_ H]. cbn [length] in H. clear - H0 E H. assert (0 < hi)%Z as H1 by lia. specialize (H H1). lia.
      * intros H. rewrite (IH (cnt + 1)%Z _ _ _ _ _ _ _ _ _ HB' ltac:(lia) ltac:(lia) eq_refl H). now apply open_cons.
    + destruct (int_negate d neg _) as [[[] w1]|]; [|discriminate].
      intros [= <- <- <-]. split; [destruct (lo <=? cnt)%Z; discriminate|]. intros [H _]. inversion H; congruence.
Qed.

Lemma o_int_ready n B k c tr r st w : Forall (tok ct_char) B ->
  run n cx rq d (Int b lo hi) (PInt 0 true false) (O B k c tr) = Done ((r, st), w) -> (r = PARTIAL <-> open_ b hi 0 (unsigned B)).
Proof.
  intros HB. destruct n as [|n]; [discriminate|]. destruct B as [|x B].
  - cbn [consume consume_step]. unfold int_consume, bind. op. op. intros [= <- <- <-].
    assert (hi <= 0 \/ 0 < hi)%Z as Hh by lia. pose proof (open_nil b hi 0 Hh). tauto.
  - inversion HB as [|? ? Hx HB']; subst. cbn [consume consume_step unsigned]. unfold int_consume. cbn [Z.eqb andb].
    unfold bind at 1. op. unfold bind at 1. op.
    assert (hi <= 0 \/ 0 < hi)%Z as Hh by lia.
    destruct (Z.eqb_spec x 45) as [E|N1]; [|destruct (Z.eqb_spec x 43) as [E|N2]]; cbn [orb].
    + unfold bind. op. intros H. eapply o_int_ready_rest; [exact HB'|lia|exact Hh|reflexivity|exact H].
    + unfold bind. op. intros H. eapply o_int_ready_rest; [exact HB'|lia|exact Hh|reflexivity|exact H].
    + intros H. apply (o_int_ready_rest (S n) 0 false false (x :: B) k c tr r st w HB); auto; lia.
Qed.
End Num.

Lemma o_sym_ready e : forall n nx valid B k c tr r st w, lush nx ->
  run n cx rq d (Symbol e) (PSym nx valid) (O B k c tr) = Done ((r, st), w) ->
  (r = PARTIAL <-> B = [] \/ longer nx B).
Proof.
  assert (forall valid nx w0 r st w, sym_stop o_ops d nx valid w0 = Done ((r, st), w) -> r <> PARTIAL) as HS.
  { intros valid nx w0 r st w. unfold sym_stop. destruct valid as [m|]; [|now intros [= <- <- <-]].
    destruct (sym_value m); [|discriminate]. unfold bind. destruct (m_assign _ _ _) as [[[] w1]|]; [|discriminate].
    destruct (m_commit _ _) as [[[] w2]|]; [|discriminate]. now intros [= <- <- <-]. }
  induction n as [|n IH]; intros nx valid B k c tr r st w HL; [discriminate|].
  cbn [consume consume_step]. unfold sym_consume, bind. destruct B as [|x B]; op; op.
  - intros [= <- <- <-]. tauto.
  - destruct (assoc x (trie_child nx)) as [m|] eqn:Ea.
    2:{ intros H. apply HS in H. split; [congruence|]. intros [H'|(z & b & v & H')]; [discriminate|]. cbn in H'. now rewrite Ea in H'. }
    assert (lush m) as Hm. { inversion HL; subst. cbn in Ea. apply assoc_in in Ea. now apply H in Ea. }
    assert (longer nx (x :: B) <-> longer m B) as HE. { unfold longer. cbn. now rewrite Ea. }
    op. destruct (trie_val m) as [v|] eqn:Ev.
    2:{ intros H. rewrite (IH _ _ _ _ _ _ _ _ _ Hm H), HE. split; [|intros [X|X]; [discriminate X|auto]]. intros [->|H']; auto. right.
        apply longer_child; auto. assert (live m) as Hl. { inversion HL; subst. cbn in Ea. apply assoc_in in Ea. now apply H0 in Ea. }
        intros N. inversion Hl as [? ? E1|? ? y m' E1 E2 E3]; subst; cbn in *; [congruence|rewrite N in E1; discriminate]. }
    assert (forall u w1, (match valid with Some _ => m_cancel o_ops | None => ret tt end) (O B k c tr) = Done (u, w1) ->
      exists k', w1 = O B k' c tr) as HC.
    { intros u w1. destruct valid; [apply at_cancel|]. intros [= <- <-]. eauto. }
    match goal with |- match ?o with Done _ => _ | Err _ => _ end = _ -> _ => destruct o as [[u w1]|]; [|discriminate] end.
    destruct (HC u w1 eq_refl) as (k' & ->). destruct (trie_child m) as [|ch l] eqn:Ec.
    + unfold m_assign. rewrite at_cells. destruct (assign c d v); [|discriminate]. intros [= <- <- <-].
      split; [discriminate|]. intros [H|H]; [discriminate|]. apply HE in H. destruct H as (z & b & y & H).
      destruct B; cbn in H; rewrite Ec in H; discriminate.
    + op. intros H. rewrite (IH _ _ _ _ _ _ _ _ _ Hm H), HE. split; [|intros [X|X]; [discriminate X|auto]]. intros [->|H']; auto. right.
      apply longer_child; auto. congruence.
Qed.
End Leaf.

(** ** With more behind it, and complete *)
Section Ext.
Context (more : list Z).
Definition oext (x : sfwd * bool) : sfwd * bool :=
  (Sfwd (sf_cur (fst x) ++ more) (map (fun k => k ++ more) (sf_stack (fst x))), true).

Lemma o_extends : Resume.extends o_ops oext (fun x => snd x = false).
Proof.
  constructor.
  - reflexivity.
  - intros x H. exact H.
  - intros [[[|z s] k] f]; [discriminate|reflexivity].
  - intros [[[|z s] k] f]; [discriminate|reflexivity].
  - intros [[[|z s] k] f]; [discriminate|]. cbn. auto.
  - intros [[s k] f]. cbn. auto.
  - intros [[s [|y k]] f]; cbn; auto.
  - intros [[s [|y k]] f]; cbn; auto.
Qed.
End Ext.

Definition closed (x : sfwd * bool) (y : sfwd) : Prop := x = (y, true).
Lemma closed_ops : ops_rel o_ops sf_ops closed.
Proof.
  constructor; intros a b ->; try reflexivity; cbn.
  - unfold sf_advance. destruct (sf_cur b); reflexivity.
  - unfold sf_commit. destruct (sf_stack b); reflexivity.
  - unfold sf_cancel. destruct (sf_stack b); reflexivity.
Qed.

(** The reference cursor. *)
Definition viewed (a : cursor) (x : sfwd * bool) : Prop :=
  x = (Sfwd (skipn (a_pos a) (a_inp a)) (map (fun k => skipn k (a_inp a)) (a_stk a)), a_fin a).

Lemma skipn_nth_error {A} (l : list A) i : nth_error l i = match skipn i l with x :: _ => Some x | [] => None end.
Proof. revert l. induction i as [|i IH]; intros [|a l]; cbn; auto. Qed.
Lemma skipn_next {A} (l : list A) i : skipn (S i) l = match skipn i l with _ :: t => t | [] => [] end.
Proof. revert l. induction i as [|i IH]; intros [|a l]; try reflexivity. cbn [skipn] in *. destruct i; [destruct l; reflexivity|]. apply IH. Qed.

Lemma viewed_ops : ops_rel (a_ops true) o_ops viewed.
Proof.
  assert (He : forall a, a_empty a = match skipn (a_pos a) (a_inp a) with [] => true | _ => false end).
  { intros a. unfold a_empty. destruct (skipn (a_pos a) (a_inp a)) eqn:E.
    - apply Nat.leb_le. pose proof (skipn_length (a_pos a) (a_inp a)) as L. rewrite E in L. cbn in L. lia.
    - apply Nat.leb_gt. pose proof (skipn_length (a_pos a) (a_inp a)) as L. rewrite E in L. cbn in L. lia. }
  constructor; intros a b ->.
  - cbn. unfold sf_empty. cbn. apply He.
  - reflexivity.
  - cbn. unfold a_next. rewrite skipn_nth_error. unfold sf_next. cbn. destruct (skipn _ _); reflexivity.
  - cbn [so_advance a_ops o_ops fst snd]. unfold a_advance. rewrite He. unfold sf_advance. cbn [sf_cur].
    pose proof (skipn_next (a_inp a) (a_pos a)) as N.
    destruct (skipn (a_pos a) (a_inp a)) as [|z l]; [reflexivity|]. unfold olift, rel_out, viewed. cbn [a_pos a_inp a_stk a_fin sf_stack]. now rewrite N.
  - reflexivity.
  - cbn. unfold a_commit, sf_commit. cbn. destruct (a_stk a); cbn; reflexivity.
  - cbn. unfold a_cancel, sf_cancel. cbn. destruct (a_stk a); cbn; reflexivity.
Qed.
