(** Expressions built from operands with one operator, and what the operators make of them. *)
From Coq Require Import List ZArith Bool Arith Lia.
From Verif Require Import Base CharSet Dst Pattern.
Import ListNotations.

(** ** Specification *)

(** The ways to put parentheses. *)
Inductive expr : Type := Operand (p : pat) | Op (l r : expr).

Fixpoint operands (e : expr) : list pat :=
  match e with Operand p => [p] | Op l r => operands l ++ operands r end.
Fixpoint built (op : pat -> pat -> pat) (e : expr) : pat :=
  match e with Operand p => p | Op l r => op (built op l) (built op r) end.

(** ** Proofs *)

Definition sparts (p : pat) : list pat := match p with Seq l => l | _ => [p] end.
Definition aparts (p : pat) : list pat := match p with Alt l => l | _ => [p] end.

Lemma op_seq_parts a b : op_seq a b = Seq (sparts a ++ sparts b).
Proof. destruct a, b; reflexivity. Qed.
Lemma op_alt_parts a b : op_alt a b = Alt (aparts a ++ aparts b).
Proof. destruct a, b; reflexivity. Qed.

Lemma seq_parts_of e : sparts (built op_seq e) = concat (map sparts (operands e)).
Proof.
  induction e as [p|l IHl r IHr]; cbn [built operands map concat]; [now rewrite app_nil_r|].
  rewrite op_seq_parts, map_app, concat_app. cbn [sparts]. congruence.
Qed.
Lemma alt_parts_of e : aparts (built op_alt e) = concat (map aparts (operands e)).
Proof.
  induction e as [p|l IHl r IHr]; cbn [built operands map concat]; [now rewrite app_nil_r|].
  rewrite op_alt_parts, map_app, concat_app. cbn [aparts]. congruence.
Qed.

Lemma operands_some e : 1 <= length (operands e).
Proof. induction e; cbn; [lia|]. rewrite app_length. lia. Qed.
Lemma operand_one p e : operands e = [p] -> e = Operand p.
Proof.
  destruct e as [q|l r]; cbn; [congruence|]. intros H. apply (f_equal (@length pat)) in H. rewrite app_length in H.
  pose proof (operands_some l). pose proof (operands_some r). cbn in H. lia.
Qed.

Lemma group_seq e1 e2 : operands e1 = operands e2 -> built op_seq e1 = built op_seq e2.
Proof.
  intros H. destruct e1 as [p|l r].
  - symmetry in H. apply operand_one in H. now subst.
  - destruct e2 as [q|l2 r2].
    + apply operand_one in H. discriminate.
    + pose proof (seq_parts_of (Op l r)) as A. pose proof (seq_parts_of (Op l2 r2)) as B. cbn [built] in *.
      rewrite !op_seq_parts in *. cbn [sparts] in A, B. rewrite A, B. now rewrite H.
Qed.
Lemma group_alt e1 e2 : operands e1 = operands e2 -> built op_alt e1 = built op_alt e2.
Proof.
  intros H. destruct e1 as [p|l r].
  - symmetry in H. apply operand_one in H. now subst.
  - destruct e2 as [q|l2 r2].
    + apply operand_one in H. discriminate.
    + pose proof (alt_parts_of (Op l r)) as A. pose proof (alt_parts_of (Op l2 r2)) as B. cbn [built] in *.
      rewrite !op_alt_parts in *. cbn [aparts] in A, B. rewrite A, B. now rewrite H.
Qed.

Lemma plain_parts (f : pat -> list pat) (g : pat -> bool) l :
  (forall p, g p = true -> f p = [p]) -> forallb g l = true -> concat (map f l) = l.
Proof.
  intros Hf. induction l as [|p l IH]; cbn; auto. intros H. apply andb_true_iff in H as [H1 H2].
  now rewrite Hf, IH.
Qed.

Lemma group_all e a b l : operands e = a :: b :: l ->
  (forallb (fun p => match p with Seq _ => false | _ => true end) (operands e) = true ->
   built op_seq e = Seq (operands e)) /\
  (forallb (fun p => match p with Alt _ => false | _ => true end) (operands e) = true ->
   built op_alt e = Alt (operands e)).
Proof.
  intros H. destruct e as [p|x y]; [discriminate|]. split; intros Hp.
  - pose proof (seq_parts_of (Op x y)) as A. cbn [built] in *. rewrite !op_seq_parts in *. cbn [sparts] in A. rewrite A.
    f_equal. eapply plain_parts; [|exact Hp]. intros []; cbn; congruence.
  - pose proof (alt_parts_of (Op x y)) as A. cbn [built] in *. rewrite !op_alt_parts in *. cbn [aparts] in A. rewrite A.
    f_equal. eapply plain_parts; [|exact Hp]. intros []; cbn; congruence.
Qed.
