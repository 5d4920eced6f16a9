(** The laws by which a grammar is usually rewritten. *)
From Coq Require Import List ZArith Bool Arith.
From Verif Require Import Base CharSet Dst Pattern.
Import ListNotations.

Section Laws.
Context (env : nat -> option pat).

Inductive law : pat -> pat -> Prop :=
(* It is an equivalence... *)
| law_refl p : law p p
| law_sym p q : law p q -> law q p
| law_trans p q r : law p q -> law q r -> law p r
(* ... and holds in every context. *)
| law_seq l1 l2 p q : law p q -> law (Seq (l1 ++ p :: l2)) (Seq (l1 ++ q :: l2))
| law_alt l1 l2 p q : law p q -> law (Alt (l1 ++ p :: l2)) (Alt (l1 ++ q :: l2))
| law_repeat lo hi p q : law p q -> law (Repeat lo hi p) (Repeat lo hi q)
| law_not p q : law p q -> law (Not p) (Not q)
| law_opt p q : law p q -> law (Opt p) (Opt q)
| law_lexeme p q : law p q -> law (Lexeme p) (Lexeme q)
| law_skipper skp p q : law p q -> law (WithSkipper p skp) (WithSkipper q skp)
| law_except p p' q q' : law p p' -> law q q' -> law (Except p q) (Except p' q')
| law_list p p' q q' : law p p' -> law q q' -> law (PList p q) (PList p' q')
(* What only concerns the destination makes no difference. *)
| law_discard p : law (Discard p) p
| law_bind p : law (BindDst p) p
| law_construct a p : law (Construct a p) p
| law_act a p : law (Act a p) p
| law_recur id b q : env id = Some q -> law (Recur id b) q
(* >> and |: associative, units, a zero, idempotence, factoring on the left. *)
| law_seq_one p : law (Seq [p]) p
| law_seq_seq l1 l l2 : law (Seq (l1 ++ Seq l :: l2)) (Seq (l1 ++ l ++ l2))
| law_seq_pass l1 l2 : law (Seq (l1 ++ Pass :: l2)) (Seq (l1 ++ l2))
| law_alt_one p : law (Alt [p]) p
| law_alt_alt l1 l l2 : law (Alt (l1 ++ Alt l :: l2)) (Alt (l1 ++ l ++ l2))
| law_alt_fail l1 l2 : law (Alt (l1 ++ Fail :: l2)) (Alt (l1 ++ l2))
| law_alt_pass l1 l2 : law (Alt (l1 ++ Pass :: l2)) (Alt (l1 ++ [Pass]))
| law_alt_again l1 l2 l3 p : law (Alt (l1 ++ p :: l2 ++ p :: l3)) (Alt (l1 ++ p :: l2 ++ l3))
| law_factor p a b : law (Alt [Seq (p :: a); Seq (p :: b)]) (Seq [p; Alt [Seq a; Seq b]])
| law_fail l : law (Seq (Fail :: l)) Fail
(* The repetitions and the list in terms of each other. *)
| law_plus p : law (Repeat 1 0 p) (Seq [p; Repeat 0 0 p])
| law_star p : law (Repeat 0 0 p) (Opt (Seq [p; Repeat 0 0 p]))
| law_times n p : law (Repeat (S n) (S n) p) (Seq (List.repeat p (S n)))
| law_at_least n p : law (Repeat n 0 p) (Seq (List.repeat p n ++ [Repeat 0 0 p]))
| law_at_most_one p : law (Repeat 0 1 p) (Opt p)
| law_optional p : law (Opt p) (Alt [p; Pass])
| law_separated p sep : law (PList p sep) (Opt (Seq [p; Repeat 0 0 (Seq [sep; p])]))
(* Look-ahead. *)
| law_not_not p : law (Not (Not (Not p))) (Not p)
| law_minus p q : law (Except p q) (Seq [Not q; p])
| law_not_alt p l : law (Not (Alt (p :: l))) (Seq [Not p; Not (Alt l)])
(* Lexemes, characters. *)
| law_lexeme_lexeme p : law (Lexeme (Lexeme p)) (Lexeme p)
| law_char_or a b : law (Alt [Char a; Char b]) (Char (COr a b)).
End Laws.
