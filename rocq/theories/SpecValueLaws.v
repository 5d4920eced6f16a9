(** The laws by which a grammar is rewritten without changing what is stored and who is
    called. *)
From Coq Require Import List ZArith Bool Arith.
From Verif Require Import Base CharSet Dst Pattern SpecType SpecAttr.
Import ListNotations.

(** Objects that are not tuples: the parts of a sequence share them. *)
Definition flat (t : ty) : bool := match t with TTuple _ => false | _ => true end.

(** Stored in the same way, whether as one value or not. *)
Fixpoint whole (p : pat) : bool :=
  match p with
  | Alt l => forallb whole l
  | Lexeme q | Discard q | Except q _ => whole q
  | Char _ | Eoi | Pass | Fail | Lit _ | Symbol _ | Not _ | Opt _ | Construct _ _ | Act _ _ => true
  | _ => false
  end.

(** One look at the text decides, and failing does nothing. *)
Fixpoint one_look (p : pat) : bool :=
  match p with
  | Char _ | Eoi | Pass | Fail | Lit _ | Symbol _ => true
  | Discard q | Lexeme q => one_look q
  | _ => false
  end.

Section Laws.
(** [bound]: callbacks may be given the bound destination. *)
Context (bound : bool) (env : nat -> option pat).

(** [vlaw o t p q]: for objects of type [t]; [o]: as one value (SpecAttr.v). *)
Inductive vlaw : bool -> ty -> pat -> pat -> Prop :=
(* It is an equivalence... *)
| vl_refl o t p : vlaw o t p p
| vl_sym o t p q : vlaw o t p q -> vlaw o t q p
| vl_trans o t p q r : vlaw o t p q -> vlaw o t q r -> vlaw o t p r
(* ... one way of storing may settle the other... *)
| vl_switch o o' t p q : whole p = true -> whole q = true -> vlaw o t p q -> vlaw o' t p q
| vl_boxed t p q : atom p = false -> atom q = false -> vlaw false (value_ty t) p q -> vlaw true t p q
(* ... and it holds in every context. *)
| vl_seq t l1 l2 p q : ignores p = ignores q -> (forall t', vlaw false t' p q) ->
    vlaw false t (Seq (l1 ++ p :: l2)) (Seq (l1 ++ q :: l2))
| vl_seq_flat t l1 l2 p q : flat t = true -> ignores p = ignores q ->
    vlaw false (if ignores p then TNil else t) p q ->
    vlaw false t (Seq (l1 ++ p :: l2)) (Seq (l1 ++ q :: l2))
| vl_alt o t l1 l2 p q : vlaw o t p q -> vlaw o t (Alt (l1 ++ p :: l2)) (Alt (l1 ++ q :: l2))
| vl_repeat t lo hi p q : vlaw true t p q -> vlaw false t (Repeat lo hi p) (Repeat lo hi q)
| vl_not o t p q : vlaw false t p q -> vlaw o t (Not p) (Not q)
| vl_opt o t p q : vlaw true t p q -> vlaw o t (Opt p) (Opt q)
| vl_except o t p p' q q' : vlaw o t p p' -> vlaw false TNil q q' -> vlaw o t (Except p q) (Except p' q')
| vl_list t p p' q q' : vlaw true t p p' -> vlaw false TNil q q' -> vlaw false t (PList p q) (PList p' q')
| vl_lexeme o t p q : vlaw o t p q -> vlaw o t (Lexeme p) (Lexeme q)
| vl_skipper t skp p q : vlaw false t p q -> vlaw false t (WithSkipper p skp) (WithSkipper q skp)
| vl_discard o t p q : vlaw o TNil p q -> vlaw o t (Discard p) (Discard q)
| vl_bind t p q : vlaw false t p q -> vlaw false t (BindDst p) (BindDst q)
| vl_construct o t args p q : vlaw false (TTuple args) p q -> vlaw o t (Construct args p) (Construct args q)
| vl_act o t a p q : vlaw false (ac_land a) p q -> vlaw o t (Act a p) (Act a q)
(* Names. *)
| vl_bind_dst t p : bound = false -> vlaw false t (BindDst p) p
| vl_bind_bind t p : t <> TNil -> vlaw false t (BindDst (BindDst p)) (BindDst p)
| vl_recur t id b q : env id = Some q -> vlaw false t (Recur id b) q
(* |: associative, units, what comes behind pass, what was tried before. *)
| vl_alt_one o t p : vlaw o t (Alt [p]) p
| vl_alt_alt o t l1 l l2 : vlaw o t (Alt (l1 ++ Alt l :: l2)) (Alt (l1 ++ l ++ l2))
| vl_alt_fail o t l1 l2 : vlaw o t (Alt (l1 ++ Fail :: l2)) (Alt (l1 ++ l2))
| vl_alt_pass o t l1 l2 : vlaw o t (Alt (l1 ++ Pass :: l2)) (Alt (l1 ++ [Pass]))
| vl_alt_again o t l1 l2 l3 p : one_look p = true ->
    vlaw o t (Alt (l1 ++ p :: l2 ++ p :: l3)) (Alt (l1 ++ p :: l2 ++ l3))
(* >>: associative where the object is shared, units, factoring on the left. *)
| vl_seq_one t p : flat t = true -> ignores p = false -> vlaw false t (Seq [p]) p
| vl_seq_seq t l1 l l2 : flat t = true -> vlaw false t (Seq (l1 ++ Seq l :: l2)) (Seq (l1 ++ l ++ l2))
| vl_seq_pass t l1 l2 : vlaw false t (Seq (l1 ++ Pass :: l2)) (Seq (l1 ++ l2))
| vl_factor t p a b : flat t = true -> one_look p = true -> ignores p = true ->
    vlaw false t (Alt [Seq (p :: a); Seq (p :: b)]) (Seq [p; Alt [Seq a; Seq b]])
(* The repetitions in terms of each other. *)
| vl_plus t p : flat t = true -> whole p = true -> ignores p = false ->
    vlaw false t (Repeat 1 0 p) (Seq [p; Repeat 0 0 p])
| vl_star t p : flat t = true -> whole p = true -> ignores p = false ->
    vlaw false t (Repeat 0 0 p) (Alt [Seq [p; Repeat 0 0 p]; Pass])
| vl_at_least t n p : flat t = true -> whole p = true -> ignores p = false ->
    vlaw false t (Repeat n 0 p) (Seq (List.repeat p n ++ [Repeat 0 0 p]))
| vl_times t n p : flat t = true -> whole p = true -> ignores p = false ->
    vlaw false t (Repeat (S n) (S n) p) (Seq (List.repeat p (S n)))
| vl_at_most_one t p : vlaw false t (Repeat 0 1 p) (Opt p)
| vl_optional t p : vlaw true t (Opt p) (Alt [p; Pass])
(* Look-ahead. *)
| vl_not_not o t p : vlaw o t (Not (Not (Not p))) (Not p)
| vl_minus t p q : flat t = true -> ignores p = false -> vlaw false t (Except p q) (Seq [Discard (Not q); p])
(* Lexemes, characters, discarding. *)
| vl_lexeme_lexeme o t p : vlaw o t (Lexeme (Lexeme p)) (Lexeme p)
| vl_char_or o t a b : vlaw o t (Alt [Char a; Char b]) (Char (COr a b))
| vl_discard_discard o t p : vlaw o t (Discard (Discard p)) (Discard p)
| vl_discard_lexeme o t p : vlaw o t (Discard (Lexeme p)) (Lexeme (Discard p))
| vl_discard_lit o t l : vlaw o t (Discard (Lit l)) (Lit l)
| vl_discard_eoi o t : vlaw o t (Discard Eoi) Eoi
| vl_discard_pass o t : vlaw o t (Discard Pass) Pass
| vl_discard_fail o t : vlaw o t (Discard Fail) Fail.
End Laws.
