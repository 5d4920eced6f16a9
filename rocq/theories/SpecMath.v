(** Arithmetic expressions: how they are written and what they are worth. *)
From Coq Require Import List ZArith Bool String.
From Verif Require Import Base CharSet Dst SpecLeaf SpecText Demo.
Import ListNotations.
Local Open Scope Z_scope.

Inductive oper : Type := Add | Sub | Mul | Div.
Inductive expr : Type := Num (z : Z) | Bin (o : oper) (a b : expr).

(** int arithmetic: no value if there is overflow or division by zero. *)
Definition apply_op (o : oper) (x y : Z) : option Z :=
  let r := match o with Add => x + y | Sub => x - y | Mul => x * y | Div => Z.quot x y end in
  match o with
  | Div => if y =? 0 then None else if in_range true 32 r then Some r else None
  | _ => if in_range true 32 r then Some r else None
  end.

(** The smallest int cannot be written. *)
Definition writable (z : Z) : bool := in_range true 32 z && negb (z =? ty_min true 32).

Fixpoint eval (e : expr) : option Z :=
  match e with
  | Num z => if writable z then Some z else None
  | Bin o a b => match eval a, eval b with Some x, Some y => apply_op o x y | _, _ => None end
  end.

Definition sign (o : oper) : list Z :=
  match o with Add => txt "+" | Sub => txt "-" | Mul => txt "*" | Div => txt "/" end.

(** The usual grammar: a sum is a row of products, a product is a row of numbers and
    expressions in parentheses; rows are grouped to the left. *)
Inductive level : Type := Prim | Prod | Sum.
Inductive shows : level -> expr -> list (list Z) -> Prop :=
| shw_num z : shows Prim (Num z) [dec z]
| shw_par e ts : shows Sum e ts -> shows Prim e (txt "(" :: ts ++ [txt ")"])
| shw_prim e ts : shows Prim e ts -> shows Prod e ts
| shw_mul o a b ta tb : o = Mul \/ o = Div -> shows Prod a ta -> shows Prim b tb ->
    shows Prod (Bin o a b) (ta ++ sign o :: tb)
| shw_prod e ts : shows Prod e ts -> shows Sum e ts
| shw_add o a b ta tb : o = Add \/ o = Sub -> shows Sum a ta -> shows Prod b tb ->
    shows Sum (Bin o a b) (ta ++ sign o :: tb).

(** The only white space is the blank. *)
Definition is_space (z : Z) : Prop := z = 32.

(** Behind the blanks there is none of the characters of [l]. *)
Definition next_not (l : list Z) (s : list Z) : Prop :=
  forall b z r, s = b ++ z :: r -> Forall is_space b -> ~ In z l.
