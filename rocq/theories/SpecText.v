(** Tokens and the white space between them. *)
From Coq Require Import List ZArith Bool Decimal DecimalZ String.
From Verif Require Import Base CharSet SpecPeg SpecLeaf Demo.
Import ListNotations.

(** Blank, tab, carriage return, line feed. *)
Definition is_blank (z : Z) : Prop := In z [32; 9; 13; 10]%Z.

(** [spaced bl ts text rest]: [text] is the tokens [ts] in a row, each with any amount of
    white space ([bl]) in front of it, followed by [rest]. *)
Inductive spaced (bl : Z -> Prop) : list (list Z) -> list Z -> list Z -> Prop :=
| spc_end rest : spaced bl [] rest rest
| spc_tok b t ts text rest :
    Forall bl b -> spaced bl ts text rest -> spaced bl (t :: ts) (b ++ t ++ text) rest.

(** The tokens of a list in brackets. *)
Fixpoint more_items (zs : list Z) : list (list Z) :=
  match zs with
  | [] => [txt "]"]
  | z :: zs => txt "," :: dec z :: more_items zs
  end.
Definition bracketed (zs : list Z) : list (list Z) :=
  txt "[" :: match zs with [] => [txt "]"] | z :: zs => dec z :: more_items zs end.
