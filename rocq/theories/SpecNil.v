(** Patterns that can be written down without a destination in mind. *)
From Coq Require Import List ZArith Bool Arith.
From Verif Require Import Base CharSet Dst Pattern Parser.
Import ListNotations.

(** No action and no as<..>(), nothing empty, all Recurs defined; what a skipper is made of
    has to consume ([cs]): no pass, no repetition that may be empty. *)
Fixpoint wellformed (env : nat -> option pat) (cs : bool) (p : pat) : bool :=
  match p with
  | Seq l => negb (length l =? 0) && forallb (wellformed env false) l
  | Alt l => negb (length l =? 0) && forallb (wellformed env cs) l
  | Pass => negb cs
  | Repeat lo _ q => negb (cs && (lo =? 0)) && wellformed env cs q
  | Not q | Opt q | Discard q | Lexeme q | BindDst q => wellformed env cs q
  | WithSkipper q s => (is_fail s || wellformed env true s) && wellformed env cs q
  | Act _ _ | Construct _ _ => false
  | Except q n => wellformed env false n && wellformed env cs q
  | PList q s => wellformed env false q && wellformed env false s
  | Recur id _ => match env id with Some _ => true | None => false end
  | _ => true
  end.
Definition all_wellformed (env : nat -> option pat) : Prop :=
  forall id q, env id = Some q -> wellformed env false q = true.
