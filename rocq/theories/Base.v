(** Outcomes, results and the two vocabulary types shared by the whole model.

    Citations are of the form  path:lines  below /repo/include/abulafia. *)
From Coq Require Import List ZArith Bool Arith.
Import ListNotations.

(** result.h:14  [enum class Result { SUCCESS, FAILURE, PARTIAL }]. *)
Inductive result : Set := SUCCESS | FAILURE | PARTIAL.

Definition result_eqb (a b : result) : bool :=
  match a, b with
  | SUCCESS, SUCCESS | FAILURE, FAILURE | PARTIAL, PARTIAL => true
  | _, _ => false
  end.

(** Reasons for undefined behaviour.  They have no counterpart in the C++ text:
    each names a precondition of the C++ operation that was broken. *)
Inductive ub : Set :=
| UbRead        (* dereferencing an end or released iterator *)
| UbAdvance     (* incrementing an end or released iterator *)
| UbMark        (* back()/pop() on an empty rollback stack *)
| UbRelease     (* pop_front() on an empty buffer list *)
| UbFinal       (* add_buffer after the final buffer: assert(!final_) *)
| UbOverflow    (* signed arithmetic overflow *)
| UbUninit      (* reading an indeterminate scalar *)
| UbRecur.      (* using a Recur that was never defined: null dereference *)

(** Abnormal ends of a run of the model.
    [EFuel]  : the fuel ran out; says nothing about the C++ program.
    [EUb]    : undefined behaviour.
    [EType]  : the C++ program would have been rejected at compile time.
    [EShape] : abu_assume violated / bad variant access (support/assert.h). *)
Inductive err : Set := EFuel | EUb (r : ub) | EType | EShape.

Inductive outcome (A : Type) : Type :=
| Done (a : A)
| Err (e : err).
Arguments Done {A} a.
Arguments Err {A} e.

Definition obind {A B} (o : outcome A) (f : A -> outcome B) : outcome B :=
  match o with Done a => f a | Err e => Err e end.

Definition of_option {A} (e : err) (o : option A) : outcome A :=
  match o with Some a => Done a | None => Err e end.

(** [upd l i x]: the list [l] with its [i]-th element replaced by [x]
    (assignment to an element of a std::tuple or to a memory cell). *)
Fixpoint upd {A} (l : list A) (i : nat) (x : A) : list A :=
  match l, i with
  | [], _ => []
  | _ :: t, O => x :: t
  | h :: t, Datatypes.S j => h :: upd t j x
  end.
