(** How often an Optional matched. *)
From Coq Require Import List ZArith Bool Arith.
From Verif Require Import Base Source Dst Pattern Parser Session.
Import ListNotations.

(** The callbacks [W] watch the Optionals: the operand of each has one, and nothing else
    does.  One is called whenever an Optional matches something. *)
Fixpoint watched (W : nat -> bool) (p : pat) : bool :=
  match p with
  | Opt (Act a q) => W (ac_id a) && watched W q
  | Opt _ => false
  | Act a q => negb (W (ac_id a)) && watched W q
  | Seq l | Alt l => forallb (watched W) l
  | Repeat _ _ q | Not q | Discard q | Lexeme q | BindDst q | Construct _ q => watched W q
  | WithSkipper q s | Except q s | PList q s => watched W q && watched W s
  | _ => true
  end.

(** How often they were called. *)
Definition called (W : nat -> bool) (l : list event) : nat := length (filter (fun e => W (ev_act e)) l).

(** ** How many marks a waiting parser has pending *)

(** Patterns that are back where they began when they fail (or that leave it to their
    operand); the others take a mark where that is asked of them. *)
Fixpoint returns (p : pat) : bool :=
  match p with
  | Lit _ | Symbol _ | Seq _ | Repeat _ _ _ | Except _ _ | Recur _ _ => false
  | UInt _ _ m | Int _ _ m => Z.eqb m 1
  | WithSkipper q _ => returns q
  | _ => true
  end.

(** The most marks [p] has pending at a time.  [back]: it is asked to return when it fails;
    [h]: those of the skipper around it; [R id h]: those of the definition of Recur [id]. *)
Fixpoint marks (R : nat -> nat -> nat) (h : nat) (back : bool) (p : pat) : nat :=
  h + (if back && negb (returns p) then 1 else 0) +
  let back := back && returns p in
  match p with
  | Symbol _ => 1
  | Seq l => list_max (map (marks R h false) l)
  | Alt l => list_max (map (marks R h true) l)
  | Repeat lo hi q => marks R h (negb (lo =? hi) || (hi =? 0)) q
  | Not q | Opt q => 1 + marks R h false q
  | Discard q | Act _ q | BindDst q | Construct _ q => marks R h back q
  | Lexeme q => marks R 0 back q
  | WithSkipper q s => marks R (match s with Fail => 0 | _ => marks R 0 true s end) back q
  | Except q neg => Nat.max (marks R h true neg) (marks R h false q)
  | PList q sep => 1 + Nat.max (marks R h false q) (marks R h false sep)
  | Recur id _ => R id h
  | _ => 0
  end.

(** The bound [R] is right for the recursive patterns there are (none fits if a definition
    uses itself). *)
Definition bounded (R : nat -> nat -> nat) (env : nat -> option pat) : Prop :=
  forall id q h, env id = Some q -> marks R h false q <= R id h.
