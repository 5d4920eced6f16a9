(** What can be said about parse() without looking at how it works: what it answers and
    where it leaves the reading position. *)
From Coq Require Import List ZArith Bool Arith.
From Verif Require Import Base Source Dst Pattern Parser Session SpecSession SpecPeg.
Import ListNotations.

(** The iterator, as the text behind it. *)
Definition left_at (w : world sfwd) : list Z := sf_cur (w_src w).

(** The ways a run goes wrong on account of its destination or of a Recur never defined. *)
Definition dst_error (e : err) : Prop :=
  e = EType \/ e = EUb UbOverflow \/ e = EUb UbUninit \/ e = EUb UbRecur.

(** parse() of [p] on [inp], into some destination, matches and leaves [s] ([Some s]) or
    does not match ([None]). *)
Definition says (env : nat -> option pat) (p : pat) (inp : list Z) (r : option (list Z)) : Prop :=
  exists t v n w,
  match r with
  | Some s => parse env n t v p inp = Done (SUCCESS, w) /\ left_at w = s
  | None => parse env n t v p inp = Done (FAILURE, w)
  end.

(** parse() of [p] on [inp] comes to an end whatever the destination is, and gives this
    answer unless the destination goes wrong. *)
Definition obeys (env : nat -> option pat) (p : pat) (inp : list Z) (r : option (list Z)) : Prop :=
  forall t v, exists o, reaches (fun n => parse env n t v p inp) o /\
  match o with
  | Done (a, w) => match r with Some s => a = SUCCESS /\ left_at w = s | None => a = FAILURE end
  | Err e => dst_error e
  end.

(** The same up to text to be skipped at the place where it stops. *)
Definition says_upto (ws : gap) (env : nat -> option pat) (p : pat) (inp : list Z) (r : option (list Z)) : Prop :=
  exists t v n w,
  match r with
  | Some s => parse env n t v p inp = Done (SUCCESS, w) /\ trim ws (left_at w) = trim ws s
  | None => parse env n t v p inp = Done (FAILURE, w)
  end.
Definition obeys_upto (ws : gap) (env : nat -> option pat) (p : pat) (inp : list Z) (r : option (list Z)) : Prop :=
  forall t v, exists o, reaches (fun n => parse env n t v p inp) o /\
  match o with
  | Done (a, w) => match r with
                   | Some s => a = SUCCESS /\ trim ws (left_at w) = trim ws s
                   | None => a = FAILURE
                   end
  | Err e => dst_error e
  end.

(** [p] matches [n] times in a row. *)
Inductive in_a_row (R : list Z -> list Z -> Prop) : nat -> list Z -> list Z -> Prop :=
| row_0 s : in_a_row R 0 s s
| row_S n s s1 s2 : R s s1 -> in_a_row R n s1 s2 -> in_a_row R (S n) s s2.

(** What a part does from a place. *)
Definition answer : Type := pat -> list Z -> option (list Z) -> Prop.

(** Parts run one after the other. *)
Inductive through (R : answer) : list pat -> list Z -> option (list Z) -> Prop :=
| thr_end s : through R [] s (Some s)
| thr_no p l s : R p s None -> through R (p :: l) s None
| thr_next p l s s1 r : R p s (Some s1) -> through R l s1 r -> through R (p :: l) s r.

(** The first part that matches. *)
Inductive first (R : answer) : list pat -> list Z -> option (list Z) -> Prop :=
| fst_end s : first R [] s None
| fst_yes p l s s1 : R p s (Some s1) -> first R (p :: l) s (Some s1)
| fst_next p l s r : R p s None -> first R l s r -> first R (p :: l) s r.

(** As many matches as there are, [hi] at most ([hi = 0]: no limit), [lo] at least. *)
Definition greedy (R : answer) (lo hi : nat) (p : pat) (s : list Z) (r : option (list Z)) : Prop :=
  exists n s', in_a_row (fun a b => R p a (Some b)) n s s' /\
    ((hi <> 0 /\ n = hi /\ r = Some s') \/
     ((hi = 0 \/ n < hi) /\ R p s' None /\ r = if lo <=? n then Some s' else None)).

(** Elements with a separator between them; what is behind the last one is not taken. *)
Definition listed (R : answer) (p sep : pat) (s s' : list Z) : Prop :=
  (R p s None /\ s' = s) \/
  exists s0 n, R p s (Some s0) /\
    in_a_row (fun a b => exists c, R sep a (Some c) /\ R p c (Some b)) n s0 s' /\
    (R sep s' None \/ exists c, R sep s' (Some c) /\ R p c None).
