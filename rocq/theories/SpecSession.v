(** Schedules of the calls on a resumable parser, and what can be seen of the outcome. *)
From Coq Require Import List ZArith Bool Arith.
From Verif Require Import Base Source Dst Parser Session.
Import ListNotations.

(** Everything a schedule feeds. *)
Fixpoint fed (l : list call) : list Z :=
  match l with
  | [] => []
  | Feed b _ :: l' => b ++ fed l'
  | Consume :: l' => fed l'
  end.

(** Was a buffer flagged final? *)
Definition ended (l : list call) : bool :=
  existsb (fun k => match k with Feed _ f => f | Consume => false end) l.

(** add_buffer is not called again after the final buffer (it asserts that). *)
Fixpoint legal (l : list call) : bool :=
  match l with
  | [] => true
  | Feed _ true :: l' => forallb (fun k => match k with Feed _ _ => false | Consume => true end) l'
  | _ :: l' => legal l'
  end.

(** A schedule that feeds everything and asks for the answer: consume() may be called
    anywhere before, and is called at the end. *)
Definition complete (l : list call) : Prop :=
  exists l', l = l' ++ [Consume] /\ legal l' = true /\ ended l' = true.

(** What the source has not read yet. *)
Fixpoint unread_from (id off : nat) (l : list (nat * list Z)) : list Z :=
  match l with
  | [] => []
  | (i, b) :: t => if i =? id then skipn off b ++ concat (map snd t) else unread_from id off t
  end.
Definition cs_unread (s : cseq) : list Z :=
  match cs_cur s with None => [] | Some (id, off) => unread_from id off (cs_bufs s) end.

(** What the caller of parse() and the user of a resumable parser can see in the end:
    the answer, the destination object and the action calls. *)
Definition seen : Type := result * list val * list event.
Definition parse_seen (o : outcome (result * world sfwd)) : outcome seen :=
  match o with
  | Done (r, w) => Done (r, w_cells w, w_trace w)
  | Err e => Err e
  end.
(** [None]: no answer yet. *)
Definition session_seen (o : outcome (session cseq)) : outcome (option seen) :=
  match o with
  | Done s => Done (option_map (fun r => (r, w_cells (s_world s), w_trace (s_world s))) (s_res s))
  | Err e => Err e
  end.

(** An outcome a program reaches: its value for every large enough fuel, fuel exhaustion
    not being one. *)
Definition reaches {A} (f : nat -> outcome A) (o : outcome A) : Prop :=
  o <> Err EFuel /\ exists n, forall m, n <= m -> f m = o.
