(** What can be seen of a resumable parser between the calls, answered or not. *)
From Coq Require Import List ZArith Bool Arith.
From Verif Require Import Base Source Dst Pattern Parser Session.
Import ListNotations.

(** The answer, if there is one, the destination object and the action calls made. *)
Definition sight : Type := option result * list val * list event.
Definition session_shows (o : outcome (session cseq)) : outcome sight :=
  match o with
  | Done s => Done (s_res s, w_cells (s_world s), w_trace (s_world s))
  | Err e => Err e
  end.

(** The callback either does not take the bound destination, or only adds to the end of it. *)
Definition appends (a : action) : Prop :=
  ac_param a = true -> forall x l, exists m, snd (ac_fun a x (VColl l)) = VColl (l ++ m).

(** A collection that starts with the elements of another one. *)
Definition starts_with (v v' : val) : Prop := exists l m, v = VColl l /\ v' = VColl (l ++ m).
