(** Histories of a data source, and what an observer may expect of them. *)
From Coq Require Import List ZArith Bool Arith.
From Verif Require Import Base Source.
Import ListNotations.

(** What the user and the parsers can do to a source. *)
Inductive sop : Type :=
| OAdd (b : list Z) (f : bool)   (* add_buffer(b, f) *)
| OAdvance | OPrepare | OCommit | OCancel.

(** ... to a ContainerSequenceDataSource, *)
Definition cs_do (o : sop) (s : cseq) : outcome cseq :=
  match o with
  | OAdd b f => cs_add b f s
  | OAdvance => cs_advance s
  | OPrepare => Done (cs_prepare s)
  | OCommit => cs_commit s
  | OCancel => cs_cancel s
  end.

(** ... to a SingleForwardDataSource (which has no add_buffer), *)
Definition sf_do (o : sop) (s : sfwd) : outcome sfwd :=
  match o with
  | OAdd _ _ => Err EType
  | OAdvance => sf_advance s
  | OPrepare => Done (sf_prepare s)
  | OCommit => sf_commit s
  | OCancel => sf_cancel s
  end.

(** ... to the reference cursor. *)
Definition a_do (o : sop) (s : cursor) : outcome cursor :=
  match o with
  | OAdd b f => a_add b f s
  | OAdvance => a_advance s
  | OPrepare => Done (a_prepare s)
  | OCommit => a_commit s
  | OCancel => a_cancel s
  end.

Fixpoint run_ops {S} (do : sop -> S -> outcome S) (h : list sop) (s : S) : outcome S :=
  match h with
  | [] => Done s
  | o :: h' => obind (do o s) (run_ops do h')
  end.

(** The cursor before any data was added, and over a fixed range. *)
Definition cursor0 : cursor := Cursor [] false 0 [].
Definition cursor_of (l : list Z) : cursor := Cursor l true 0 [].

(** The buffers of a history, empty ones left out. *)
Fixpoint added (h : list sop) : list (list Z) :=
  match h with
  | [] => []
  | OAdd b _ :: h' => match b with [] => added h' | _ => b :: added h' end
  | _ :: h' => added h'
  end.

(** The buffers that have something at position [q] or behind it, where [q] counts from
    the start of the first buffer. *)
Fixpoint reaching (q : nat) (l : list (list Z)) : list (list Z) :=
  match l with
  | [] => []
  | b :: t => if length b <=? q then reaching (q - length b) t else l
  end.

(** The place a cursor may have to go back to: its oldest mark, or where it is. *)
Definition oldest (a : cursor) : nat := last (a_stk a) (a_pos a).
