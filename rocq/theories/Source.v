(** Data sources (data_source/*.h). *)
From Coq Require Import List ZArith Bool Arith.
From Verif Require Import Base.
Import ListNotations.

(** The interface the parsers use, shared by single_forward.h:22-63 and
    container_sequence.h:32-157. *)
Record source_ops (S : Type) := SourceOps {
  so_empty : S -> bool;                  (* empty() *)
  so_final : S -> bool;                  (* final_buffer() *)
  so_next : S -> outcome Z;              (* next() *)
  so_advance : S -> outcome S;           (* advance() *)
  so_prepare : S -> S;                   (* prepare_rollback() *)
  so_commit : S -> outcome S;            (* commit_rollback() *)
  so_cancel : S -> outcome S;            (* cancel_rollback() *)
  so_resumable : bool                    (* IS_RESUMABLE *)
}.
Arguments so_empty {S}. Arguments so_final {S}. Arguments so_next {S}.
Arguments so_advance {S}. Arguments so_prepare {S}. Arguments so_commit {S}.
Arguments so_cancel {S}. Arguments so_resumable {S}.

(** ** SingleForwardDataSource (single_forward.h:22-63)

    A forward iterator into [b,e) is represented by the sequence that is left
    from it to e; two iterators of the range are equal iff these are. *)
Record sfwd := Sfwd { sf_cur : list Z; sf_stack : list (list Z) (* head = top() *) }.

(** Constructor, single_forward.h:38. *)
Definition sf_make (l : list Z) : sfwd := Sfwd l [].
(** empty, single_forward.h:62. *)
Definition sf_empty (s : sfwd) : bool := match sf_cur s with [] => true | _ => false end.
(** next, single_forward.h:55. *)
Definition sf_next (s : sfwd) : outcome Z :=
  match sf_cur s with [] => Err (EUb UbRead) | c :: _ => Done c end.
(** advance, single_forward.h:57-60. *)
Definition sf_advance (s : sfwd) : outcome sfwd :=
  match sf_cur s with [] => Err (EUb UbAdvance) | _ :: t => Done (Sfwd t (sf_stack s)) end.
(** prepare_rollback, single_forward.h:42. *)
Definition sf_prepare (s : sfwd) : sfwd := Sfwd (sf_cur s) (sf_cur s :: sf_stack s).
(** commit_rollback, single_forward.h:44-48. *)
Definition sf_commit (s : sfwd) : outcome sfwd :=
  match sf_stack s with [] => Err (EUb UbMark) | m :: st => Done (Sfwd m st) end.
(** cancel_rollback, single_forward.h:50-53. *)
Definition sf_cancel (s : sfwd) : outcome sfwd :=
  match sf_stack s with [] => Err (EUb UbMark) | _ :: st => Done (Sfwd (sf_cur s) st) end.

(** IS_RESUMABLE = false (line 36), final_buffer() = true (line 40). *)
Definition sf_ops : source_ops sfwd := {|
  so_empty := sf_empty; so_final := fun _ => true; so_next := sf_next;
  so_advance := sf_advance; so_prepare := sf_prepare; so_commit := sf_commit;
  so_cancel := sf_cancel; so_resumable := false |}.

(** ** ContainerSequenceDataSource (container_sequence.h:32-157)

    std::list nodes get a serial number when they are linked; a buffer_iterator is
    the serial number of its node ([None] is end()), an iterator into a buffer is an
    offset.  An iterator to a node that was unlinked is dangling: using it is UB.
    The value of [current_] when [current_buffer_] is end() is never used. *)
Record cseq := Cseq {
  cs_bufs : list (nat * list Z);      (* buffers_ (line 37) *)
  cs_final : bool;                    (* final_ (line 38) *)
  cs_cur : option (nat * nat);        (* current_buffer_, current_ (lines 40-41) *)
  cs_marks : list (nat * nat);        (* rollback_stack_ (line 44); head = back() *)
  cs_starved : nat;                   (* empty_rollbacks_ (line 45) *)
  cs_fresh : nat                      (* next serial number; not in the C++ *)
}.

(** Constructor, line 52. *)
Definition cs_make : cseq := Cseq [] false None [] 0 0.

(** The contents of a live node. *)
Fixpoint buf_find (id : nat) (l : list (nat * list Z)) : option (list Z) :=
  match l with
  | [] => None
  | (i, b) :: t => if i =? id then Some b else buf_find id t
  end.

(** std::next of a live node: [None] is end(). *)
Fixpoint buf_after (id : nat) (l : list (nat * list Z)) : option nat :=
  match l with
  | [] => None
  | (i, _) :: t => if i =? id then match t with [] => None | (j, _) :: _ => Some j end
                   else buf_after id t
  end.

(** empty, line 117. *)
Definition cs_empty (s : cseq) : bool :=
  match cs_cur s with None => true | Some _ => false end.

(** add_buffer, lines 54-74. *)
Definition cs_add (b : list Z) (f : bool) (s : cseq) : outcome cseq :=
  if cs_final s then Err (EUb UbFinal)
  else match b with
  | [] => Done (Cseq (cs_bufs s) f (cs_cur s) (cs_marks s) (cs_starved s) (cs_fresh s))
  | _ :: _ =>
    let id := cs_fresh s in
    let bufs := cs_bufs s ++ [(id, b)] in
    if cs_empty s
    then Done (Cseq bufs f (Some (id, 0))
                    (repeat (id, 0) (cs_starved s) ++ cs_marks s) 0 (S id))
    else Done (Cseq bufs f (cs_cur s) (cs_marks s) (cs_starved s) (S id))
  end.

(** next, lines 87-90. *)
Definition cs_next (s : cseq) : outcome Z :=
  match cs_cur s with
  | None => Err (EUb UbRead)
  | Some (id, off) =>
    match buf_find id (cs_bufs s) with
    | None => Err (EUb UbRead)
    | Some b => of_option (EUb UbRead) (nth_error b off)
    end
  end.

(** The test of lines 104-108: is the node the front one, and not held? *)
Definition cs_releases (s : cseq) (id : nat) : bool :=
  match cs_bufs s with
  | [] => false
  | (front, _) :: _ =>
    (front =? id) &&
    negb match rev (cs_marks s) with [] => false | (m, _) :: _ => m =? id end
  end.

(** advance, lines 92-115. *)
Definition cs_advance (s : cseq) : outcome cseq :=
  match cs_cur s with
  | None => Err (EUb UbAdvance)
  | Some (id, off) =>
    match buf_find id (cs_bufs s) with
    | None => Err (EUb UbAdvance)
    | Some b =>
      if length b <=? off then Err (EUb UbAdvance)
      else if S off =? length b then
        Done (Cseq (if cs_releases s id then tl (cs_bufs s) else cs_bufs s)
                   (cs_final s)
                   (match buf_after id (cs_bufs s) with
                    | Some j => Some (j, 0) | None => None end)
                   (cs_marks s) (cs_starved s) (cs_fresh s))
      else Done (Cseq (cs_bufs s) (cs_final s) (Some (id, S off))
                      (cs_marks s) (cs_starved s) (cs_fresh s))
    end
  end.

(** prepare_rollback, lines 119-125. *)
Definition cs_prepare (s : cseq) : cseq :=
  match cs_cur s with
  | None => Cseq (cs_bufs s) (cs_final s) (cs_cur s) (cs_marks s) (S (cs_starved s)) (cs_fresh s)
  | Some m => Cseq (cs_bufs s) (cs_final s) (cs_cur s) (m :: cs_marks s) (cs_starved s) (cs_fresh s)
  end.

(** The loop of lines 152-154: unlink from the front until [current_buffer_]. *)
Fixpoint buf_drop (cur : option nat) (l : list (nat * list Z)) : outcome (list (nat * list Z)) :=
  match l with
  | [] => match cur with None => Done [] | Some _ => Err (EUb UbRelease) end
  | (i, b) :: t =>
    match cur with
    | Some id => if i =? id then Done l else buf_drop cur t
    | None => buf_drop cur t
    end
  end.

(** cleanup_rollback_, lines 148-156. *)
Definition cs_cleanup (s : cseq) : outcome cseq :=
  match cs_marks s with
  | _ :: _ => Done s
  | [] => obind (buf_drop (option_map fst (cs_cur s)) (cs_bufs s)) (fun l =>
          Done (Cseq l (cs_final s) (cs_cur s) [] (cs_starved s) (cs_fresh s)))
  end.

(** commit_rollback, lines 127-136. *)
Definition cs_commit (s : cseq) : outcome cseq :=
  match cs_starved s with
  | S k => Done (Cseq (cs_bufs s) (cs_final s) (cs_cur s) (cs_marks s) k (cs_fresh s))
  | O => match cs_marks s with
         | [] => Err (EUb UbMark)
         | m :: ms => cs_cleanup (Cseq (cs_bufs s) (cs_final s) (Some m) ms 0 (cs_fresh s))
         end
  end.

(** cancel_rollback, lines 138-145. *)
Definition cs_cancel (s : cseq) : outcome cseq :=
  match cs_starved s with
  | S k => Done (Cseq (cs_bufs s) (cs_final s) (cs_cur s) (cs_marks s) k (cs_fresh s))
  | O => match cs_marks s with
         | [] => Err (EUb UbMark)
         | _ :: ms => cs_cleanup (Cseq (cs_bufs s) (cs_final s) (cs_cur s) ms 0 (cs_fresh s))
         end
  end.

(** IS_RESUMABLE = true (line 50), final_buffer (line 85). *)
Definition cs_ops : source_ops cseq := {|
  so_empty := cs_empty; so_final := cs_final; so_next := cs_next;
  so_advance := cs_advance; so_prepare := cs_prepare; so_commit := cs_commit;
  so_cancel := cs_cancel; so_resumable := true |}.

(** ** The reference cursor

    Not in the C++: one sequence, one position, a stack of positions.  It is the
    specification the two sources are compared with. *)
Record cursor := Cursor {
  a_inp : list Z; a_fin : bool; a_pos : nat; a_stk : list nat (* head = latest mark *) }.

Definition a_empty (s : cursor) : bool := length (a_inp s) <=? a_pos s.
Definition a_next (s : cursor) : outcome Z :=
  of_option (EUb UbRead) (nth_error (a_inp s) (a_pos s)).
Definition a_advance (s : cursor) : outcome cursor :=
  if a_empty s then Err (EUb UbAdvance)
  else Done (Cursor (a_inp s) (a_fin s) (S (a_pos s)) (a_stk s)).
Definition a_prepare (s : cursor) : cursor :=
  Cursor (a_inp s) (a_fin s) (a_pos s) (a_pos s :: a_stk s).
Definition a_commit (s : cursor) : outcome cursor :=
  match a_stk s with
  | [] => Err (EUb UbMark)
  | p :: st => Done (Cursor (a_inp s) (a_fin s) p st)
  end.
Definition a_cancel (s : cursor) : outcome cursor :=
  match a_stk s with
  | [] => Err (EUb UbMark)
  | _ :: st => Done (Cursor (a_inp s) (a_fin s) (a_pos s) st)
  end.
(** Providing more data. *)
Definition a_add (b : list Z) (f : bool) (s : cursor) : outcome cursor :=
  if a_fin s then Err (EUb UbFinal)
  else Done (Cursor (a_inp s ++ b) f (a_pos s) (a_stk s)).

Definition a_ops (resumable : bool) : source_ops cursor := {|
  so_empty := a_empty; so_final := a_fin; so_next := a_next;
  so_advance := a_advance; so_prepare := a_prepare; so_commit := a_commit;
  so_cancel := a_cancel; so_resumable := resumable |}.
