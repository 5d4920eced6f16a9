(** Moving a resumable parser (operations/make_parser.h: the implicit move constructor). *)
From Coq Require Import List ZArith Bool Arith.
From Verif Require Import Base CharSet Source Dst Pattern Parser Session.
Import ListNotations.

(** A parser that was moved from another, auto moved = std::move(original) (make_parser.h:22-41).
    Memberwise, lines 36-40:
    - data_source_: the list of buffers and the stack of marks go to the new one, and the ones of
      the original are empty; final_, current_, current_buffer_ and empty_rollbacks_
      (container_sequence.h:38-45) are copied.  current_buffer_ of both is the same iterator.
      If it is that of a buffer, it now belongs to the list of the new one; if it is the end of
      the list, it still belongs to the original (as the standard libraries have it).  Each compares it with the end of its own list
      in empty(), container_sequence.h:117, which is undefined for the other's;
    - ctx_ holds a reference to a data source (context.h:43), which is that of the original;
    - pat_, dst_ and parser_ are moved; dst_ refers to the same object.
    [mv_world] has the data source of the original, the only one that is read.
    Simplified: the new parser's own buffers are not kept, since nothing reads them, and the
    original is not asked any more. *)
Record moved : Type := Moved {
  mv_res : option result; mv_st : pst;                 (* parser_, its answer as in [session] *)
  mv_final : bool;                                     (* data_source_.final_ of the new one *)
  mv_unread : bool;                                    (* current_buffer_ was not the end *)
  mv_alive : bool;                                     (* the original has not been destroyed *)
  mv_world : world cseq }.

(** data_source_ of the original, afterwards. *)
Definition left_source (s : cseq) : cseq :=
  Cseq [] (cs_final s) (cs_cur s) [] (cs_starved s) (cs_fresh s).

Definition move (s : session cseq) : moved :=
  Moved (s_res s) (s_st s) (cs_final (w_src (s_world s))) (negb (cs_empty (w_src (s_world s)))) true
        (World (left_source (w_src (s_world s))) (w_cells (s_world s)) (w_trace (s_world s))).

(** original.data().add_buffer(..), moved.data().add_buffer(..), moved.consume(), and the end
    of the life of the original. *)
Inductive mcall : Type := FeedOriginal (b : list Z) (f : bool) | FeedMoved (b : list Z) (f : bool) | Ask | Destroy.

Section Move.
Context (env : nat -> option pat) (n : nat) (t : ty) (p : pat).

Definition do_moved (k : mcall) (s : moved) : outcome moved :=
  match k with
  | FeedOriginal b f =>                                 (* make_parser.h:30, container_sequence.h:54-74 *)
    if negb (mv_alive s) then Err (EUb UbRead)
    else if negb (cs_final (w_src (mv_world s))) && mv_unread s && negb (match b with [] => true | _ => false end)
    then Err (EUb UbRead)                               (* line 59: empty() *)
    else obind (cs_add b f (w_src (mv_world s))) (fun src =>
         Done (Moved (mv_res s) (mv_st s) (mv_final s) (mv_unread s) (mv_alive s)
                     (World src (w_cells (mv_world s)) (w_trace (mv_world s)))))
  | FeedMoved b f =>
    if mv_final s then Err (EUb UbFinal)                (* line 56 *)
    else match b with
         | _ :: _ =>
           if mv_unread s
           then Done (Moved (mv_res s) (mv_st s) f (mv_unread s) (mv_alive s) (mv_world s))
           else Err (EUb UbRead)                        (* line 59: empty() *)
         | [] => Done (Moved (mv_res s) (mv_st s) f (mv_unread s) (mv_alive s) (mv_world s))
         end
  | Ask =>                                              (* make_parser.h:31 *)
    match mv_res s with
    | Some _ => Done s
    | None =>
      (* Simplified: undefined even if parser_ asks its source for nothing. *)
      if negb (mv_alive s) || mv_unread s then Err (EUb UbRead)
      else match top_consume cs_ops env n t p (mv_st s) (mv_world s) with
           | Err e => Err e
           | Done ((r, st), w) =>
             Done (Moved (match r with PARTIAL => None | _ => Some r end) st (mv_final s) false (mv_alive s) w)
           end
    end
  | Destroy => Done (Moved (mv_res s) (mv_st s) (mv_final s) (mv_unread s) false (mv_world s))
  end.

Fixpoint do_all_moved (l : list mcall) (s : moved) : outcome moved :=
  match l with
  | [] => Done s
  | k :: l' => obind (do_moved k s) (do_all_moved l')
  end.

(** make_parser<BUF>(pat, dst), calls, the move, further calls. *)
Definition run_moved (v : val) (before : list call) (l : list mcall) : outcome moved :=
  obind (run_session env n t v p before) (fun s => do_all_moved l (move s)).
End Move.
