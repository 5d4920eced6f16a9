(** Copies of a resumable parser (operations/make_parser.h: the implicit copy constructor). *)
From Coq Require Import List ZArith Bool Arith.
From Verif Require Import Base CharSet Source Dst Pattern Parser Session.
Import ListNotations.

(** A parser and a copy of it, auto copy = original (make_parser.h:22-41; only patterns without
    Recur: the parser of a Recur holds a unique_ptr, parsers/coroutine/recur.h:30, and is not
    copyable).  Memberwise, lines 36-40:
    - data_source_: the buffers are shared, final_ is copied; current_buffer_ is an iterator of
      the list of the original, so the copy's empty() compares iterators of two lists,
      container_sequence.h:117: [tw_final] is all that can be used;
    - ctx_ holds a reference to a data source (context.h:43), which is that of the original;
    - pat_, dst_ and parser_ are values; dst_ refers to the same object.
    The world is the one of the original. *)
Record twins : Type := Twins {
  tw_res : option result; tw_st : pst;                 (* parser_ of the original, its answer *)
  tw_cres : option result; tw_cst : pst;               (* the same of the copy *)
  tw_final : bool;                                     (* the copy's data_source_.final_ *)
  tw_world : world cseq }.

Definition copied (s : session cseq) : twins :=
  Twins (s_res s) (s_st s) (s_res s) (s_st s) (cs_final (w_src (s_world s))) (s_world s).

(** Whom a call is made on. *)
Inductive who : Type := Original | Copy.

Section Twins.
Context (env : nat -> option pat) (n : nat) (t : ty) (p : pat).

Definition answered (r : result) : option result := match r with PARTIAL => None | _ => Some r end.

(** One call; consume() is ignored on a parser that has answered, as in [do_call]. *)
Definition do_twin (k : who * call) (s : twins) : outcome twins :=
  match k with
  | (Original, Feed b f) =>                             (* make_parser.h:30 *)
    obind (cs_add b f (w_src (tw_world s))) (fun src =>
    Done (Twins (tw_res s) (tw_st s) (tw_cres s) (tw_cst s) (tw_final s)
                (World src (w_cells (tw_world s)) (w_trace (tw_world s)))))
  | (Copy, Feed b f) =>                                 (* container_sequence.h:54-74 *)
    if tw_final s then Err (EUb UbFinal)                (* line 56 *)
    else match b with
         | [] => Done (Twins (tw_res s) (tw_st s) (tw_cres s) (tw_cst s) f (tw_world s))
         | _ :: _ => Err (EUb UbRead)                   (* line 59: empty() *)
         end
  | (Original, Consume) =>                              (* make_parser.h:31 *)
    match tw_res s with
    | Some _ => Done s
    | None =>
      match top_consume cs_ops env n t p (tw_st s) (tw_world s) with
      | Err e => Err e
      | Done ((r, st), w) => Done (Twins (answered r) st (tw_cres s) (tw_cst s) (tw_final s) w)
      end
    end
  | (Copy, Consume) =>                                  (* the same: ctx_ is that of the original *)
    match tw_cres s with
    | Some _ => Done s
    | None =>
      match top_consume cs_ops env n t p (tw_cst s) (tw_world s) with
      | Err e => Err e
      | Done ((r, st), w) => Done (Twins (tw_res s) (tw_st s) (answered r) st (tw_final s) w)
      end
    end
  end.

Fixpoint do_twins (l : list (who * call)) (s : twins) : outcome twins :=
  match l with
  | [] => Done s
  | k :: l' => obind (do_twin k s) (do_twins l')
  end.

(** make_parser<BUF>(pat, dst), calls, a copy of the parser, further calls. *)
Definition run_twins (v : val) (before : list call) (l : list (who * call)) : outcome twins :=
  obind (run_session env n t v p before) (fun s => do_twins l (copied s)).
End Twins.
