(** The public operations: parse (operations/parse.h) and make_parser
    (operations/make_parser.h). *)
From Coq Require Import List ZArith Bool Arith.
From Verif Require Import Base CharSet Source Dst Pattern Parser.
Import ListNotations.

(** The destination and the context both operations use: the user's object is cell 0 and
    is also the bound destination; no skipper (parse.h:33-36, make_parser.h:25,45-46). *)
Definition top_dst (t : ty) : dst := dst_cell 0 t.
Definition top_ctx (t : ty) : ctx := Ctx Fail (top_dst t).

Section Session.
Context {S : Type} (ops : source_ops S) (env : nat -> option pat).

(** Construction of the parser object: parse.h:38, make_parser.h:28. *)
Definition top_create (t : ty) (p : pat) : M S pst :=
  create ops (top_ctx t) default_req (top_dst t) p.

(** [consume()]: parse.h:40, make_parser.h:31. *)
Definition top_consume (n : nat) (t : ty) (p : pat) (st : pst) : M S (result * pst) :=
  consume ops env n (top_ctx t) default_req (top_dst t) p st.

(** Construct, then consume once. *)
Definition top_run (n : nat) (t : ty) (p : pat) : M S (result * pst) :=
  st <- top_create t p ;; top_consume n t p st.

End Session.

(** parse(b, e, pat, dst), parse.h:29-41: [t] is the type of dst, [v] its initial value,
    [inp] the range.  The final world holds the iterator, dst and the action calls. *)
Definition parse (env : nat -> option pat) (n : nat) (t : ty) (v : val) (p : pat) (inp : list Z)
  : outcome (result * world sfwd) :=
  match top_run sf_ops env n t p (World (sf_make inp) [v] []) with
  | Done ((r, _), w) => Done (r, w)
  | Err e => Err e
  end.

(** What the user of a resumable parser does: data().add_buffer(...) and consume(). *)
Inductive call : Type := Feed (b : list Z) (f : bool) | Consume.

(** A parser object and the world, between calls; [Some r] once consume() answered
    something else than PARTIAL. *)
Record session (S : Type) := Session_ { s_res : option result; s_st : pst; s_world : world S }.
Arguments Session_ {S}. Arguments s_res {S}. Arguments s_st {S}. Arguments s_world {S}.

Section Drive.
Context {S : Type} (ops : source_ops S) (add : list Z -> bool -> S -> outcome S).
Context (env : nat -> option pat) (n : nat) (t : ty) (p : pat).

(** One call.  Calls made after the answer are not part of the session: they are ignored. *)
Definition do_call (k : call) (s : session S) : outcome (session S) :=
  match s_res s with
  | Some _ => Done s
  | None =>
    match k with
    | Feed b f =>                                       (* make_parser.h:30, container_sequence.h:54-74 *)
      obind (add b f (w_src (s_world s))) (fun src =>
      Done (Session_ None (s_st s) (World src (w_cells (s_world s)) (w_trace (s_world s)))))
    | Consume =>                                        (* make_parser.h:31 *)
      match top_consume ops env n t p (s_st s) (s_world s) with
      | Err e => Err e
      | Done ((PARTIAL, st), w) => Done (Session_ None st w)
      | Done ((r, st), w) => Done (Session_ (Some r) st w)
      end
    end
  end.

Fixpoint do_calls (l : list call) (s : session S) : outcome (session S) :=
  match l with
  | [] => Done s
  | k :: l' => obind (do_call k s) (do_calls l')
  end.

End Drive.

(** A whole session: make_parser<BUF>(pat, dst), then the calls. *)
Definition run_session (env : nat -> option pat) (n : nat) (t : ty) (v : val) (p : pat)
           (calls : list call) : outcome (session cseq) :=
  match top_create cs_ops t p (World cs_make [v] []) with
  | Err e => Err e
  | Done (st, w) => do_calls cs_ops cs_add env n t p calls (Session_ None st w)
  end.
