(** A program that keeps several resumable parsers at once and calls parse() in between
    (operations/make_parser.h, operations/parse.h). *)
From Coq Require Import List ZArith Bool Arith.
From Verif Require Import Base CharSet Source Dst Pattern Parser Session.
Import ListNotations.

(** What a program does with its parsers and its objects: make_parser<BUF>(pat, obj) or
    make_parser<BUF>(pat) (make_parser.h:42-55; [k]: the number of the object, None: nil), a
    call on the [i]-th parser made, an assignment to one of its own objects, a call
    parse(b, e, pat, obj) or parse(b, e, pat) (parse.h:28-48).  Simplified: destroying a parser
    and moving one are left out. *)
Inductive stmt : Type :=
| SMake (p : pat) (k : option nat)
| SCall (i : nat) (c : call)
| SSet (k : nat) (v : val)
| SParse (p : pat) (k : option nat) (inp : list Z).

(** The members of a ParserInterface (make_parser.h:33-40): the data source is the parser's
    own, the destination refers to an object of the program.  [q_res] as in [session]. *)
Record pobj : Type := PObj {
  q_pat : pat; q_dst : option nat; q_res : option result; q_st : pst; q_src : cseq }.

(** What a call of parse() gave: the answer, where it stopped, the callbacks, newest first. *)
Definition answer : Type := result * sfwd * list event.

(** The objects of the program, the parsers in the order they were made, the calls of user
    callbacks, newest first, each with the number of the parser that made it, and what the
    calls of parse() gave, in order, each with the object it was called for. *)
Record prog : Type := Prog {
  g_objs : list val; g_parsers : list pobj; g_log : list (nat * event);
  g_parsed : list (option nat * answer) }.

Section Program.
(** The definitions of Recur patterns, the fuel, the types of the objects. *)
Context (env : nat -> option pat) (n : nat) (ts : list ty).

Definition obj_ty (k : option nat) : ty :=
  match k with Some x => nth x ts TNil | None => TNil end.

(** wrap_dst of the object, make_parser.h:45: a reference to it; of nil: no destination. *)
Definition obj_dst (k : option nat) : dst :=
  match k with Some x => dst_cell x (obj_ty k) | None => DNil end.

(** ctx_, make_parser.h:25: no skipper; the destination is also the bound one. *)
Definition obj_ctx (k : option nat) : ctx := Ctx Fail (obj_dst k).

Definition with_parser (i : nat) (q : pobj) (g : prog) : prog :=
  Prog (g_objs g) (upd (g_parsers g) i q) (g_log g) (g_parsed g).

(** One statement.  As in [do_call], calls made after the answer are ignored. *)
Definition do_stmt (s : stmt) (g : prog) : outcome prog :=
  match s with
  | SMake p k =>                                        (* make_parser.h:24-28 *)
    if match k with Some x => x <? length (g_objs g) | None => true end then
    match create cs_ops (obj_ctx k) default_req (obj_dst k) p (World cs_make (g_objs g) []) with
    | Err e => Err e
    | Done (st, w) =>
      Done (Prog (w_cells w) (g_parsers g ++ [PObj p k None st (w_src w)])
                 (map (pair (length (g_parsers g))) (w_trace w) ++ g_log g) (g_parsed g))
    end
    else Err EShape
  | SCall i c =>
    match nth_error (g_parsers g) i with
    | None => Err EShape
    | Some q =>
      match q_res q with
      | Some _ => Done g
      | None =>
        match c with
        | Feed b f =>                                   (* make_parser.h:30, container_sequence.h:54-74 *)
          obind (cs_add b f (q_src q)) (fun src =>
          Done (with_parser i (PObj (q_pat q) (q_dst q) None (q_st q) src) g))
        | Consume =>                                    (* make_parser.h:31 *)
          match consume cs_ops env n (obj_ctx (q_dst q)) default_req (obj_dst (q_dst q))
                        (q_pat q) (q_st q) (World (q_src q) (g_objs g) []) with
          | Err e => Err e
          | Done ((r, st), w) =>
            let res := match r with PARTIAL => None | _ => Some r end in
            Done (Prog (w_cells w)
                       (upd (g_parsers g) i (PObj (q_pat q) (q_dst q) res st (w_src w)))
                       (map (pair i) (w_trace w) ++ g_log g) (g_parsed g))
          end
        end
      end
    end
  | SSet k v =>
    if k <? length (g_objs g) then Done (Prog (upd (g_objs g) k v) (g_parsers g) (g_log g) (g_parsed g))
    else Err EShape
  | SParse p k inp =>                                   (* parse.h:30-40 *)
    if match k with Some x => x <? length (g_objs g) | None => true end then
    match (st <- create sf_ops (obj_ctx k) default_req (obj_dst k) p ;;
           consume sf_ops env n (obj_ctx k) default_req (obj_dst k) p st)
          (World (sf_make inp) (g_objs g) []) with
    | Err e => Err e
    | Done ((r, _), w) =>
      Done (Prog (w_cells w) (g_parsers g) (g_log g)
                 (g_parsed g ++ [(k, (r, w_src w, w_trace w))]))
    end
    else Err EShape
  end.

Fixpoint do_stmts (l : list stmt) (g : prog) : outcome prog :=
  match l with
  | [] => Done g
  | s :: l' => obind (do_stmt s g) (do_stmts l')
  end.

(** A whole program, on objects with these initial values. *)
Definition run_prog (objs : list val) (l : list stmt) : outcome prog :=
  do_stmts l (Prog objs [] [] []).
End Program.
