(** The coroutine parsers (the files below parsers/coroutine): constructors and consume. *)
From Coq Require Import List ZArith Bool Arith.
From Verif Require Import Base CharSet Source Dst Pattern.
Import ListNotations.

(** An action call, as seen from outside. *)
Record event := Event { ev_act : nat; ev_val : val }.

(** Everything a running parser can reach: the data source, the memory cells
    (destination objects and buffers) and the action calls so far (latest first). *)
Record world (S : Type) := World { w_src : S; w_cells : list val; w_trace : list event }.
Arguments World {S}. Arguments w_src {S}. Arguments w_cells {S}. Arguments w_trace {S}.

Definition M (S A : Type) : Type := world S -> outcome (A * world S).

Definition ret {S A} (a : A) : M S A := fun w => Done (a, w).
Definition raise {S A} (e : err) : M S A := fun _ => Err e.
Definition bind {S A B} (m : M S A) (f : A -> M S B) : M S B :=
  fun w => match m w with Done (a, w') => f a w' | Err e => Err e end.
Notation "x <- a ;; b" := (bind a (fun x => b)) (at level 61, a at next level, right associativity).
Notation "a ;;; b" := (bind a (fun _ => b)) (at level 61, right associativity).

(** Lifting an operation on the cells. *)
Definition on_cells {S} (f : list val -> outcome (list val)) : M S unit :=
  fun w => match f (w_cells w) with
           | Done c => Done (tt, World (w_src w) c (w_trace w))
           | Err e => Err e
           end.

(** [REQ_T]: the requirements of parser_factory.h:25-31.  [r_recur] tells the type
    RecurChildReqs itself (recur.h:18-20) from the types derived from it. *)
Record req := Req { r_atomic : bool; r_clean : bool; r_consumes : bool; r_recur : bool }.

Definition default_req : req := Req false false false false.          (* parser_factory.h:25-31 *)
Definition recur_req : req := Req false false false true.             (* recur.h:18-20 *)
Definition skip_req : req := Req false true true false.               (* adapters/skip.h:37-39 *)
Definition neg_req : req := Req false true false false.               (* binary/except.h:33-39 *)
Definition except_req (r : req) : req := Req (r_atomic r) false (r_consumes r) false.  (* except.h:26-31 *)
Definition list_req : req := Req true false false false.              (* binary/list.h:27-33 *)
Definition sep_req : req := Req false false false false.              (* binary/list.h:35-40 *)
Definition seq_req : req := Req false false false false.              (* nary/sequence.h:100-102 *)
Definition alt_req (r : req) : req := Req (r_atomic r) true (r_consumes r) false.      (* alternative.h:54-56 *)
Definition repeat_req (rmin rmax : nat) (r : req) : req :=            (* unary/repeat.h:28-44 *)
  Req true (negb (rmin =? rmax) || (rmax =? 0)) (r_consumes r) false.
Definition not_req (r : req) : req := Req false false (r_consumes r) false.            (* unary/not.h:22-27 *)
Definition opt_req (r : req) : req := Req true false (r_consumes r) false.             (* optional.h:22-38 *)
Definition unatomic_req (r : req) : req :=    (* bind_dst.h:23-27, construct.h:27-29, adapters/atomic.h:28-30 *)
  Req false (r_clean r) (r_consumes r) false.
Definition action_req (r : req) : req :=      (* unary/action.h:153-166 *)
  Req false (r_clean r) (r_consumes r) false.
Definition unclean_req (r : req) : req :=     (* adapters/clean_failure.h:30-32 *)
  Req (r_atomic r) false (r_consumes r) false.

(** [Context]: context.h:19-46 without the data source. *)
Record ctx := Ctx { c_skip : pat; c_bound : dst }.

(** The context of a skipper: adapters/skip.h:35,45. *)
Definition skip_ctx : ctx := Ctx Fail DNil.

(** The objects: one constructor per parser class that has state. *)
Inductive pst : Type :=
| PSkip (done : bool) (s c : pst)      (* SkipAdapter: adapters/skip.h:68-71 *)
| PClean (c : pst)                     (* CleanFailureAdapter: clean_failure.h:59 *)
| PAtomic (buf : val) (c : pst)        (* AtomicAdapter: atomic.h:49-50 *)
| PLeaf                                (* CharImpl, CharSymbolImpl, EoiImpl, PassImpl, FailImpl *)
| PLit (rest : list Z)                 (* StringLiteralImpl: next_expected_ (string_literal.h:24) *)
| PSym (next : trie) (valid : option trie)  (* SymbolImpl: string_symbol.h:26-27 *)
| PUInt (count : Z)                    (* UIntImpl: uint.h:58; unbounded counter *)
| PInt (count : Z) (look neg : bool)   (* IntImpl: int.h:81-83; unbounded counter *)
| PNary (i : nat) (c : pst)            (* the variant of SeqImpl and AltImpl: index and object *)
| PExcept (i : nat) (c : pst)          (* the variant of ExceptImpl: except.h:44-45 *)
| PListSt (i : nat) (c : pst)          (* the variant of ListImpl: list.h:45-46 *)
| PRepeat (count : nat) (c : pst)      (* RepeatImpl: repeat.h:49-50; unbounded counter *)
| PNot (c : pst)                       (* NotImpl: not.h:30 *)
| POpt (c : pst)                       (* OptImpl: optional.h:41 *)
| POne (c : pst)                       (* DiscardImpl, LexemeImpl, WithSkipperImpl, BindDstImpl *)
| PAction (land : val) (c : pst)       (* ActionImpl: action.h:175-176 *)
| PConstruct (buf : val) (c : pst)     (* ConstructImpl: construct.h:33-34 *)
| PRecur (c : option pst).             (* RecurImpl: recur.h:30 *)

Section Machine.

Context {S : Type} (ops : source_ops S).

(** Operations of the data source, lifted. *)
Definition m_empty : M S bool := fun w => Done (so_empty ops (w_src w), w).
Definition m_final : M S bool := fun w => Done (so_final ops (w_src w), w).
Definition m_next : M S Z := fun w =>
  match so_next ops (w_src w) with Done c => Done (c, w) | Err e => Err e end.
Definition m_src (f : S -> outcome S) : M S unit := fun w =>
  match f (w_src w) with Done s => Done (tt, World s (w_cells w) (w_trace w)) | Err e => Err e end.
Definition m_advance : M S unit := m_src (so_advance ops).
Definition m_prepare : M S unit := m_src (fun s => Done (so_prepare ops s)).
Definition m_commit : M S unit := m_src (so_commit ops).
Definition m_cancel : M S unit := m_src (so_cancel ops).

Definition m_assign (d : dst) (v : val) : M S unit := on_cells (fun c => assign c d v).

(** Running a member parser with one of the object's own buffers as destination: the
    buffer is given a cell for the time of the call. *)
Definition with_cell {A} (v : val) (f : nat -> M S A) : M S (A * val) := fun w =>
  let lvl := length (w_cells w) in
  match f lvl (World (w_src w) (w_cells w ++ [v]) (w_trace w)) with
  | Done (a, w') =>
    match nth_error (w_cells w') lvl with
    | Some v' => Done ((a, v'), World (w_src w') (firstn lvl (w_cells w')) (w_trace w'))
    | None => Err EShape
    end
  | Err e => Err e
  end.

(** ** Constructors *)

(** AdaptedParserFactory::create (parser_factory.h:76-100) around the raw parser [raw],
    and its specialisation for RecurChildReqs (recur.h:71-78).
    [mk_skip]: creates the skip parser (adapters/skip.h:45), [None] when the skipper of the
    context is [Fail].  Order of the effects: skip parser first (skip.h:45-46, in member
    order 70-71), mark after the adapted parser (clean_failure.h:37-40). *)
Definition adapt (mk_skip : option (M S pst)) (rq : req) (d : dst) (p : pat)
                 (raw : req -> dst -> M S pst) : M S pst :=
  if r_recur rq then raw rq d
  else
    let atomic (rq : req) :=
      if r_atomic rq && negb (f_atomic p) then
        let t := dst_value_ty d in                       (* atomic.h:26 *)
        x <- with_cell (default_init t) (fun lvl => raw (unatomic_req rq) (dst_cell lvl t)) ;;
        ret (PAtomic (snd x) (fst x))                    (* atomic.h:37-38 *)
      else raw rq d in
    let clean :=
      if r_clean rq && negb (f_clean p) then
        c <- atomic (unclean_req rq) ;;
        m_prepare ;;;                                    (* clean_failure.h:37-40 *)
        ret (PClean c)
      else atomic rq in
    match mk_skip with
    | None => clean
    | Some mk => s <- mk ;; c <- clean ;; ret (PSkip false s c)   (* skip.h:44-46 *)
    end.

(** The constructors.  Dynamic type errors stand for compile-time ones. *)
Fixpoint create_in (mk_skip : option (M S pst)) (rq : req) (d : dst) (p : pat) {struct p} : M S pst :=
  adapt mk_skip rq d p (fun rq d =>
  match p with
  | Char _ | CharSymbol _ | Eoi | Fail => ret PLeaf       (* character.h:24, char_symbol.h:26, eoi.h:25, fail.h:25 *)
  | Pass => if r_consumes rq then raise EType else ret PLeaf          (* pass.h:20,27 *)
  | Lit s => ret (PLit s)                                 (* string_literal.h:27-28 *)
  | Symbol m => ret (PSym (trie_build m) None)            (* string_symbol.h:30 *)
  | UInt _ _ _ => on_cells (fun c => num_zero c d) ;;; ret (PUInt 0)            (* uint.h:28 *)
  | Int _ _ _ => on_cells (fun c => num_zero c d) ;;; ret (PInt 0 true false)   (* int.h:28 *)
  | Seq l =>                                              (* sequence.h:119-124 *)
    match l with
    | [] => raise EType
    | q :: _ =>
      match seq_dst l 0 d with
      | Err e => raise e
      | Done d' => c <- create_in mk_skip seq_req d' q ;; ret (PNary 0 c)
      end
    end
  | Alt l =>                                              (* alternative.h:66-69 *)
    match l with
    | [] => raise EType
    | q :: _ => c <- create_in mk_skip (alt_req rq) d q ;; ret (PNary 0 c)
    end
  | Repeat lo hi q =>                                     (* repeat.h:21,53-54 *)
    if r_consumes rq && (lo =? 0) then raise EType
    else c <- create_in mk_skip (repeat_req lo hi rq) d q ;; ret (PRepeat 0 c)
  | Not q =>                                              (* not.h:33-36 *)
    c <- create_in mk_skip (not_req rq) d q ;; m_prepare ;;; ret (PNot c)
  | Opt q =>                                              (* optional.h:44-47 *)
    c <- create_in mk_skip (opt_req rq) d q ;; m_prepare ;;; ret (POpt c)
  | Discard q => c <- create_in mk_skip rq DNil q ;; ret (POne c)     (* discard.h:30-31 *)
  | Lexeme q => c <- create_in None rq d q ;; ret (POne c)            (* lexeme.h:29-30 *)
  | WithSkipper q s =>                                    (* with_skipper.h:29-31 *)
    c <- create_in (if is_fail s then None
                    else Some (create_in None skip_req DNil s)) rq d q ;; ret (POne c)
  | BindDst q => c <- create_in mk_skip (unatomic_req rq) d q ;; ret (POne c)   (* bind_dst.h:34-36 *)
  | Construct args q =>                                   (* construct.h:37-38 *)
    x <- with_cell (value_init (TTuple args)) (fun lvl =>
           create_in mk_skip (unatomic_req rq) (dst_cell lvl (TTuple args)) q) ;;
    ret (PConstruct (snd x) (fst x))
  | Act a q =>                                            (* action.h:179-180 *)
    x <- with_cell (default_init (ac_land a)) (fun lvl =>
           create_in mk_skip (action_req rq) (dst_cell lvl (ac_land a)) q) ;;
    ret (PAction (snd x) (fst x))
  | Except _ neg => c <- create_in mk_skip neg_req DNil neg ;; ret (PExcept 0 c)   (* except.h:48-49 *)
  | PList q _ =>                                          (* list.h:49-52 *)
    c <- create_in mk_skip list_req d q ;; m_prepare ;;; ret (PListSt 0 c)
  | Recur _ _ => ret (PRecur None)                        (* recur.h:33-36 *)
  end).

(** The skip parser of a context (adapters/skip.h:41-45,54-55). *)
Definition mk_skip_of (c : ctx) : option (M S pst) :=
  if is_fail (c_skip c) then None else Some (create_in None skip_req DNil (c_skip c)).

(** Creating a parser in a context. *)
Definition create (c : ctx) (rq : req) (d : dst) (p : pat) : M S pst :=
  create_in (mk_skip_of c) rq d p.

(** ** consume *)

(** The definitions of the Recur patterns (patterns/recur.h:48-55); [None]: never assigned. *)
Context (env : nat -> option pat).

(** One consume call of an object: the calls to member parsers, and the rounds of the
    loops, go through [self]. *)
Definition consume_ty : Type := ctx -> req -> dst -> pat -> pst -> M S (result * pst).

Section Classes.
Variable self : consume_ty.

(** SkipAdapter::consume, adapters/skip.h:48-66. *)
Definition skip_consume (c : ctx) (rq : req) (d : dst) (p : pat) (done : bool) (s a : pst)
  : M S (result * pst) :=
  if done then
    x <- self c rq d p a ;; ret (fst x, PSkip true s (snd x))
  else
    x <- self skip_ctx skip_req DNil (c_skip c) s ;;
    match fst x with
    | SUCCESS => s' <- create skip_ctx skip_req DNil (c_skip c) ;; self c rq d p (PSkip false s' a)
    | FAILURE => self c rq d p (PSkip true (snd x) a)
    | PARTIAL => ret (PARTIAL, PSkip false (snd x) a)
    end.

(** CleanFailureAdapter::consume, adapters/clean_failure.h:42-56. *)
Definition clean_consume (c : ctx) (rq : req) (d : dst) (p : pat) (a : pst) : M S (result * pst) :=
  x <- self c (unclean_req rq) d p a ;;
  match fst x with
  | SUCCESS => m_cancel ;;; ret (SUCCESS, PClean (snd x))
  | FAILURE => m_commit ;;; ret (FAILURE, PClean (snd x))
  | PARTIAL => ret (PARTIAL, PClean (snd x))
  end.

(** AtomicAdapter::consume, adapters/atomic.h:40-46. *)
Definition atomic_consume (c : ctx) (rq : req) (d : dst) (p : pat) (buf : val) (a : pst)
  : M S (result * pst) :=
  let t := dst_value_ty d in
  x <- with_cell buf (fun lvl => self c (unatomic_req rq) (dst_cell lvl t) p a) ;;
  let '((r, a'), buf') := x in
  match r with
  | SUCCESS => m_assign d buf' ;;; ret (SUCCESS, PAtomic buf' a')
  | _ => ret (r, PAtomic buf' a')
  end.

(** What a leaf does when the source is empty: character.h:27-29, char_symbol.h:29-31,
    string_literal.h:36-38. *)
Definition starved (st : pst) : M S (result * pst) :=
  f <- m_final ;; ret (if f then FAILURE else PARTIAL, st).

(** CharImpl::consume, leaf/character.h:26-38. *)
Definition char_consume (d : dst) (s : charset) : M S (result * pst) :=
  e <- m_empty ;;
  if e then starved PLeaf
  else c <- m_next ;;
       if is_valid s c then m_assign d (VNum c) ;;; m_advance ;;; ret (SUCCESS, PLeaf)
       else ret (FAILURE, PLeaf).

(** CharSymbolImpl::consume, leaf/char_symbol.h:28-41.  There is no advance() in it. *)
Definition char_symbol_consume (d : dst) (m : list (Z * val)) : M S (result * pst) :=
  e <- m_empty ;;
  if e then starved PLeaf
  else c <- m_next ;;
       match assoc c m with
       | None => ret (FAILURE, PLeaf)
       | Some v => m_assign d v ;;; ret (SUCCESS, PLeaf)
       end.

(** EoiImpl::consume, leaf/eoi.h:27-34. *)
Definition eoi_consume : M S (result * pst) :=
  e <- m_empty ;;
  if e then f <- m_final ;; ret (if f then SUCCESS else PARTIAL, PLeaf)
  else ret (FAILURE, PLeaf).

(** StringLiteralImpl::consume, leaf/string_literal.h:30-48. *)
Definition lit_consume (c : ctx) (rq : req) (d : dst) (p : pat) (rest : list Z)
  : M S (result * pst) :=
  match rest with
  | [] => ret (SUCCESS, PLit [])
  | x :: rest' =>
    e <- m_empty ;;
    if e then starved (PLit rest)
    else n <- m_next ;;
         if Z.eqb n x then m_advance ;;; self c rq d p (PLit rest')
         else ret (FAILURE, PLit rest)
  end.

(** [dst = *current_valid_->val], string_symbol.h:37,56,73: dereferences the optional. *)
Definition sym_value (n : trie) : outcome val := of_option EShape (trie_val n).

(** Lines 36-41 and 54-60 of leaf/string_symbol.h: stop at the last match, if any. *)
Definition sym_stop (d : dst) (next : trie) (valid : option trie) : M S (result * pst) :=
  match valid with
  | Some n =>
    match sym_value n with
    | Err e => raise e
    | Done v => m_assign d v ;;; m_commit ;;; ret (SUCCESS, PSym next valid)
    end
  | None => ret (FAILURE, PSym next valid)
  end.

(** SymbolImpl::consume, leaf/string_symbol.h:32-81. *)
Definition sym_consume (c : ctx) (rq : req) (d : dst) (p : pat) (next : trie) (valid : option trie)
  : M S (result * pst) :=
  e <- m_empty ;;
  if e then
    f <- m_final ;;
    if f then sym_stop d next valid else ret (PARTIAL, PSym next valid)
  else
    n <- m_next ;;
    match assoc n (trie_child next) with
    | None => sym_stop d next valid
    | Some nx =>
      m_advance ;;;
      match trie_val nx with
      | None => self c rq d p (PSym nx valid)
      | Some v =>
        (match valid with Some _ => m_cancel | None => ret tt end) ;;;
        match trie_child nx with
        | [] => m_assign d v ;;; ret (SUCCESS, PSym nx valid)
        | _ :: _ => m_prepare ;;; self c rq d p (PSym nx (Some nx))
        end
      end
    end.

(** UIntImpl::consume, leaf/numeric/uint.h:30-55. *)
Definition uint_consume (c : ctx) (rq : req) (d : dst) (p : pat) (base dmin dmax cnt : Z)
  : M S (result * pst) :=
  let verdict := if (dmin <=? cnt)%Z then SUCCESS else FAILURE in
  e <- m_empty ;;
  if e then
    f <- m_final ;;
    ret (if f then verdict else PARTIAL, PUInt cnt)
  else
    n <- m_next ;;
    if digit_valid base n then
      on_cells (fun cs => num_op (fun z => z * base)%Z cs d) ;;;
      on_cells (fun cs => num_op (fun z => z + digit_value base n)%Z cs d) ;;;
      m_advance ;;;
      let cnt' := (cnt + 1)%Z in
      if (cnt' =? dmax)%Z then ret (SUCCESS, PUInt cnt')
      else self c rq d p (PUInt cnt')
    else ret (verdict, PUInt cnt).

(** [if (neg_) dst.get() *= -1], int.h:34-36,66-68,72-74. *)
Definition int_negate (d : dst) (neg : bool) : M S unit :=
  if neg then on_cells (fun cs => num_op (fun z => z * -1)%Z cs d) else ret tt.

(** Lines 58-76 of leaf/numeric/int.h: the part behind the look for a sign. *)
Definition int_digit (c : ctx) (rq : req) (d : dst) (p : pat) (base dmin dmax cnt : Z)
           (look neg : bool) (n : Z) : M S (result * pst) :=
  if digit_valid base n then
    on_cells (fun cs => num_op (fun z => z * base)%Z cs d) ;;;
    on_cells (fun cs => num_op (fun z => z + digit_value base n)%Z cs d) ;;;
    m_advance ;;;
    let cnt' := (cnt + 1)%Z in
    if (cnt' =? dmax)%Z then int_negate d neg ;;; ret (SUCCESS, PInt cnt' look neg)
    else self c rq d p (PInt cnt' look neg)
  else
    int_negate d neg ;;;
    ret (if (dmin <=? cnt)%Z then SUCCESS else FAILURE, PInt cnt look neg).

(** IntImpl::consume, leaf/numeric/int.h:30-78. *)
Definition int_consume (c : ctx) (rq : req) (d : dst) (p : pat) (base dmin dmax cnt : Z)
           (look neg : bool) : M S (result * pst) :=
  e <- m_empty ;;
  if e then
    f <- m_final ;;
    if f then
      int_negate d neg ;;;
      ret (if (dmin <=? cnt)%Z then SUCCESS else FAILURE, PInt cnt look neg)
    else ret (PARTIAL, PInt cnt look neg)
  else
    n <- m_next ;;
    if (cnt =? 0)%Z && look then
      if (n =? 45)%Z then m_advance ;;; self c rq d p (PInt cnt false true)
      else if (n =? 43)%Z then m_advance ;;; self c rq d p (PInt cnt false neg)
      else int_digit c rq d p base dmin dmax cnt false neg n
    else int_digit c rq d p base dmin dmax cnt look neg n.

(** SeqImpl::consume_from<ID>, nary/sequence.h:137-167; [rest] are the parts behind the
    current one. *)
Fixpoint seq_from (c : ctx) (d : dst) (l : list pat) (i : nat) (q : pat) (rest : list pat) (a : pst)
  : M S (result * pst) :=
  match seq_dst l i d with
  | Err e => raise e
  | Done di =>
    x <- self c seq_req di q a ;;
    match fst x with
    | SUCCESS =>
      match rest with
      | [] => ret (SUCCESS, PNary i (snd x))
      | q' :: rest' =>
        match seq_dst l (Datatypes.S i) d with
        | Err e => raise e
        | Done di' =>
          a' <- create c seq_req di' q' ;;
          seq_from c d l (Datatypes.S i) q' rest' a'
        end
      end
    | r => ret (r, PNary i (snd x))
    end
  end.

(** AltImpl::consume_from<ID>, nary/alternative.h:82-108. *)
Fixpoint alt_from (c : ctx) (rq : req) (d : dst) (i : nat) (q : pat) (rest : list pat) (a : pst)
  : M S (result * pst) :=
  x <- self c (alt_req rq) d q a ;;
  match fst x with
  | FAILURE =>
    match rest with
    | [] => ret (FAILURE, PNary i (snd x))
    | q' :: rest' =>
      a' <- create c (alt_req rq) d q' ;;
      alt_from c rq d (Datatypes.S i) q' rest' a'
    end
  | r => ret (r, PNary i (snd x))
  end.

(** The dispatch on the variant index: sequence.h:126-135 and alternative.h:71-80 with
    support/visit_val.h:19-44.  A single-range source enters at part 0 unconditionally;
    abu_assume (sequence.h:139, alternative.h:84) then demands index 0. *)
Definition nary_enter (l : list pat) (i : nat)
           (k : pat -> list pat -> M S (result * pst)) : M S (result * pst) :=
  if negb (so_resumable ops) && negb (i =? 0) then raise EShape
  else match skipn i l with
       | [] => raise EShape
       | q :: rest => k q rest
       end.

(** RepeatImpl::consume, unary/repeat.h:56-81. *)
Definition repeat_consume (c : ctx) (rq : req) (d : dst) (p : pat) (lo hi : nat) (q : pat)
           (cnt : nat) (a : pst) : M S (result * pst) :=
  x <- self c (repeat_req lo hi rq) d q a ;;
  match fst x with
  | FAILURE => ret (if lo <=? cnt then SUCCESS else FAILURE, PRepeat cnt (snd x))
  | PARTIAL => ret (PARTIAL, PRepeat cnt (snd x))
  | SUCCESS =>
    let cnt' := Datatypes.S cnt in
    if negb (hi =? 0) && (cnt' =? hi) then ret (SUCCESS, PRepeat cnt' (snd x))
    else a' <- create c (repeat_req lo hi rq) d q ;; self c rq d p (PRepeat cnt' a')
  end.

(** NotImpl::consume, unary/not.h:38-56. *)
Definition not_consume (c : ctx) (rq : req) (d : dst) (q : pat) (a : pst) : M S (result * pst) :=
  x <- self c (not_req rq) d q a ;;
  match fst x with
  | SUCCESS => m_commit ;;; ret (FAILURE, PNot (snd x))
  | FAILURE => m_commit ;;; ret (SUCCESS, PNot (snd x))
  | PARTIAL => ret (PARTIAL, PNot (snd x))
  end.

(** OptImpl::consume, unary/optional.h:49-62. *)
Definition opt_consume (c : ctx) (rq : req) (d : dst) (q : pat) (a : pst) : M S (result * pst) :=
  x <- self c (opt_req rq) d q a ;;
  match fst x with
  | SUCCESS => ret (SUCCESS, POpt (snd x))
  | FAILURE => m_commit ;;; ret (SUCCESS, POpt (snd x))
  | PARTIAL => ret (PARTIAL, POpt (snd x))
  end.

(** Forwarding to the only child: DiscardImpl::consume (discard.h:33-35),
    LexemeImpl::consume (lexeme.h:32-34), WithSkipperImpl::consume (with_skipper.h:33-37),
    BindDstImpl::consume (bind_dst.h:38-41). *)
Definition forward_consume (c : ctx) (rq : req) (d : dst) (q : pat) (a : pst) : M S (result * pst) :=
  x <- self c rq d q a ;; ret (fst x, POne (snd x)).

(** act_dispatch, unary/action.h:103-144.  The landing object is passed by value (line
    104, 186): reading an indeterminate scalar is undefined.  Order: call the callback,
    which may change the bound destination, then store its result. *)
Definition act_dispatch (a : action) (land : val) (d : dst) (c : ctx) : M S unit :=
  match conv (ac_land a) land with
  | Err e => raise e
  | Done v => fun w =>
    match (if ac_param a then load (w_cells w) (c_bound c) else Done VNil) with
    | Err e => Err e
    | Done b =>
      let '(r, b') := ac_fun a v b in
      match (if ac_param a then
               match c_bound c with
               | DNil => Done (w_cells w)
               | DRef _ _ t => if has_ty t b' then store (w_cells w) (c_bound c) b' else Err EType
               end
             else Done (w_cells w)) with
      | Err e => Err e
      | Done cells =>
        let w' := World (w_src w) cells (Event (ac_id a) v :: w_trace w) in
        if ac_void a then Done (tt, w') else m_assign d r w'
      end
    end
  end.

(** ActionImpl::consume, unary/action.h:182-189. *)
Definition action_consume (c : ctx) (rq : req) (d : dst) (act : action) (q : pat)
           (land : val) (a : pst) : M S (result * pst) :=
  x <- with_cell land (fun lvl => self c (action_req rq) (dst_cell lvl (ac_land act)) q a) ;;
  let '((r, a'), land') := x in
  match r with
  | SUCCESS => act_dispatch act land' d c ;;; ret (SUCCESS, PAction land' a')
  | _ => ret (r, PAction land' a')
  end.

(** [std::make_from_tuple<dst_type>(buffer_)], construct.h:45.  Nil has constructors from
    no and from one argument only (nil.h:22-25); an integral type is initialised from one
    argument; a tuple from as many elements as it has; a class from anything (the
    constructor is the user's).  Collections: see the model's type error. *)
Definition make_from (t : ty) (buf : val) : outcome val :=
  match buf with
  | VTuple args =>
    match t with
    | TNil => match args with [] | [_] => Done VNil | _ => Err EType end
    | TNum _ _ => match args with [x] => conv t x | _ => Err EType end
    | TTuple _ => conv t buf
    | TUser id => Done (VUser id args)
    | TColl _ => Err EType
    end
  | _ => Err EType
  end.

(** ConstructImpl::consume, unary/construct.h:40-48. *)
Definition construct_consume (c : ctx) (rq : req) (d : dst) (args : list ty) (q : pat)
           (buf : val) (a : pst) : M S (result * pst) :=
  x <- with_cell buf (fun lvl => self c (unatomic_req rq) (dst_cell lvl (TTuple args)) q a) ;;
  let '((r, a'), buf') := x in
  match r with
  | SUCCESS =>
    match make_from (dst_ty d) buf' with
    | Err e => raise e
    | Done v => m_assign d v ;;; ret (SUCCESS, PConstruct buf' a')
    end
  | _ => ret (r, PConstruct buf' a')
  end.

(** ExceptImpl::consume, binary/except.h:51-67. *)
Definition except_consume (c : ctx) (rq : req) (d : dst) (q neg : pat) (i : nat) (a : pst)
  : M S (result * pst) :=
  match i with
  | 0 =>
    x <- self c neg_req DNil neg a ;;
    match fst x with
    | PARTIAL => ret (PARTIAL, PExcept 0 (snd x))
    | SUCCESS => ret (FAILURE, PExcept 0 (snd x))
    | FAILURE =>
      a' <- create c (except_req rq) d q ;;
      y <- self c (except_req rq) d q a' ;; ret (fst y, PExcept 1 (snd y))
    end
  | 1 => y <- self c (except_req rq) d q a ;; ret (fst y, PExcept 1 (snd y))
  | _ => raise EShape                                    (* abu_assume, line 65 *)
  end.

(** ListImpl::consume, binary/list.h:54-95. *)
Definition list_consume (c : ctx) (rq : req) (d : dst) (p q sep : pat) (i : nat) (a : pst)
  : M S (result * pst) :=
  match i with
  | 0 =>
    x <- self c list_req d q a ;;
    match fst x with
    | SUCCESS =>
      m_cancel ;;; m_prepare ;;;
      a' <- create c sep_req DNil sep ;; self c rq d p (PListSt 1 a')
    | FAILURE => m_commit ;;; ret (SUCCESS, PListSt 0 (snd x))
    | PARTIAL => ret (PARTIAL, PListSt 0 (snd x))
    end
  | 1 =>
    x <- self c sep_req DNil sep a ;;
    match fst x with
    | SUCCESS => a' <- create c list_req d q ;; self c rq d p (PListSt 0 a')
    | FAILURE => m_commit ;;; ret (SUCCESS, PListSt 1 (snd x))
    | PARTIAL => ret (PARTIAL, PListSt 1 (snd x))
    end
  | _ => raise EShape                                    (* abu_assume, line 77 *)
  end.

(** RecurImpl::consume, recur.h:38-45; operand(): patterns/recur.h:53-55. *)
Definition recur_consume (c : ctx) (d : dst) (id : nat) (a : option pst) : M S (result * pst) :=
  match env id with
  | None => raise (EUb UbRecur)
  | Some q =>
    a' <- (match a with None => create c recur_req d q | Some a => ret a end) ;;
    x <- self c recur_req d q a' ;; ret (fst x, PRecur (Some (snd x)))
  end.

(** consume of whatever object it is: adapters first (they carry the pattern of the
    adapted parser), then the parser of the pattern. *)
Definition consume_step (c : ctx) (rq : req) (d : dst) (p : pat) (st : pst) : M S (result * pst) :=
  match st with
  | PSkip done s a => skip_consume c rq d p done s a
  | PClean a => clean_consume c rq d p a
  | PAtomic buf a => atomic_consume c rq d p buf a
  | _ =>
    match p, st with
    | Char s, PLeaf => char_consume d s
    | CharSymbol m, PLeaf => char_symbol_consume d m
    | Eoi, PLeaf => eoi_consume
    | Pass, PLeaf => ret (SUCCESS, PLeaf)                (* pass.h:29 *)
    | Fail, PLeaf => ret (FAILURE, PLeaf)                (* fail.h:27 *)
    | Lit _, PLit rest => lit_consume c rq d p rest
    | Symbol _, PSym nx v => sym_consume c rq d p nx v
    | UInt b lo hi, PUInt n => uint_consume c rq d p b lo hi n
    | Int b lo hi, PInt n lk ng => int_consume c rq d p b lo hi n lk ng
    | Seq l, PNary i a => nary_enter l i (fun q rest => seq_from c d l i q rest a)
    | Alt l, PNary i a => nary_enter l i (fun q rest => alt_from c rq d i q rest a)
    | Repeat lo hi q, PRepeat n a => repeat_consume c rq d p lo hi q n a
    | Not q, PNot a => not_consume c rq d q a
    | Opt q, POpt a => opt_consume c rq d q a
    | Discard q, POne a => forward_consume c rq DNil q a
    | Lexeme q, POne a => forward_consume (Ctx Fail (c_bound c)) rq d q a
    | WithSkipper q s, POne a => forward_consume (Ctx s (c_bound c)) rq d q a
    | BindDst q, POne a => forward_consume (Ctx (c_skip c) d) (unatomic_req rq) d q a
    | Construct args q, PConstruct buf a => construct_consume c rq d args q buf a
    | Act act q, PAction land a => action_consume c rq d act q land a
    | Except q neg, PExcept i a => except_consume c rq d q neg i a
    | PList q sep, PListSt i a => list_consume c rq d p q sep i a
    | Recur id _, PRecur a => recur_consume c d id a
    | _, _ => raise EShape
    end
  end.

End Classes.

(** consume, with at most [n] nested calls and loop rounds. *)
Fixpoint consume (n : nat) : consume_ty :=
  match n with
  | 0 => fun _ _ _ _ _ => raise EFuel
  | Datatypes.S m => consume_step (consume m)
  end.

End Machine.
