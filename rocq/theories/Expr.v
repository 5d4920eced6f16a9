(** Expressions a pattern is written with, and the pattern the library makes of them
    (patterns/*.h).  Not modelled: the precedence of the C++ operators (the tree is given),
    seq(...), alt(...), list(a, b) and except(a, b) (the last two are the operators without
    the check that one operand is a pattern), lvalue and rvalue references. *)
From Coq Require Import List ZArith Bool.
From Verif Require Import Base CharSet Dst Pattern.
Import ListNotations.

Inductive expr : Type :=
| EPat (p : pat)                       (* a pattern object: a variable, char_(..), uint_, seq(..), .. *)
| EChar (wide : bool) (c : Z)          (* a character, of type char or char32_t *)
| EStr (mem : list Z)                  (* a string: the memory the pointer points to *)
| ESet (s : charset)                   (* a character set *)
| ESeq (a b : expr)                    (* a >> b *)
| EAlt (a b : expr)                    (* a | b *)
| EList (a b : expr)                   (* a % b *)
| EExcept (a b : expr)                 (* a - b *)
| EStar (a : expr)                     (* *a *)
| EPlus (a : expr)                     (* +a *)
| EOpt (a : expr)                      (* -a *)
| ENot (a : expr)                      (* !a *)
| ERep (lo hi : nat) (a : expr)        (* repeat<lo, hi>(a) *)
| EDiscard (a : expr)                  (* discard(a) *)
| ELexeme (a : expr)                   (* lexeme(a) *)
| EBind (a : expr)                     (* bind_dst(a) *)
| ESkip (a s : expr)                   (* apply_skipper(a, s) *)
| EAct (act : action) (a : expr)       (* a[act] *)
| EAs (args : list ty) (a : expr).     (* a.as<args..>() *)

(** The value of an expression. *)
Inductive thing : Type :=
| ThPat (p : pat)
| ThChar (t : char_ty) (c : Z)
| ThStr (mem : list Z)
| ThSet (s : charset).

(** is_pattern, patterns/traits.h:25-28, pattern.h:39-41; everything else here converts
    (char_literal.h:31-43, string_literal.h:42-56, character.h:59-65). *)
Definition is_pat (x : thing) : bool := match x with ThPat _ => true | _ => false end.

(** make_pattern: pattern.h:43; char_literal.h:20-24, 35, 42; string_literal.h:27-31 (an empty
    string fails the assertion; the string ends at the terminator), 46, 53-55; character.h:64. *)
Definition make_pattern (x : thing) : option pat :=
  match x with
  | ThPat p => Some p
  | ThChar t c => Some (Discard (Char (CSingle t c)))
  | ThStr mem => match c_string mem with [] => None | s => Some (Lit s) end
  | ThSet s => Some (Char s)
  end.

(** are_valid_binary_operands (traits.h:44-49), then make_pattern of both: sequence.h:46-53,
    alternative.h:46-53, list.h:34-45, except.h:35-47. *)
Definition binary (f : pat -> pat -> pat) (x y : thing) : option thing :=
  if is_pat x || is_pat y then
    match make_pattern x, make_pattern y with
    | Some p, Some q => Some (ThPat (f p q))
    | _, _ => None
    end
  else None.

(** Operators that need a pattern (is_valid_unary_operand, traits.h:38-40) and members. *)
Definition unary (f : pat -> pat) (x : thing) : option thing :=
  match x with ThPat p => Some (ThPat (f p)) | _ => None end.
(** Functions that call make_pattern. *)
Definition wrapped (f : pat -> pat) (x : thing) : option thing :=
  match make_pattern x with Some p => Some (ThPat (f p)) | None => None end.

Definition is_set (x : thing) : bool := match x with ThSet _ => true | _ => false end.

Definition opt_bind {A B} (x : option A) (f : A -> option B) : option B :=
  match x with Some a => f a | None => None end.

(** [None]: it does not compile, or an assertion fails. *)
Fixpoint value (e : expr) : option thing :=
  match e with
  | EPat p => Some (ThPat p)
  | EChar w c => Some (ThChar (if w then ct_char32 else ct_char) c)
  | EStr mem => Some (ThStr mem)
  | ESet s => Some (ThSet s)
  | ESeq a b => opt_bind (value a) (fun x => opt_bind (value b) (binary op_seq x))
  | EAlt a b =>
    (* with a set it is char_set::operator| (char_set/or.h:46-51), which gives a set (written
       here as ESet (COr ..)); with a set and a pattern it is ambiguous *)
    opt_bind (value a) (fun x => opt_bind (value b) (fun y => if is_set x || is_set y then None else binary op_alt x y))
  | EList a b => opt_bind (value a) (fun x => opt_bind (value b) (binary PList x))
  | EExcept a b => opt_bind (value a) (fun x => opt_bind (value b) (binary Except x))
  | EStar a => opt_bind (value a) (unary (Repeat 0 0))               (* repeat.h:38-42 *)
  | EPlus a => opt_bind (value a) (unary (Repeat 1 0))               (* repeat.h:45-49 *)
  | EOpt a => opt_bind (value a) (unary Opt)                         (* optional.h:32-36 *)
  | ENot a => opt_bind (value a) (unary Not)                         (* not.h:30-35 *)
  | ERep lo hi a => opt_bind (value a) (wrapped (Repeat lo hi))      (* repeat.h:31-35 *)
  | EDiscard a => opt_bind (value a) (wrapped Discard)               (* discard.h:28-31 *)
  | ELexeme a => opt_bind (value a) (wrapped Lexeme)                 (* lexeme.h:28-31 *)
  | EBind a => opt_bind (value a) (wrapped BindDst)                  (* bind_dst.h:28-31 *)
  | ESkip a s =>                                                     (* with_skipper.h:35-39: no conversion *)
    opt_bind (value a) (fun x => opt_bind (value s) (fun y =>
      match x, y with ThPat p, ThPat q => Some (ThPat (WithSkipper p q)) | _, _ => None end))
  | EAct act a => opt_bind (value a) (unary (Act act))               (* pattern.h:28-31 *)
  | EAs args a => opt_bind (value a) (unary (Construct args))        (* pattern.h:33-36 *)
  end.

(** The pattern parse() or a parser is given. *)
Definition pattern_of (e : expr) : option pat :=
  match value e with Some (ThPat p) => Some p | _ => None end.
