(** Patterns (the files below patterns) and their static traits (ParserFactory in the files
    below parsers/coroutine). *)
From Coq Require Import List ZArith Bool Arith.
From Verif Require Import Base CharSet Dst.
Import ListNotations.

(** patterns/leaf/string_symbol.h:25-28  struct Node. *)
Inductive trie : Type := Node (v : option val) (child : list (Z * trie)).

Definition trie_val (n : trie) : option val := match n with Node v _ => v end.
Definition trie_child (n : trie) : list (Z * trie) := match n with Node _ c => c end.

(** std::map::find on the children. *)
Fixpoint assoc {A} (k : Z) (l : list (Z * A)) : option A :=
  match l with
  | [] => None
  | (k', a) :: t => if Z.eqb k k' then Some a else assoc k t
  end.

(** std::map::operator[] assignment: replace or insert (order is irrelevant). *)
Fixpoint assoc_set {A} (k : Z) (a : A) (l : list (Z * A)) : list (Z * A) :=
  match l with
  | [] => [(k, a)]
  | (k', a') :: t => if Z.eqb k k' then (k, a) :: t else (k', a') :: assoc_set k a t
  end.

(** One round of the loop at string_symbol.h:37-49: walk down creating nodes and set
    the value.  (Line 44-46 throws when the key was already there, which a std::map
    cannot produce; the model overwrites.) *)
Fixpoint trie_insert (k : list Z) (v : val) (n : trie) : trie :=
  match k with
  | [] => Node (Some v) (trie_child n)
  | c :: k' =>
    let sub := match assoc c (trie_child n) with Some t => t | None => Node None [] end in
    Node (trie_val n) (assoc_set c (trie_insert k' v sub) (trie_child n))
  end.

(** Symbol's constructor, string_symbol.h:35-50. *)
Definition trie_build (entries : list (list Z * val)) : trie :=
  fold_left (fun n e => trie_insert (fst e) (snd e) n) entries (Node None []).

(** An action callback and the static facts act_dispatch (unary/action.h:103-144) reads
    off its type.  [ac_land] is the landing type (lines 78-101), [TNil] when the callback
    takes no value; [ac_param] is has_incoming_param (36-40); [ac_void] returns_void
    (73-76).  [ac_fun landing bound] yields the returned value and the new content of the
    bound destination: the callback can do anything to what [p.bound_dst] points to. *)
Record action := Action_ {
  ac_id : nat; ac_land : ty; ac_param : bool; ac_void : bool;
  ac_fun : val -> val -> val * val }.

Inductive pat : Type :=
| Char (s : charset)                      (* patterns/leaf/character.h *)
| CharSymbol (m : list (Z * val))         (* patterns/leaf/char_symbol.h *)
| Eoi | Pass | Fail                       (* patterns/leaf/{eoi,pass,fail}.h *)
| Lit (s : list Z)                        (* patterns/leaf/string_literal.h *)
| Symbol (m : list (list Z * val))        (* patterns/leaf/string_symbol.h *)
| UInt (base dmin dmax : Z)               (* patterns/leaf/numeric/uint.h *)
| Int (base dmin dmax : Z)                (* patterns/leaf/numeric/int.h *)
| Seq (l : list pat)                      (* patterns/nary/sequence.h *)
| Alt (l : list pat)                      (* patterns/nary/alternative.h *)
| Repeat (rmin rmax : nat) (p : pat)      (* patterns/unary/repeat.h; rmax = 0: no maximum *)
| Not (p : pat)                           (* patterns/unary/not.h *)
| Opt (p : pat)                           (* patterns/unary/optional.h *)
| Discard (p : pat)                       (* patterns/unary/discard.h *)
| Lexeme (p : pat)                        (* patterns/unary/lexeme.h *)
| WithSkipper (p s : pat)                 (* patterns/with_skipper.h *)
| BindDst (p : pat)                       (* patterns/unary/bind_dst.h *)
| Construct (args : list ty) (p : pat)    (* patterns/unary/construct.h *)
| Act (a : action) (p : pat)              (* patterns/unary/action.h *)
| Except (p neg : pat)                    (* patterns/binary/except.h *)
| PList (p sep : pat)                     (* patterns/binary/list.h *)
| Recur (id : nat) (attr_nil : bool).     (* patterns/recur.h: the id-th definition of the
                                             environment; attr_nil: ATTR_T is Nil *)

(** Is the skipper type exactly [Fail]?  parser_factory.h:85, context.h:35. *)
Definition is_fail (p : pat) : bool := match p with Fail => true | _ => false end.

(** [ParserFactory<PAT>::ATOMIC]: character.h:47, char_symbol.h:64, eoi.h:44, pass.h:40,
    fail.h:38, string_literal.h:58, string_symbol.h:91, uint.h:69, int.h:94,
    sequence.h:177, alternative.h:118, repeat.h:93, not.h:80, optional.h:76, discard.h:45,
    lexeme.h:50, with_skipper.h:49, bind_dst.h:57, construct.h:58, action.h:202,
    except.h:79, list.h:107, recur.h:61. *)
Fixpoint f_atomic (p : pat) : bool :=
  match p with
  | UInt _ _ _ | Int _ _ _ | Seq _ | Repeat _ _ _ | BindDst _ | PList _ _ | Recur _ _ => false
  | WithSkipper q _ => f_atomic q
  | _ => true
  end.

(** [ParserFactory<PAT>::FAILS_CLEANLY]: the line after each of the above
    (uint.h:70 and int.h:95: DIGITS_MAX == 1). *)
Fixpoint f_clean (p : pat) : bool :=
  match p with
  | Lit _ | Symbol _ | Seq _ | Repeat _ _ _ | Except _ _ | Recur _ _ => false
  | UInt _ _ m | Int _ _ m => Z.eqb m 1
  | WithSkipper q _ => f_clean q
  | _ => true
  end.

(** [ParserFactory<PAT>::dst_behavior() == DstBehavior::IGNORE]: character.h:44,
    char_symbol.h:61, eoi.h:41, pass.h:37, fail.h:35, string_literal.h:53,
    string_symbol.h:88, uint.h:65, int.h:90, sequence.h:174, alternative.h:115,
    repeat.h:88-90, not.h:77, optional.h:71-73, discard.h:42, with_skipper.h:44-46,
    bind_dst.h:48-54, construct.h:55, action.h:196-199, except.h:74-76, list.h:102-104,
    recur.h:52-58.
    lexeme.h:45-47 is ill-formed (ParserFactory<..>::CHILD_PAT_T does not exist), so a
    Lexeme cannot be a direct part of a sequence; the model gives it what was evidently
    meant, the behaviour of the child. *)
Fixpoint ignores (p : pat) : bool :=
  match p with
  | Eoi | Pass | Fail | Lit _ | Not _ | Discard _ => true
  | Repeat _ _ q | Opt q | WithSkipper q _ | BindDst q | Except q _ | PList q _ | Lexeme q => ignores q
  | Act a _ => ac_void a
  | Recur _ n => n
  | _ => false
  end.

(** lit(char) is discard(char_(c)): patterns/leaf/char_literal.h:20-24. *)
Definition lit_c (c : Z) : pat := Discard (Char (CSingle ct_char c)).

(** detail::NaryPatternBuilder, patterns/nary/nary_pattern.h:28-74, for operator>>
    (patterns/nary/sequence.h:46-53) ... *)
Definition op_seq (l r : pat) : pat :=
  match l, r with
  | Seq a, Seq b => Seq (a ++ b)     (* 66-74 *)
  | Seq a, _ => Seq (a ++ [r])       (* 40-49 *)
  | _, Seq b => Seq (l :: b)         (* 53-62 *)
  | _, _ => Seq [l; r]               (* 28-36 *)
  end.
(** ... and for operator| (patterns/nary/alternative.h:46-53). *)
Definition op_alt (l r : pat) : pat :=
  match l, r with
  | Alt a, Alt b => Alt (a ++ b)
  | Alt a, _ => Alt (a ++ [r])
  | _, Alt b => Alt (l :: b)
  | _, _ => Alt [l; r]
  end.

(** choose_tuple_index<PAT_ID>, nary/sequence.h:32-43.  C++ starts at -1 and adds one for
    each part up to PAT_ID that does not ignore its destination; the model returns that
    number plus one (0 stands for -1). *)
Fixpoint tuple_index1 (l : list pat) (i : nat) : nat :=
  match l with
  | [] => 0
  | p :: t =>
    let here := if ignores p then 0 else 1 in
    match i with
    | O => here
    | S j => here + tuple_index1 t j
    end
  end.

(** choose_dst_accessor<PAT_ID>::access, nary/sequence.h:45-65. *)
Definition seq_dst (l : list pat) (i : nat) (d : dst) : outcome dst :=
  match d with
  | DNil => Done DNil
  | DRef lv path t =>
    match nth_error l i with
    | None => Err EShape
    | Some p =>
      if ignores p then Done DNil
      else match t with
           | TTuple ts =>
             let k := tuple_index1 l i - 1 in
             match nth_error ts k with
             | None => Err EType             (* std::get out of range *)
             | Some TNil => Done DNil
             | Some t' => Done (DRef lv (path ++ [k]) t')
             end
           | _ => Done d
           end
    end
  end.
