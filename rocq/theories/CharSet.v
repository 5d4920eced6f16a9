(** Character sets (char_set/*.h) and digit tables (parsers/helpers/digit_values.h).

    Tokens are integers: the value of the C++ character.  A character type is
    given by its signedness and width. *)
From Coq Require Import List ZArith Bool.
From Verif Require Import Base.
Import ListNotations.
Local Open Scope Z_scope.

(** The C++ integral conversion to a type with [bits] bits (modular, as every
    mainstream compiler does and C++20 requires). *)
Definition wrap (signed : bool) (bits : Z) (z : Z) : Z :=
  if signed then ((z + 2 ^ (bits - 1)) mod 2 ^ bits) - 2 ^ (bits - 1)
  else z mod 2 ^ bits.

(** The smallest and the largest value of such a type. *)
Definition ty_min (signed : bool) (bits : Z) : Z := if signed then - 2 ^ (bits - 1) else 0.
Definition ty_max (signed : bool) (bits : Z) : Z :=
  if signed then 2 ^ (bits - 1) - 1 else 2 ^ bits - 1.
Definition in_range (signed : bool) (bits : Z) (z : Z) : bool :=
  (ty_min signed bits <=? z) && (z <=? ty_max signed bits).

(** The [char_t] of a set: signedness and width. *)
Record char_ty := CharTy { ct_signed : bool; ct_bits : Z }.

Definition to_char (t : char_ty) (z : Z) : Z := wrap (ct_signed t) (ct_bits t) z.

(** char: signed, 8 bits (x86-64 ABI). *)
Definition ct_char : char_ty := CharTy true 8.
(** char32_t: unsigned, 32 bits. *)
Definition ct_char32 : char_ty := CharTy false 32.

Inductive charset : Type :=
| CAny (t : char_ty)                        (* char_set/any.h:18-23 *)
| CSingle (t : char_ty) (c : Z)             (* char_set/single.h:18-31 *)
| CRange (t : char_ty) (b e : Z)            (* char_set/range.h:19-32 *)
| CSet (t : char_ty) (l : list Z)           (* char_set/set.h:41-65, IndexedSet *)
| CDelegated (t : char_ty) (f : Z -> bool)  (* char_set/delegated.h:22-32; the callback is any function,
                                               deterministic as the comment on line 21 demands *)
| CNot (s : charset)                        (* char_set/not.h:21-33 *)
| COr (l r : charset).                      (* char_set/or.h:19-36 *)

(** [char_t] of each set: any.h:20, single.h:20, range.h:21, set.h:43,
    delegated.h:24, not.h:23, or.h:21. *)
Fixpoint set_char_t (s : charset) : char_ty :=
  match s with
  | CAny t | CSingle t _ | CRange t _ _ | CSet t _ | CDelegated t _ => t
  | CNot s => set_char_t s
  | COr l _ => set_char_t l
  end.

(** The index of a character in the bitset of an IndexedSet: set.h:55-57. *)
Definition as_index (t : char_ty) (c : Z) : Z := wrap false (ct_bits t) c.

(** [is_valid]: any.h:22, single.h:24-27, range.h:25-27, set.h:52, delegated.h:28,
    not.h:27, or.h:25-27.  All but Single take a [char_t const&], so that the token is
    first converted to [char_t].  The bitset built by set.h:46-50 is represented by
    the list of characters it was built from.
    Simplified: Single compares integers; C++ compares after the usual arithmetic
    conversions, the same thing when token and character have the same type. *)
Fixpoint is_valid (s : charset) (z : Z) : bool :=
  match s with
  | CAny _ => true
  | CSingle _ c => z =? c
  | CRange t b e => let c := to_char t z in (b <=? c) && (c <=? e)
  | CSet t l => let c := to_char t z in
      existsb (fun x => as_index t x =? as_index t c) l
  | CDelegated t f => f (to_char t z)
  | CNot a => negb (is_valid a (to_char (set_char_t a) z))
  | COr a b => let c := to_char (set_char_t a) z in is_valid a c || is_valid b c
  end.

(** strlen, for char_set::set(const char* ): set.h:74 — the bytes in front of the
    terminator; the argument is the memory the pointer points to. *)
Fixpoint c_string (mem : list Z) : list Z :=
  match mem with
  | [] => []
  | c :: t => if c =? 0 then [] else c :: c_string t
  end.

(** char_set::set(const char* ): set.h:74. *)
Definition set_of_cstr (mem : list Z) : charset := CSet ct_char (c_string mem).

(** Digit tables.  [DigitValues<BASE>::is_valid]: digit_values.h:28 (BASE <= 10) and
    38-41.  The parameter is a [char]: wider tokens are converted first. *)
Definition digit_valid (base : Z) (z : Z) : bool :=
  let c := to_char ct_char z in
  if base <=? 10 then (48 <=? c) && (c <=? 48 + base - 1)
  else ((48 <=? c) && (c <=? 57)) || ((97 <=? c) && (c <=? 97 + base - 11))
       || ((65 <=? c) && (c <=? 65 + base - 11)).

(** [DigitValues<BASE>::value]: digit_values.h:29 and 43-54. *)
Definition digit_value (base : Z) (z : Z) : Z :=
  let c := to_char ct_char z in
  if base <=? 10 then c - 48
  else if (48 <=? c) && (c <=? 57) then c - 48
  else if (97 <=? c) && (c <=? 122) then 10 + c - 97
  else if (65 <=? c) && (c <=? 90) then 10 + c - 65
  else 0.
