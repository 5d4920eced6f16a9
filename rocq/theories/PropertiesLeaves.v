(** C22-C29: what the leaves read and store.  [does], [stored]: SpecValue.v. *)
From Coq Require Import String List ZArith Bool Arith.
From Verif Require Import Base CharSet Source Dst Pattern Parser Session.
From Verif Require Import SpecPeg SpecRun SpecValue SpecLeaf Leaf PegSound LeafThms Demo.
Import ListNotations.
Local Open Scope string_scope.
Local Open Scope list_scope.

Ltac cases := repeat match goal with |- _ /\ _ => apply conj end.
Ltac calc := vm_compute; reflexivity.
Ltac chars := unfold tok; repeat (constructor; [calc|]); constructor.
(** parse() does this. *)
Ltac perform := exists 99; eexists; cases; calc.

(** ** C22 *)

(** Partial: tokens of type char.  [lower], [upper]: the digits in order. *)
Theorem C22_digits_have_their_rank_partial :
  forall env b sg w v z rest r s v' k, (2 <= b <= 35)%Z -> (1 <= w)%Z -> (34 <= ty_max sg w)%Z ->
  Forall (tok ct_char) (z :: rest) ->
  does env (UInt b 1 1) (TNum sg w) v (z :: rest) r s v' k <->
  k = [] /\
  ((r = SUCCESS /\ s = rest /\ exists x, (nth_error lower x = Some z \/ nth_error upper x = Some z) /\
      (Z.of_nat x < b)%Z /\ v' = VNum (Z.of_nat x)) \/
   (r = FAILURE /\ s = z :: rest /\ v' = VNum 0 /\
      forall x, nth_error lower x = Some z \/ nth_error upper x = Some z -> (b <= Z.of_nat x)%Z)).
Proof. exact one_digit. Qed.
Print Assumptions C22_digits_have_their_rank_partial.

Example C22_example :
  lower = txt "0123456789abcdefghijklmnopqrstuvwxyz" /\ upper = txt "0123456789ABCDEFGHIJKLMNOPQRSTUVWXYZ"
  /\ (34 <= ty_max true 8)%Z /\ Forall (tok ct_char) (txt "Fg")
  /\ does noenv (UInt 16 1 1) (TNum true 8) (VNum 0) (txt "Fg") SUCCESS (txt "g") (VNum 15) []
  /\ does noenv (UInt 16 1 1) (TNum true 8) (VNum 0) (txt "gF") FAILURE (txt "gF") (VNum 0) [].
Proof. cases; [calc|calc|intro; discriminate|chars|perform|perform]. Qed.

(** A char32_t 304 is taken for '0' (304 = 256 + 48): the table takes a char. *)
Theorem C22_refuted :
  exists z, tok ct_char32 z /\ ~ In z (lower ++ upper) /\
  does noenv (UInt 10 1 1) int32 (VNum 0) [z] SUCCESS [] (VNum 0) [].
Proof.
  exists 304%Z. cases; [calc| |perform].
  intros H. assert (existsb (Z.eqb 304) (lower ++ upper) = true) as E by (apply existsb_exists; exists 304%Z; auto).
  vm_compute in E. discriminate.
Qed.
Print Assumptions C22_refuted.

(** ** C23 *)

(** Partial: the maximum is not below the minimum; tokens of type char.  [taken b hi inp]
    digits are read (all there are, [hi] at most); [value] is their positional value.
    [safe] concerns signed destinations only: no overflow. *)
Theorem C23_uint_is_the_number_written_partial :
  forall env b lo hi sg w, (2 <= b <= 35)%Z -> (hi <= 0 \/ lo <= hi)%Z -> (1 <= w)%Z ->
  forall v inp r s v' k, Forall (tok ct_char) inp ->
  let n := taken b hi inp in
  let X := value b (firstn n inp) in
  does env (UInt b lo hi) (TNum sg w) v inp r s v' k <->
  safe sg w X /\ r = (if (lo <=? Z.of_nat n)%Z then SUCCESS else FAILURE) /\ s = skipn n inp /\
  v' = VNum (wrap sg w X) /\ k = [].
Proof. exact does_uint. Qed.
Print Assumptions C23_uint_is_the_number_written_partial.

Example C23_example :
  taken 16 3 (txt "1aFFz") = 3 /\ value 16 (txt "1aF") = 431%Z /\ wrap false 8 431 = 175%Z /\ safe false 8 431
  /\ does noenv (UInt 16 2 3) uint8 VUndef (txt "1aFFz") SUCCESS (txt "Fz") (VNum 175) []
  /\ does noenv (UInt 10 3 0) (TNum false 16) VUndef (txt "12,") FAILURE (txt ",") (VNum 12) [].
Proof. cases; [calc|calc|calc|discriminate|perform|perform]. Qed.

(** UInt<10,2,1> is content with one digit. *)
Theorem C23_minimum_refuted :
  exists b lo hi inp s v', (Z.of_nat (digits b inp) < lo)%Z /\
  does noenv (UInt b lo hi) uint8 VUndef inp SUCCESS s v' [].
Proof. exists 10%Z, 2%Z, 1%Z, (txt "7,"), (txt ","), (VNum 7). split; [calc|perform]. Qed.
Print Assumptions C23_minimum_refuted.

(** ** C24 *)

(** Partial as C23, and (see [safe]) signed destinations of 32 bits and more: the digits must
    not exceed the largest value of the type, whatever the sign. *)
Theorem C24_int_is_the_number_written_partial :
  forall env b lo hi sg w, (2 <= b <= 35)%Z -> (hi <= 0 \/ lo <= hi)%Z -> (1 <= w)%Z ->
  forall v inp r s v' k, Forall (tok ct_char) inp ->
  let ds := unsigned inp in
  let n := taken b hi ds in
  let X := value b (firstn n ds) in
  does env (Int b lo hi) (TNum sg w) v inp r s v' k <->
  safe sg w X /\ r = (if (lo <=? Z.of_nat n)%Z then SUCCESS else FAILURE) /\ s = skipn n ds /\
  v' = VNum (wrap sg w (if negative inp then - X else X)) /\ k = [].
Proof. exact does_int. Qed.
Print Assumptions C24_int_is_the_number_written_partial.

Example C24_example :
  unsigned (txt "-2147483647x") = txt "2147483647x" /\ negative (txt "-2147483647x") = true
  /\ safe true 32 (value 10 (txt "2147483647"))
  /\ does noenv int_ int32 VUndef (txt "-2147483647x") SUCCESS (txt "x") (VNum (-2147483647)) []
  /\ does noenv (Int 16 1 2) char8 VUndef (txt "+7fF") SUCCESS (txt "F") (VNum 127) []
  /\ does noenv (Int 10 1 0) char8 VUndef (txt "-128") SUCCESS [] (VNum (-128)) []
  /\ does noenv int_ int32 VUndef (txt "-x") FAILURE (txt "x") (VNum 0) [].
Proof. cases; [calc|calc|intros _; calc || (intro; discriminate)|perform|perform|perform|perform]. Qed.

(** The smallest int: 2147483648 does not fit before it is negated. *)
Theorem C24_refuted :
  exists z, in_range true 32 z = true /\ parse noenv 99 int32 VUndef int_ (dec z) = Err (EUb UbOverflow).
Proof. exists (-2147483648)%Z. split; calc. Qed.
Print Assumptions C24_refuted.

(** ** C25 *)

(** Partial: all values of all integral types but the smallest one of the signed types of
    32 bits and more. *)
Theorem C25_rendering_then_parsing_partial :
  forall env sg w z, (1 <= w)%Z -> in_range sg w z = true ->
  (wide sg w = true -> z <> ty_min sg w) ->
  forall v rest, Forall (tok ct_char) rest -> no_digit 10 rest ->
  does env (Int 10 1 0) (TNum sg w) v (dec z ++ rest) SUCCESS rest (VNum z) [].
Proof. exact int_roundtrip. Qed.
Print Assumptions C25_rendering_then_parsing_partial.

Example C25_example :
  dec (-1205) = txt "-1205" /\ dec 0 = txt "0" /\ in_range true 32 (-1205) = true /\ (-1205)%Z <> ty_min true 32
  /\ no_digit 10 (txt ", 7") /\ in_range true 8 (-128) = true /\ wide true 8 = false.
Proof. cases; try calc. intro H. vm_compute in H. discriminate. Qed.

Theorem C25_refuted :
  exists z, in_range true 32 z = true /\ dec z = txt "-2147483648" /\
  parse noenv 99 int32 VUndef int_ (dec z) = Err (EUb UbOverflow).
Proof. exists (-2147483648)%Z. cases; calc. Qed.
Print Assumptions C25_refuted.

(** ** C26 *)

(** Partial: no key is the empty string.  (The keys of a std::map are distinct.) *)
Theorem C26_longest_key_partial :
  forall env e t v inp s v' k, NoDup (map fst e) -> keys_ok e ->
  does env (Symbol e) t v inp SUCCESS s v' k <->
  k = [] /\ exists key x, inp = key ++ s /\ In (key, x) e /\ stored t v x v' /\
    forall key' x' s', inp = key' ++ s' -> In (key', x') e -> length key' <= length key.
Proof. exact does_symbol. Qed.
Print Assumptions C26_longest_key_partial.

Theorem C26_no_key_partial :
  forall env e t v inp, keys_ok e ->
  (forall key x s, inp = key ++ s -> ~ In (key, x) e) <->
  exists s v' k, does env (Symbol e) t v inp FAILURE s v' k.
Proof. exact does_symbol_no. Qed.
Print Assumptions C26_no_key_partial.

Theorem C26_failing_stores_nothing_partial :
  forall env e t v inp s v' k, keys_ok e -> does env (Symbol e) t v inp FAILURE s v' k -> v' = v /\ k = [].
Proof. exact does_symbol_keeps. Qed.
Print Assumptions C26_failing_stores_nothing_partial.

Definition C26_e : list (list Z * val) :=
  [(txt "jan", VNum 1); (txt "january", VNum 10); (txt "ja", VNum 2); (txt "feb", VNum 3)].
Example C26_example :
  NoDup (map fst C26_e) /\ keys_ok C26_e
  /\ does noenv (Symbol C26_e) int32 VUndef (txt "januarx") SUCCESS (txt "uarx") (VNum 1) []
  /\ does noenv (Symbol C26_e) int32 (VNum 5) (txt "fea") FAILURE (txt "a") (VNum 5) [].
Proof.
  cases; [| |perform|perform].
  - repeat constructor; cbn; intuition discriminate.
  - repeat constructor; discriminate.
Qed.

Theorem C26_refuted :
  exists e inp s, NoDup (map fst e) /\ In ([], VNum 1) e /\ does noenv (Symbol e) int32 VUndef inp FAILURE s VUndef [].
Proof.
  exists [([], VNum 1)], (txt "x"), (txt "x"). cases; [|now left|perform].
  repeat constructor; cbn; tauto.
Qed.
Print Assumptions C26_refuted.

(** ** C27 *)

(** Partial: which characters match and what is stored; but see below. *)
Theorem C27_character_symbols_partial :
  forall env m t v inp r s v' k,
  does env (CharSymbol m) t v inp r s v' k <->
  s = inp /\ k = [] /\
  ((r = SUCCESS /\ exists z rest x, inp = z :: rest /\ assoc z m = Some x /\ stored t v x v') \/
   (r = FAILURE /\ v' = v /\ forall z rest, inp = z :: rest -> assoc z m = None)).
Proof. exact does_charsymbol. Qed.
Print Assumptions C27_character_symbols_partial.

Example C27_example :
  does noenv (CharSymbol [(97%Z, VNum 7)]) int32 (VNum 0) (txt "ab") SUCCESS (txt "ab") (VNum 7) []
  /\ does noenv (CharSymbol [(97%Z, VNum 7)]) int32 (VNum 0) (txt "ba") FAILURE (txt "ba") (VNum 0) [].
Proof. cases; perform. Qed.

(** The character is never consumed: symbol({{'a', 7}}) >> lit('b') does not match "ab". *)
Theorem C27_refuted :
  exists m inp rest x, inp = 97%Z :: rest /\ assoc 97%Z m = Some (VNum x) /\
  does noenv (CharSymbol m) int32 (VNum 0) inp SUCCESS inp (VNum x) [] /\
  does noenv (Seq [CharSymbol m; lc "b"]) int32 (VNum 0) inp FAILURE inp (VNum x) [].
Proof. exists [(97%Z, VNum 7)], (txt "ab"), (txt "b"), 7%Z. cases; [calc|calc|perform|perform]. Qed.
Print Assumptions C27_refuted.

(** ** C28 *)

Theorem C28_literals :
  forall env l t v inp r s v' k,
  does env (Lit l) t v inp r s v' k <->
  v' = v /\ k = [] /\
  ((r = SUCCESS /\ inp = l ++ s) \/
   (r = FAILURE /\ exists a x b, l = a ++ x :: b /\ inp = a ++ s /\ forall y rest, s = y :: rest -> y <> x)).
Proof. exact does_lit. Qed.
Print Assumptions C28_literals.

Example C28_example :
  does noenv (Lit (txt "let")) int32 (VNum 5) (txt "let x") SUCCESS (txt " x") (VNum 5) []
  /\ does noenv (Lit (txt "let")) int32 (VNum 5) (txt "lex") FAILURE (txt "x") (VNum 5) []
  /\ does noenv (Lit (txt "let")) int32 (VNum 5) (txt "le") FAILURE [] (VNum 5) [].
Proof. cases; perform. Qed.

(** ** C29 *)

(** [cs_fits T cs]: a set expression over characters of type [T]. *)
Theorem C29_character_sets :
  forall env T cs t v inp r s v' k, ct_ok T -> cs_fits T cs = true -> Forall (tok T) inp ->
  does env (Char cs) t v inp r s v' k <->
  k = [] /\
  ((r = SUCCESS /\ exists z, inp = z :: s /\ in_set cs z /\ stored t v (VNum z) v') \/
   (r = FAILURE /\ s = inp /\ v' = v /\ forall z rest, inp = z :: rest -> ~ in_set cs z)).
Proof. exact does_char. Qed.
Print Assumptions C29_character_sets.

(** char_("..."): the characters in front of the terminator, whatever is behind it. *)
Theorem C29_set_of_string :
  forall l mem z, ~ In 0%Z l -> (in_set (set_of_cstr (l ++ 0%Z :: mem)) z <-> In z l).
Proof. exact in_cstr. Qed.
Print Assumptions C29_set_of_string.

(** ~(char_('a','f') | char_("\xff\n")), on negative characters too. *)
Definition C29_cs : charset := CNot (COr (CRange ct_char 97 102) (set_of_cstr [-1; 10; 0]%Z)).
Example C29_example :
  ct_ok ct_char /\ cs_fits ct_char C29_cs = true /\ Forall (tok ct_char) [-1; -2; 0]%Z
  /\ does noenv (Char C29_cs) char8 VUndef [-2; 97]%Z SUCCESS [97]%Z (VNum (-2)) []
  /\ does noenv (Char C29_cs) char8 VUndef [-1; 97]%Z FAILURE [-1; 97]%Z VUndef []
  /\ does noenv (Char C29_cs) char8 VUndef [0]%Z SUCCESS [] (VNum 0) [].
Proof. cases; [intro; discriminate|calc|chars|perform|perform|perform]. Qed.
