(** The project's own tests (tests/ in the repository), transcribed and run on the model.
    These are tests of the model, not proofs of properties.  Left out: who owns a buffer
    handed over as a pointer (test_container_sequence.cpp:25-50), a delegated character set
    whose lambda looks at a variable that changes (test_delegated.cpp:45-60), static
    assertions, and what is commented out. *)
From Coq Require Import List ZArith Bool Arith String.
From Verif Require Import Base CharSet Source Dst Pattern Parser Session SpecSession Demo.
Import ListNotations.
Local Open Scope string_scope.
Local Open Scope list_scope.

(** ** tests/test_utils.h *)

Definition fuel := 400.

(** One character at a time, then an empty final buffer. *)
Definition drip (s : list Z) : list call := flat_map (fun c => [Feed [c] false; Consume]) s.
Definition drip_all (s : list Z) : list call := drip s ++ [Feed [] true; Consume].

(** A definition for Recur 99 on top of the others: ABU_Recur_define(as_recur, ...). *)
Definition with_def (env : nat -> option pat) (p : pat) : nat -> option pat :=
  fun id => if Nat.eqb id 99 then Some p else env id.

Definition seen_by_parse env t v p inp : outcome (result * list val) :=
  match parse env fuel t v p inp with Done (r, w) => Done (r, w_cells w) | Err e => Err e end.
Definition seen_in_session env t v p l : outcome (option result * list val) :=
  match run_session env fuel t v p l with Done s => Done (s_res s, w_cells (s_world s)) | Err e => Err e end.

(** testPatternSuccess(data, pat, expected), lines 10-80. *)
Definition test_success (env : nat -> option pat) (data : string) (p : pat) (t : ty) (expected : val) : Prop :=
  seen_by_parse env TNil VNil p (txt data) = Done (SUCCESS, [VNil]) /\
  seen_by_parse env t (value_init t) p (txt data) = Done (SUCCESS, [expected]) /\
  seen_by_parse (with_def env p) t (value_init t) (Recur 99 true) (txt data) = Done (SUCCESS, [expected]) /\
  seen_in_session env TNil VNil p (drip_all (txt data)) = Done (Some SUCCESS, [VNil]) /\
  seen_in_session env t (value_init t) p (drip_all (txt data)) = Done (Some SUCCESS, [expected]).

(** EXPECT_NE(status, SUCCESS) all along. *)
Definition no_success (o : outcome (session cseq)) : bool :=
  match o with
  | Done s => match s_res s with Some SUCCESS => false | _ => true end
  | Err _ => false
  end.
Definition fails (o : outcome (result * world sfwd)) : bool :=
  match o with Done (FAILURE, _) => true | _ => false end.
(** testPatternFailure<DST_T>(data, pat), lines 82-123. *)
Definition test_failure (env : nat -> option pat) (data : string) (p : pat) (t : ty) : Prop :=
  fails (parse env fuel TNil VNil p (txt data)) = true /\
  fails (parse env fuel t (default_init t) p (txt data)) = true /\
  no_success (run_session env fuel TNil VNil p (drip (txt data))) = true /\
  no_success (run_session env fuel t (value_init t) p (drip (txt data))) = true.

Ltac run := unfold test_success, test_failure; repeat match goal with |- _ /\ _ => split end; vm_compute; reflexivity.

Definition uint32 : ty := TNum false 32.
Definition vint : ty := TColl int32.
Definition str : ty := TColl char8.
Definition chars (s : string) : val := VColl (map VNum (txt s)).
Definition range (a b : string) : pat := Char (CRange ct_char (chr a) (chr b)).
Definition cstr (s : list Z) : pat := Char (set_of_cstr (s ++ [0%Z])).

(** ** tests/patterns/test_action.cpp *)

Definition traced (o : outcome (result * world sfwd)) : outcome (result * list event) :=
  match o with Done (r, w) => Done (r, rev (w_trace w)) | Err e => Err e end.

(** [[&]() { ++count; }]: called three times. *)
Definition act_count : action := Action_ 0 TNil false true (fun _ b => (VNil, b)).
Example simple_action :
  traced (parse noenv fuel TNil VNil (star (Act act_count (UInt 10 2 2))) (txt "123456")) =
  Done (SUCCESS, [Event 0 VNil; Event 0 VNil; Event 0 VNil]).
Proof. run. Qed.
(** [[&](int v) { count += v; }]: called with 12, 34, 56. *)
Definition act_take : action := Action_ 0 int32 false true (fun _ b => (VNil, b)).
Example consuming_action :
  traced (parse noenv fuel TNil VNil (star (Act act_take (UInt 10 2 2))) (txt "123456")) =
  Done (SUCCESS, [Event 0 (VNum 12); Event 0 (VNum 34); Event 0 (VNum 56)]).
Proof. run. Qed.
Definition act_square : action :=
  Action_ 0 int32 false false (fun x b => (match x with VNum v => VNum (v * v) | _ => VNil end, b)).
Example emitting_action :
  seen_by_parse noenv vint (VColl []) (star (Act act_square (UInt 10 2 2))) (txt "123456") =
  Done (SUCCESS, [ints [12 * 12; 34 * 34; 56 * 56]%Z]).
Proof. run. Qed.
Example nil_action_in_sequence :
  test_success noenv "1 2 3" (WithSkipper (op_seq (op_seq int_ (Act act_take int_)) int_) (lc " "))
    (TTuple [int32; int32]) (VTuple [VNum 1; VNum 3]).
Proof. run. Qed.

(** ** tests/patterns/test_except.cpp *)

Definition not_one : pat := Except uint_ (lc "1").
Example except_simple :
  test_success noenv "234" not_one uint32 (VNum 234) /\ test_failure noenv "1234" not_one int32 /\
  test_failure noenv "abc1234" not_one int32 /\ test_failure noenv "" not_one int32 /\ test_failure noenv "1" not_one int32.
Proof. run. Qed.
Example except_partial_match :
  test_success noenv "24562322" (star (Except (UInt 10 2 2) (Lit (txt "23")))) vint (ints [24; 56]%Z).
Proof. run. Qed.

(** ** tests/patterns/test_list.cpp *)

Example list_simple : test_success noenv "1,5,12,125" (PList uint_ (lc ",")) vint (ints [1; 5; 12; 125]%Z).
Proof. run. Qed.
Example list_long_separator : test_success noenv "a12b0c2354d" (PList (range "a" "z") uint_) str (chars "abcd").
Proof. run. Qed.
Example list_single_val : test_success noenv "12" (PList uint_ (lc ",")) vint (ints [12]%Z).
Proof. run. Qed.
Example list_of_lists :
  test_success noenv "12,13;14,15,16" (PList (PList uint_ (lc ",")) (lc ";")) (TColl vint)
    (VColl [ints [12; 13]; ints [14; 15; 16]]%Z).
Proof. run. Qed.
Example list_of_unstable_append :
  test_success noenv "11,234" (PList (Repeat 2 3 (UInt 10 1 1)) (lc ",")) (TColl vint)
    (VColl [ints [1; 1]; ints [2; 3; 4]]%Z).
Proof. run. Qed.

(** ** tests/patterns/test_bind_dst.cpp *)

Definition act_bump : action :=
  Action_ 0 char8 true true (fun _ b => (VNil, match b with VNum n => VNum (n + 1) | _ => b end)).
Example bind_dst_simple :
  test_success noenv "1010" (BindDst (star (Act act_bump any))) int32 (VNum 4) /\
  test_success noenv "24" (BindDst (star (Act act_bump any))) int32 (VNum 2).
Proof. run. Qed.

(** ** tests/patterns/test_alternative.cpp *)

Definition two_bases : pat := op_alt (UInt 2 4 4) (UInt 10 2 2).
Example alternative_simple :
  test_success noenv "1010" two_bases uint32 (VNum 10) /\ test_success noenv "24" two_bases uint32 (VNum 24) /\
  test_failure noenv "2" two_bases int32.
Proof. run. Qed.

(** ** tests/patterns/test_sequence.cpp *)

Example sequence_simple : test_success noenv "ab" (op_seq (Lit (txt "a")) (Lit (txt "b"))) TNil VNil.
Proof. run. Qed.
Example sequence_into_value :
  test_success noenv "-c-" (op_seq (op_seq (lc "-") any) (lc "-")) char8 (VNum (chr "c")).
Proof. run. Qed.
Example sequence_into_vector :
  test_success noenv "aaa-bb" (op_seq (op_seq (star (ch "a")) (lc "-")) (star (ch "b"))) str (chars "aaabb").
Proof. run. Qed.
Example sequence_with_except :
  test_success noenv "aaa9bb" (op_seq (op_seq (star (ch "a")) (Except any (Repeat 2 2 (lc "9")))) (star (ch "b")))
    str (chars "aaa9bb").
Proof. run. Qed.
Example sequence_into_tuple :
  test_success noenv "1-2-3" (op_seq (op_seq (op_seq (op_seq int_ (lc "-")) int_) (lc "-")) int_)
    (TTuple [int32; int32; int32]) (VTuple [VNum 1; VNum 2; VNum 3]).
Proof. run. Qed.

(** ** tests/patterns/test_pass_and_fail.cpp *)

Example pass_simple :
  test_success noenv "a" Pass TNil VNil /\ test_success noenv "hello" Pass TNil VNil /\ test_success noenv "" Pass TNil VNil.
Proof. run. Qed.
Example fail_simple :
  test_failure noenv "a" Fail TNil /\ test_failure noenv "hello" Fail TNil /\ test_failure noenv "" Fail TNil.
Proof. run. Qed.

(** ** tests/patterns/test_character.cpp *)

Example char_simple : test_success noenv "a" any char8 (VNum (chr "a")) /\ test_failure noenv "" any char8.
Proof. run. Qed.
Example char_specific :
  test_success noenv "+" (ch "+") char8 (VNum (chr "+")) /\ test_success noenv "+-" (ch "+") char8 (VNum (chr "+")) /\
  test_failure noenv "" (ch "+") char8 /\ test_failure noenv "a" (ch "+") char8.
Proof. run. Qed.
Example char_range :
  test_success noenv "0" (range "0" "9") char8 (VNum (chr "0")) /\ test_success noenv "9" (range "0" "9") char8 (VNum (chr "9")) /\
  test_success noenv "5" (range "0" "9") char8 (VNum (chr "5")) /\ test_failure noenv "a" (range "0" "9") char8 /\
  test_failure noenv "A" (range "0" "9") char8 /\ test_failure noenv "" (range "0" "9") char8.
Proof. run. Qed.
Definition spaces : pat := cstr [32; 13; 10; 9]%Z.
Definition nl : string := String (Ascii.ascii_of_nat 10) "".
Definition tab : string := String (Ascii.ascii_of_nat 9) "".
Example char_implicit_set :
  test_success noenv " " spaces char8 (VNum 32) /\ test_success noenv nl spaces char8 (VNum 10) /\
  test_success noenv (tab ++ "hh")%string spaces char8 (VNum 9) /\
  test_failure noenv "a" spaces char8 /\ test_failure noenv "l " spaces char8 /\ test_failure noenv "" spaces char8.
Proof. run. Qed.

(** ** tests/patterns/test_char_literal.cpp *)

Example char_literal :
  test_success noenv "a" (lc "a") TNil VNil /\ test_success noenv "ab" (lc "a") TNil VNil /\ test_failure noenv "b" (lc "a") TNil.
Proof. run. Qed.

(** ** tests/patterns/test_recur.cpp *)

Definition env1 (p : pat) : nat -> option pat := fun id => match id with 0 => Some p | _ => None end.
Example recur_simple : test_success (env1 (star any)) "abc" (Recur 0 false) str (chars "abc").
Proof. run. Qed.
Example recur_recur :
  test_success (env1 (op_seq (Int 10 2 2) (star (Recur 0 true)))) "123456" (Recur 0 true) TNil VNil.
Proof. run. Qed.
(** struct Node { char c; vector<Node> n; }. *)
Definition node (id : nat) (args : list val) : val := VUser id args.
Definition act_make (id : nat) (land : list ty) : action :=
  Action_ id (TTuple land) false false (fun x b => (match x with VTuple l => VUser id l | _ => VNil end, b)).
Example recur_node_generation :
  test_success
    (env1 (Act (act_make 0 [char8; TColl (TUser 0)]) (op_seq (op_seq (op_seq any (lc "(")) (star (Recur 0 false))) (lc ")"))))
    "a(b()c())" (Recur 0 false) (TUser 0)
    (node 0 [VNum (chr "a"); VColl [node 0 [VNum (chr "b"); VColl []]; node 0 [VNum (chr "c"); VColl []]]]).
Proof. run. Qed.
Definition sub_pat : pat :=
  Act (act_make 1 [int32; TColl (TUser 1)]) (op_seq (op_seq (op_seq uint_ (lc "(")) (star (Recur 1 false))) (lc ")")).
Definition main_pat : pat :=
  Act (act_make 0 [int32; TColl (TUser 0); TColl (TUser 1)])
    (op_seq (op_seq (op_seq (op_seq (op_seq (op_seq uint_ (lc "(")) (star (Recur 0 false))) (lc ")")) (lc "["))
       (star (Recur 1 false))) (lc "]")).
Example recur_multi :
  test_success (fun id => match id with 0 => Some main_pat | 1 => Some sub_pat | _ => None end)
    "1()[2()3(4())]" (Recur 0 false) (TUser 0)
    (node 0 [VNum 1; VColl []; VColl [node 1 [VNum 2; VColl []]; node 1 [VNum 3; VColl [node 1 [VNum 4; VColl []]]]]]).
Proof. run. Qed.
Example recur_delegate_to_template : test_success (env1 (Int 10 2 2)) "12" (Recur 0 true) int32 (VNum 12).
Proof. run. Qed.

(** ** tests/patterns/test_skipper.cpp *)

Definition eol : pat := cstr [13; 10]%Z.
Definition c_comment : pat := op_seq (op_seq (Lit (txt "/*")) (star (Except any (Lit (txt "*/"))))) (Lit (txt "*/")).
Definition cpp_comment : pat := op_seq (op_seq (Lit (txt "//")) (star (Except any eol))) (op_alt eol Eoi).
Definition skipping_uints : pat := WithSkipper (star uint_) (op_alt (op_alt spaces c_comment) cpp_comment).
Example skipper_simple :
  test_success noenv "1" skipping_uints vint (ints [1]%Z) /\ test_success noenv "1 2" skipping_uints vint (ints [1; 2]%Z) /\
  test_success noenv "1       2" skipping_uints vint (ints [1; 2]%Z) /\
  test_success noenv ("1 // 1 2 3 " ++ nl ++ " 2")%string skipping_uints vint (ints [1; 2]%Z) /\
  test_success noenv "1 /* 1 2 3 4 */ 2" skipping_uints vint (ints [1; 2]%Z).
Proof. run. Qed.
Definition spaced_list : pat := WithSkipper (PList uint_ (lc ",")) (lc " ").
Example skipper_cpp_comment :
  test_success noenv "1,2,3" spaced_list vint (ints [1; 2; 3]%Z) /\ test_success noenv "4, 5, 6" spaced_list vint (ints [4; 5; 6]%Z) /\
  test_success noenv " 7 , 8 , 9 " spaced_list vint (ints [7; 8; 9]%Z).
Proof. run. Qed.

(** ** tests/patterns/test_int.cpp *)

Example int_default :
  test_success noenv "12" int_ int32 (VNum 12) /\ test_success noenv "-1" int_ int32 (VNum (-1)) /\
  test_success noenv "+14" int_ int32 (VNum 14) /\ test_failure noenv "" int_ int32 /\ test_failure noenv "a123" int_ int32.
Proof. run. Qed.

(** ** tests/patterns/test_symbol.cpp *)

Definition symbols : pat :=
  Symbol [(txt "a", VNum 1); (txt "ab", VNum 3); (txt "b", VNum 2); (txt "baf", VNum 4); (txt "longer", VNum 5)].
Example symbol_simple :
  test_success noenv "a" symbols int32 (VNum 1) /\ test_success noenv "b" symbols int32 (VNum 2) /\
  test_success noenv "ab" symbols int32 (VNum 3) /\ test_success noenv "baf" symbols int32 (VNum 4) /\
  test_success noenv "longer" symbols int32 (VNum 5) /\ test_failure noenv "xyz" symbols int32.
Proof. run. Qed.
Example symbol_edge_cases :
  test_success noenv "ac" symbols int32 (VNum 1) /\ test_success noenv "ba" symbols int32 (VNum 2) /\
  test_failure noenv "longe" symbols int32.
Proof. run. Qed.

(** ** tests/patterns/test_not.cpp *)

Definition lower : pat := range "a" "z".
Example not_simple :
  test_failure noenv "hello" (Not Pass) TNil /\ test_failure noenv "c" (Not lower) TNil /\ test_success noenv "2" (Not lower) TNil VNil.
Proof. run. Qed.
Example not_double :
  test_success noenv "hello" (Not (Not Pass)) TNil VNil /\ test_success noenv "c" (Not (Not lower)) TNil VNil /\
  test_failure noenv "2" (Not (Not lower)) TNil.
Proof. run. Qed.

(** ** tests/patterns/test_repeat.cpp *)

Example repeat_string : test_success noenv "abc" (star any) str (chars "abc").
Proof. run. Qed.
Example repeat_simple :
  test_success noenv "2345" (star (UInt 10 2 2)) vint (ints [23; 45]%Z) /\ test_success noenv "abc" (star (UInt 10 2 2)) vint (VColl []) /\
  test_success noenv "" (star (UInt 10 2 2)) vint (VColl []).
Proof. run. Qed.
Example repeat_plus :
  test_success noenv "23" (plus (UInt 10 2 2)) vint (ints [23]%Z) /\ test_failure noenv "abc" (plus (UInt 10 2 2)) vint /\
  test_failure noenv "" (plus (UInt 10 2 2)) vint.
Proof. run. Qed.
Example repeat_max_count : test_success noenv "1234" (Repeat 0 3 (UInt 10 1 1)) vint (ints [1; 2; 3]%Z).
Proof. run. Qed.
Example repeat_exact_count :
  test_success noenv "99" (Repeat 2 2 (lc "9")) TNil VNil /\ test_failure noenv "9" (Repeat 2 2 (lc "9")) TNil.
Proof. run. Qed.

(** ** tests/patterns/test_optional.cpp *)

Definition opt_then : pat := op_seq (Opt any) (plus lower).
Example optional_pass :
  test_success noenv "hello" opt_then TNil VNil /\ test_success noenv "1ello" opt_then TNil VNil /\ test_failure noenv "12ello" opt_then TNil.
Proof. run. Qed.

(** ** tests/patterns/test_uint.cpp *)

Example uint_default :
  test_success noenv "12" uint_ uint32 (VNum 12) /\ test_success noenv "1" uint_ uint32 (VNum 1) /\
  test_failure noenv "" uint_ int32 /\ test_failure noenv "a123" uint_ int32.
Proof. run. Qed.
Example uint_base : test_success noenv "12" (UInt 3 1 0) uint32 (VNum 5).
Proof. run. Qed.
Example uint_min_digits :
  test_success noenv "123" (UInt 10 3 0) uint32 (VNum 123) /\ test_success noenv "1234" (UInt 10 3 0) uint32 (VNum 1234) /\
  test_failure noenv "12" (UInt 10 3 0) int32.
Proof. run. Qed.
Example uint_max_digits :
  test_success noenv "123" (UInt 10 1 3) uint32 (VNum 123) /\ test_success noenv "1234" (UInt 10 1 3) uint32 (VNum 123).
Proof. run. Qed.

(** ** tests/patterns/test_eoi.cpp *)

Example eoi_simple : test_failure noenv "a" Eoi TNil /\ test_failure noenv "hello" Eoi TNil /\ test_success noenv "" Eoi TNil VNil.
Proof. run. Qed.

(** ** tests/patterns/test_digit_values.cpp *)

Definition valids (b : Z) (s : string) : list bool := map (digit_valid b) (txt s).
Definition values (b : Z) (s : string) : list Z := map (digit_value b) (txt s).
Example digits_binary : valids 2 "012" = [true; true; false] /\ values 2 "01" = [0; 1]%Z.
Proof. run. Qed.
Example digits_ternary : valids 3 "0123" = [true; true; true; false] /\ values 3 "012" = [0; 1; 2]%Z.
Proof. run. Qed.
Example digits_hexadecimal : forallb (digit_valid 16) (txt "0123456789abcdefABCDEF") = true /\ values 16 "aAfF" = [10; 10; 15; 15]%Z.
Proof. run. Qed.

(** ** tests/documentation/test_readme.cpp *)

Example readme_list : seen_by_parse noenv vint (VColl []) readme (txt "[1, 2, 3, 4, 5]") = Done (SUCCESS, [ints [1; 2; 3; 4; 5]%Z]).
Proof. run. Qed.
Definition rectangle : pat :=
  WithSkipper
    (op_alt (Construct [int32; int32] (Seq [lc "["; int_; lc ","; int_; lc "]"]))
            (Construct [int32; int32; int32; int32] (Seq [lc "["; int_; lc ","; int_; lc ","; int_; lc ","; int_; lc "]"]))) ws.
Example readme_rectangle :
  seen_by_parse noenv (TUser 0) (VUser 0 []) rectangle (txt "[1, 45]") = Done (SUCCESS, [VUser 0 [VNum 1; VNum 45]]) /\
  seen_by_parse noenv (TUser 0) (VUser 0 []) rectangle (txt "[1, 45, 1, 1]") = Done (SUCCESS, [VUser 0 [VNum 1; VNum 45; VNum 1; VNum 1]]).
Proof. run. Qed.

(** ** tests/char_set/*.cpp *)

Definition valid_in (s : charset) (l : string) : list bool := map (is_valid s) (txt l).
Example set_create_from_vector : valid_in (CSet ct_char (txt "agz")) "agzAf" = [true; true; true; false; false].
Proof. run. Qed.
Example set_create_string_literal :
  valid_in (set_of_cstr (txt "agz" ++ [0%Z])) "agzAf" = [true; true; true; false; false] /\
  is_valid (set_of_cstr (txt "agz" ++ [0%Z])) 0 = false.
Proof. run. Qed.
Example set_string_literal_in_expression :
  let s := COr (CRange ct_char (chr "a") (chr "z")) (set_of_cstr (txt "_!@" ++ [0%Z])) in
  valid_in s "ag!A" = [true; true; true; false] /\ is_valid s 0 = false.
Proof. run. Qed.
Definition one (s : string) : charset := CSingle ct_char (chr s).
Example or_all :
  valid_in (COr (one "a") (one "b")) "abc" = [true; true; false] /\
  valid_in (COr (COr (one "a") (one "b")) (one "c")) "abcd" = [true; true; true; false] /\
  valid_in (COr (one "a") (CRange ct_char (chr "m") (chr "z"))) "abp" = [true; false; true].
Proof. run. Qed.
Example delegated_all :
  valid_in (CDelegated ct_char (fun c => (c =? chr "a") || (c =? chr "z"))%Z) "azb" = [true; true; false] /\
  valid_in (CDelegated ct_char (fun c => c <? chr "m")%Z) "alm" = [true; true; false].
Proof. run. Qed.
Example range_simple : valid_in (CRange ct_char (chr "a") (chr "g")) "abgAh" = [true; true; true; false; false].
Proof. run. Qed.
Example charset_not : valid_in (CNot (one "a")) "abA " = [false; true; true; true].
Proof. run. Qed.
Example any_all : forallb (fun i => is_valid (CAny ct_char) (Z.of_nat i - 128)) (seq 0 255) = true.
Proof. run. Qed.
Example single_simple : valid_in (one "a") "abgA " = [true; false; false; false; false] /\ is_valid (one "a") 0 = false.
Proof. run. Qed.

(** ** tests/data_sources/*.cpp *)

Inductive src_step := Next (c : string) | Adv | Prep | Com | Can | Empty (b : bool) | Drain.
Section Script.
Context {S : Type} (ops : source_ops S).
Fixpoint drain (n : nat) (s : S) : outcome S :=
  match n with
  | 0 => Err EFuel
  | Datatypes.S m => if so_empty ops s then Done s else obind (so_advance ops s) (drain m)
  end.
Fixpoint script (l : list src_step) (s : S) : outcome bool :=
  match l with
  | [] => Done true
  | k :: l' =>
    match k with
    | Next c => obind (so_next ops s) (fun z => if (z =? chr c)%Z then script l' s else Done false)
    | Adv => obind (so_advance ops s) (script l')
    | Prep => script l' (so_prepare ops s)
    | Com => obind (so_commit ops s) (script l')
    | Can => obind (so_cancel ops s) (script l')
    | Empty b => if Bool.eqb (so_empty ops s) b then script l' s else Done false
    | Drain => obind (drain 99 s) (script l')
    end
  end.
End Script.
Definition on_range (s : string) (l : list src_step) : outcome bool := script sf_ops l (sf_make (txt s)).
Fixpoint add_all (l : list string) (s : cseq) : outcome cseq :=
  match l with
  | [] => Done s
  | b :: l' => obind (cs_add (txt b) (match l' with [] => true | _ => false end) s) (add_all l')
  end.
Definition on_buffers (bufs : list string) (l : list src_step) : outcome bool :=
  obind (add_all bufs cs_make) (script cs_ops l).

Example single_forward_create :
  on_range "1234567890"
    [Empty false; Next "1"; Empty false; Adv; Next "2"; Adv; Next "3"; Adv; Next "4"; Adv; Next "5"; Adv; Next "6"; Adv;
     Next "7"; Adv; Next "8"; Adv; Next "9"; Adv; Next "0"; Empty false; Adv; Empty true] = Done true.
Proof. run. Qed.
Example container_sequence_object : on_buffers ["abcd"] [Next "a"] = Done true.
Proof. run. Qed.
Example container_sequence_multiple_buffers :
  on_buffers ["ab"; "c"; "de"]
    [Next "a"; Adv; Empty false; Next "b"; Adv; Empty false; Next "c"; Adv; Empty false; Next "d"; Adv; Empty false; Next "e"; Adv; Empty true]
  = Done true.
Proof. run. Qed.
(** The tests on roll-back are the same for both sources. *)
Definition rollbacks : list (list src_step) :=
  [ [Prep; Adv; Adv; Adv; Com; Next "1"];
    [Adv; Adv; Prep; Adv; Adv; Adv; Com; Next "3"];
    [Prep; Drain; Com; Next "1"];
    [Prep; Com; Next "1"];
    [Prep; Prep; Adv; Adv; Prep; Adv; Adv; Next "5"; Com; Next "3"; Com; Next "1"; Com; Next "1"];
    [Prep; Adv; Adv; Prep; Adv; Adv; Next "5"; Can; Next "5"; Com; Next "1"] ].
Example single_forward_rollbacks : map (on_range "1234567890") rollbacks = repeat (Done true) 6.
Proof. run. Qed.
Example container_sequence_rollbacks : map (on_buffers ["12"; "34"; "56"; "78"; "90"]) rollbacks = repeat (Done true) 6.
Proof. run. Qed.
