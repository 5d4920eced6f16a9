(** C73: a parser for a primitive pattern answers as soon as the text settles the answer, and
    not before. *)
From Coq Require Import String List ZArith Bool Arith Lia.
From Verif Require Import Base CharSet Source Dst Pattern Parser Session SpecSession SpecPeg SpecReady Ready Leaf Demo.
Import ListNotations.
Local Open Scope string_scope.
Local Open Scope list_scope.

(** Whatever the buffers and wherever consume() was called in between: as long as the end was
    not announced, the next consume() returns PARTIAL exactly if the text so far leaves the
    answer open. *)
Theorem C73_waits_exactly_while_open :
  forall env t v p n l s, primitive p = true -> Forall (tok ct_char) (fed l) -> ended l = false ->
  run_session env n t v p (l ++ [Consume]) = Done s -> (s_res s = None <-> unsettled p (fed l)).
Proof. exact leaf_waits. Qed.
Print Assumptions C73_waits_exactly_while_open.

Ltac chars := repeat constructor; unfold tok; vm_compute; reflexivity.

Definition C73_res (o : outcome (session cseq)) : outcome (option result) :=
  match o with Done s => Done (s_res s) | Err e => Err e end.

(** "abc" in pieces: waits for the c, answers with it; a character that does not fit is
    answered at once. *)
Example C73_literal :
  primitive (Lit (txt "abc")) = true /\
  C73_res (run_session noenv 9 TNil VNil (Lit (txt "abc")) ([Feed (txt "a") false; Consume; Feed (txt "b") false] ++ [Consume])) = Done None /\
  unsettled (Lit (txt "abc")) (txt "ab") /\
  C73_res (run_session noenv 9 TNil VNil (Lit (txt "abc")) ([Feed (txt "ab") false; Feed (txt "c") false] ++ [Consume])) = Done (Some SUCCESS) /\
  C73_res (run_session noenv 9 TNil VNil (Lit (txt "abc")) ([Feed (txt "ax") false] ++ [Consume])) = Done (Some FAILURE).
Proof. repeat split; try (vm_compute; reflexivity). exists (chr "c"), []. reflexivity. Qed.

(** UInt<10, 2, 2> of the guide has its answer with the second digit; uint_ never has while
    digits come. *)
Example C73_two_digits :
  C73_res (run_session noenv 9 int32 (VNum 0) (UInt 10 2 2) ([Feed (txt "4") false] ++ [Consume])) = Done None /\
  C73_res (run_session noenv 9 int32 (VNum 0) (UInt 10 2 2) ([Feed (txt "4") false; Consume; Feed (txt "2") false] ++ [Consume])) = Done (Some SUCCESS) /\
  C73_res (run_session noenv 9 int32 (VNum 0) uint_ ([Feed (txt "4") false; Consume; Feed (txt "2") false] ++ [Consume])) = Done None /\
  C73_res (run_session noenv 9 int32 (VNum 0) int_ ([Feed (txt "-") false; Consume; Feed (txt "2") false] ++ [Consume])) = Done None /\
  C73_res (run_session noenv 9 int32 (VNum 0) int_ ([Feed (txt "-2") false; Consume; Feed (txt "x") false] ++ [Consume])) = Done (Some SUCCESS) /\
  primitive (UInt 10 2 2) = true /\ primitive int_ = true /\ Forall (tok ct_char) (txt "-2x").
Proof. repeat (split; [vm_compute; reflexivity|]). chars. Qed.

(** A symbol is given as soon as no longer one can come: with "do" and "double", "do" is open
    and "double" is not; neither is "dog". *)
Definition C73_table : pat := Symbol [(txt "do", VNum 1); (txt "double", VNum 2)].
Example C73_symbols :
  C73_res (run_session noenv 9 int32 (VNum 0) C73_table ([Feed (txt "do") false] ++ [Consume])) = Done None /\
  unsettled C73_table (txt "do") /\
  C73_res (run_session noenv 9 int32 (VNum 0) C73_table ([Feed (txt "do") false; Consume; Feed (txt "uble") false] ++ [Consume])) = Done (Some SUCCESS) /\
  C73_res (run_session noenv 9 int32 (VNum 0) C73_table ([Feed (txt "do") false; Consume; Feed (txt "g") false] ++ [Consume])) = Done (Some SUCCESS) /\
  C73_res (run_session noenv 9 int32 (VNum 0) C73_table ([Feed (txt "d") false; Consume; Feed (txt "i") false] ++ [Consume])) = Done (Some FAILURE).
Proof.
  repeat split; try (vm_compute; reflexivity).
  right. exists (txt "double"), (VNum 2). split; [cbn; auto|]. exists (chr "u"), (txt "ble"). reflexivity.
Qed.

(** char_(…) and eoi wait for one character only. *)
Example C73_one_character :
  C73_res (run_session noenv 9 TNil VNil Eoi ([Feed [] false] ++ [Consume])) = Done None /\
  C73_res (run_session noenv 9 TNil VNil Eoi ([Feed (txt "x") false] ++ [Consume])) = Done (Some FAILURE) /\
  C73_res (run_session noenv 9 TNil VNil (Discard (lc "x")) ([Feed (txt "x") false] ++ [Consume])) = Done (Some SUCCESS).
Proof. repeat split; vm_compute; reflexivity. Qed.
