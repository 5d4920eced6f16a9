(** C76: the same for patterns with skippers inside: within apply_skipper a parser waits
    while there is nothing but text to skip, outside of it and within lexeme it does not. *)
From Coq Require Import String List ZArith Bool Arith Lia.
From Verif Require Import Base CharSet Source Dst Pattern Parser Session SpecSession SpecPeg SpecReady SpecLang SpecAwaitSkip SpecAwaitAny Big PegSound PegTerm Comb Ready Leaf AwaitSkip AwaitAny Demo.
Import ListNotations.
Local Open Scope string_scope.
Local Open Scope list_scope.

(** As C74 and C75, with apply_skipper and lexeme anywhere.
    Partial: the patterns are those of C11, and the skippers read one character at a time. *)
Theorem C76_waits_exactly_while_a_part_is_open_partial :
  forall env T, ct_ok T ->
  (forall id q, env id = Some q -> mok true recur_req q = true) ->
  (forall id q, env id = Some q -> peg_ok T true recur_req q = true) ->
  (forall id q, env id = Some q -> single T q = true) ->
  forall t v p n l s,
  inclass T false p = true -> single T p = true -> Forall (tok T) (fed l) -> ended l = false ->
  run_session env n t v p (l ++ [Consume]) = Done s ->
  (s_res s = None <-> opens env (tok T) None (One p) (fed l)).
Proof. exact waits. Qed.
Print Assumptions C76_waits_exactly_while_a_part_is_open_partial.

(** And for a skipper around the whole pattern, whatever the pattern ends with. *)
Theorem C76_below_a_skipper_partial :
  forall env T, ct_ok T ->
  (forall id q, env id = Some q -> mok true recur_req q = true) ->
  (forall id q, env id = Some q -> peg_ok T true recur_req q = true) ->
  (forall id q, env id = Some q -> single T q = true) ->
  forall skp t v p n l s, skipper1 T skp = true ->
  inclass T true p = true -> single T p = true -> Forall (tok T) (fed l) -> ended l = false ->
  run_session env n t v (WithSkipper p skp) (l ++ [Consume]) = Done s ->
  (s_res s = None <-> opens env (tok T) (Some (passes1 skp)) (One p) (fed l)).
Proof. exact waits_under. Qed.
Print Assumptions C76_below_a_skipper_partial.

(** For all patterns it is false, as C74 is. *)
Definition C76_blank : pat := lc " ".
Definition C76_rule : pat := Discard (WithSkipper (Alt [Seq [lc "x"; Opt (lc "a"); lc "b"]; Lit (txt "xac!")]) C76_blank).
Ltac chars := repeat constructor; unfold tok; vm_compute; reflexivity.
Theorem C76_refuted :
  exists p l s, single ct_char p = true /\ Forall (tok ct_char) (fed l) /\ ended l = false /\
  run_session noenv 60 TNil VNil p (l ++ [Consume]) = Done s /\
  s_res s = Some FAILURE /\ opens noenv (tok ct_char) None (One p) (fed l).
Proof.
  exists C76_rule, [Feed (txt "xac") false]. eexists. split; [reflexivity|]. split; [chars|].
  split; [reflexivity|]. split; [vm_compute; reflexivity|]. split; [reflexivity|].
  apply op_discard, op_skipper. apply op_alt, op_any_next.
  - intros more _. change (skipped (Some (passes1 C76_blank))) with (passes1 C76_blank).
    apply m_seq. apply m_all with (s1 := txt "ac" ++ more).
    + apply m_discard, (m_char noenv _ _ _ (chr "x")); [reflexivity|vm_compute; reflexivity].
    + apply m_all with (s1 := txt "c" ++ more).
      * apply m_opt, m_discard, (m_char noenv _ _ _ (chr "a")); [reflexivity|vm_compute; reflexivity].
      * apply m_all_no, m_discard, m_char_no. intros y t [= <- <-] H. vm_compute in H. discriminate H.
  - apply op_any, op_primitive; [reflexivity|]. exists (chr "!"), []. reflexivity.
Qed.
Print Assumptions C76_refuted.

(** '[' >> apply_skipper(uint_ >> ';', ' ') >> ']': blanks count within the skipper only. *)
Definition C76_line : pat := Discard (Seq [lc "["; WithSkipper (Seq [uint_; lc ";"]) C76_blank; lc "]"]).
Definition C76_runs (p : pat) (l : list call) : outcome (option result) :=
  match run_session noenv 80 TNil VNil p (l ++ [Consume]) with Done s => Done (s_res s) | Err e => Err e end.
Example C76_sequence :
  inclass ct_char false C76_line = true /\ single ct_char C76_line = true /\
  C76_runs C76_line [Feed (txt "[ ") false] = Done None /\
  C76_runs C76_line [Feed (txt "[ 1 ") false; Consume; Feed (txt " ") false] = Done None /\
  opens noenv (tok ct_char) None (One C76_line) (txt "[ ") /\
  C76_runs C76_line [Feed (txt "[ 1 ; ") false] = Done (Some FAILURE) /\
  C76_runs C76_line [Feed (txt " ") false] = Done (Some FAILURE) /\
  C76_runs C76_line [Feed (txt "[ 1 ;") false; Consume; Feed (txt "]") false] = Done (Some SUCCESS).
Proof.
  do 4 (split; [vm_compute; reflexivity|]). split; [|do 2 (split; [vm_compute; reflexivity|]); vm_compute; reflexivity].
  apply op_discard, op_seq. eapply op_all_next with (s1 := txt " ").
  - intros more _. exists (txt " " ++ more). split; [|reflexivity]. apply m_discard. apply m_char with (y := chr "["); [reflexivity|vm_compute; reflexivity].
  - apply op_all, op_skipper, op_blank. reflexivity.
Qed.

(** A skipper within another, and lexeme: each has the say below it. *)
Definition C76_nested : pat := Discard (WithSkipper (Seq [lc "a"; Lexeme (Lit (txt "bc")); WithSkipper (lc "d") (lc "_"); lc "e"]) C76_blank).
Example C76_each_has_its_own :
  inclass ct_char false C76_nested = true /\ single ct_char C76_nested = true /\
  C76_runs C76_nested [Feed (txt " a b") false] = Done None /\
  C76_runs C76_nested [Feed (txt " a b ") false] = Done (Some FAILURE) /\
  C76_runs C76_nested [Feed (txt " a bc  __") false] = Done None /\
  C76_runs C76_nested [Feed (txt " a bc  __ ") false] = Done (Some FAILURE) /\
  C76_runs C76_nested [Feed (txt " a bc  __d ") false] = Done None /\
  C76_runs C76_nested [Feed (txt " a bc  __d e") false] = Done (Some SUCCESS).
Proof. repeat (split; [vm_compute; reflexivity|]). vm_compute. reflexivity. Qed.

(** A list below a skipper, with another skipper inside: numbers in parentheses, with '_'
    for blanks in them.  The blank in the second text ends the (empty) list. *)
Definition C76_list : pat := Discard (PList (Seq [lc "("; WithSkipper (Seq [uint_; lc ")"]) (lc "_")]) (lc ",")).
Example C76_list_below_a_skipper :
  skipper1 ct_char C76_blank = true /\ inclass ct_char true C76_list = true /\ single ct_char C76_list = true /\
  C76_runs (WithSkipper C76_list C76_blank) [Feed (txt " ( __1_") false] = Done None /\
  C76_runs (WithSkipper C76_list C76_blank) [Feed (txt " ( __1 ") false] = Done (Some SUCCESS) /\
  C76_runs (WithSkipper C76_list C76_blank) [Feed (txt " ( 1) ") false] = Done None /\
  C76_runs (WithSkipper C76_list C76_blank) [Feed (txt " ( 1) , (2)_") false] = Done (Some SUCCESS).
Proof. repeat (split; [vm_compute; reflexivity|]). vm_compute. reflexivity. Qed.
