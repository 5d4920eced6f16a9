(** C74: a parser without skipper waits exactly while the part it is at has not got its answer
    from the text so far. *)
From Coq Require Import String List ZArith Bool Arith Lia.
From Verif Require Import Base CharSet Source Dst Pattern Parser Session SpecSession SpecPeg SpecReady SpecAwait Big PegSound PegTerm Comb Ready Leaf Await Demo.
Import ListNotations.
Local Open Scope string_scope.
Local Open Scope list_scope.

(** Whatever the buffers and wherever consume() was called in between: as long as the end was
    not announced, the next consume() returns PARTIAL exactly if the parts in front of some
    part have their answer whatever follows, and that part is a primitive pattern whose answer
    the text so far leaves open.  Partial: the patterns are those of C11. *)
Theorem C74_waits_exactly_while_a_part_is_open_partial :
  forall env T, ct_ok T ->
  (forall id q, env id = Some q -> mok true recur_req q = true) ->
  (forall id q, env id = Some q -> peg_ok T true recur_req q = true) ->
  (forall id q, env id = Some q -> bare q = true) ->
  forall t v p n l s,
  inclass T false p = true -> bare p = true -> Forall (tok T) (fed l) -> ended l = false ->
  run_session env n t v p (l ++ [Consume]) = Done s ->
  (s_res s = None <-> awaits env (tok T) (One p) (fed l)).
Proof. exact waits. Qed.
Print Assumptions C74_waits_exactly_while_a_part_is_open_partial.

(** And an answer given before the end was announced is the one for every text that begins so. *)
Theorem C74_an_early_answer_holds_whatever_follows_partial :
  forall env T, ct_ok T ->
  (forall id q, env id = Some q -> mok true recur_req q = true) ->
  (forall id q, env id = Some q -> peg_ok T true recur_req q = true) ->
  forall t v p n l s r,
  inclass T false p = true -> Forall (tok T) (fed l) -> ended l = false ->
  run_session env n t v p (l ++ [Consume]) = Done s -> s_res s = Some r ->
  match r with
  | SUCCESS => exists rest, settled env (tok T) p (fed l) (Some rest)
  | _ => settled env (tok T) p (fed l) None
  end.
Proof. exact settles. Qed.
Print Assumptions C74_an_early_answer_holds_whatever_follows_partial.

(** For all patterns it is false: behind x-ab, the optional a leaves its mark behind, and the
    second alternative is tried behind the x. *)
Definition C74_rule : pat := Discard (Alt [Seq [lc "x"; Opt (lc "a"); lc "b"]; Lit (txt "xac!")]).
Theorem C74_refuted :
  exists p l s, bare p = true /\ Forall (tok ct_char) (fed l) /\ ended l = false /\
  run_session noenv 40 TNil VNil p (l ++ [Consume]) = Done s /\
  s_res s = Some FAILURE /\ awaits noenv (tok ct_char) (One p) (fed l) /\ ~ settled noenv (tok ct_char) p (fed l) None.
Proof.
  assert (forall more, m noenv nows (One (Seq [lc "x"; Opt (lc "a"); lc "b"])) (txt "xac" ++ more) None) as HN.
  { intros more. apply m_seq. apply m_all with (s1 := txt "ac" ++ more).
    - apply m_discard, (m_char noenv nows _ _ (chr "x")); [reflexivity|vm_compute; reflexivity].
    - apply m_all with (s1 := txt "c" ++ more).
      + apply m_opt, m_discard, (m_char noenv nows _ _ (chr "a")); [reflexivity|vm_compute; reflexivity].
      + apply m_all_no, m_discard, m_char_no. intros y t [= <- <-] H. vm_compute in H. discriminate H. }
  exists C74_rule, [Feed (txt "xac") false]. eexists. split; [reflexivity|]. split; [repeat constructor; unfold tok; vm_compute; reflexivity|].
  split; [reflexivity|]. split; [vm_compute; reflexivity|]. split; [reflexivity|]. split.
  - apply aw_discard, aw_alt, aw_any_next; [intros more _; apply HN|].
    apply aw_any, aw_primitive; [reflexivity|]. exists (chr "!"), []. reflexivity.
  - intros H. specialize (H (txt "!")). assert (Forall (tok ct_char) (txt "!")) as Ht by (repeat constructor; unfold tok; vm_compute; reflexivity).
    specialize (H Ht).
    assert (m noenv nows (One C74_rule) (txt "xac!") (Some [])) as HY.
    { apply m_discard, m_alt, m_any_next; [apply (HN (txt "!"))|]. apply m_any, m_lit. reflexivity. }
    pose proof (m_det _ _ _ _ _ H _ HY) as X.
    discriminate X.
Qed.
Print Assumptions C74_refuted.

Ltac chars := repeat constructor; unfold tok; vm_compute; reflexivity.

Definition C74_res (o : outcome (session cseq)) : outcome (option result) :=
  match o with Done s => Done (s_res s) | Err e => Err e end.
Definition C74_runs (p : pat) (l : list call) : outcome (option result) := C74_res (run_session noenv 60 TNil VNil p (l ++ [Consume])).

(** lit("v=") >> uint_ >> ';': behind "v=1" the number is open; behind "v=1;" nothing is. *)
Definition C74_setting : pat := Discard (Seq [Lit (txt "v="); uint_; lc ";"]).
Example C74_sequence :
  inclass ct_char false C74_setting = true /\ bare C74_setting = true /\ Forall (tok ct_char) (txt "v=1;") /\
  C74_runs C74_setting [Feed (txt "v") false; Consume; Feed (txt "=1") false] = Done None /\
  awaits noenv (tok ct_char) (One C74_setting) (txt "v=1") /\
  C74_runs C74_setting [Feed (txt "v=1;") false] = Done (Some SUCCESS) /\
  C74_runs C74_setting [Feed (txt "v=x") false] = Done (Some FAILURE).
Proof.
  split; [vm_compute; reflexivity|]. split; [reflexivity|]. split; [chars|]. split; [vm_compute; reflexivity|].
  split; [|split; vm_compute; reflexivity].
  apply aw_discard, aw_seq. eapply aw_all_next with (s1 := txt "1").
  - intros more _. apply m_lit. reflexivity.
  - apply aw_all. apply aw_primitive; [reflexivity|]. split; [repeat constructor|cbn; lia].
Qed.

(** "ab" | "ac": behind "a" the first is open; with the c it fails and the second matches. *)
Definition C74_choice : pat := Discard (Alt [Lit (txt "ab"); Lit (txt "ac")]).
Example C74_alternative :
  inclass ct_char false C74_choice = true /\ bare C74_choice = true /\
  C74_runs C74_choice [Feed (txt "a") false] = Done None /\
  awaits noenv (tok ct_char) (One C74_choice) (txt "a") /\
  C74_runs C74_choice [Feed (txt "a") false; Consume; Feed (txt "c") false] = Done (Some SUCCESS) /\
  C74_runs C74_choice [Feed (txt "a") false; Consume; Feed (txt "d") false] = Done (Some FAILURE).
Proof.
  split; [vm_compute; reflexivity|]. split; [reflexivity|]. split; [vm_compute; reflexivity|].
  split; [|split; vm_compute; reflexivity].
  apply aw_discard, aw_alt, aw_any, aw_primitive; [reflexivity|]. exists (chr "b"), []. reflexivity.
Qed.

(** *lit("x") is open as long as x comes; with a maximum it is not. *)
Example C74_repetition :
  inclass ct_char false (Discard (Repeat 0 0 (lc "x"))) = true /\
  C74_runs (Discard (Repeat 0 0 (lc "x"))) [Feed (txt "xx") false] = Done None /\
  C74_runs (Discard (Repeat 0 0 (lc "x"))) [Feed (txt "xxy") false] = Done (Some SUCCESS) /\
  C74_runs (Discard (Repeat 0 2 (lc "x"))) [Feed (txt "xx") false] = Done (Some SUCCESS) /\
  ~ awaits noenv (tok ct_char) (One (Discard (Repeat 0 2 (lc "x")))) (txt "xx").
Proof.
  split; [vm_compute; reflexivity|]. split; [vm_compute; reflexivity|]. split; [vm_compute; reflexivity|]. split; [vm_compute; reflexivity|].
  intros H. destruct (run_session noenv 60 TNil VNil (Discard (Repeat 0 2 (lc "x"))) ([Feed (txt "xx") false] ++ [Consume])) as [s|] eqn:E; [|vm_compute in E; discriminate].
  assert (s_res s = None) as X.
  { eapply (C74_waits_exactly_while_a_part_is_open_partial noenv ct_char); try exact E; try (vm_compute; reflexivity); try (intros; discriminate); try chars.
    exact H. }
  vm_compute in E. injection E as <-. discriminate X.
Qed.

(** uint_ % ',': behind an element the separator is open; with anything else there is an answer. *)
Definition C74_numbers : pat := Discard (PList uint_ (lc ",")).
Example C74_list :
  inclass ct_char false C74_numbers = true /\ bare C74_numbers = true /\
  C74_runs C74_numbers [Feed (txt "1,2") false] = Done None /\
  C74_runs C74_numbers [Feed (txt "1,") false] = Done None /\
  C74_runs C74_numbers [Feed (txt "1,2") false; Consume; Feed (txt ";") false] = Done (Some SUCCESS) /\
  C74_runs C74_numbers [Feed (txt "1,;") false] = Done (Some SUCCESS) /\
  settled noenv (tok ct_char) C74_numbers (txt "1,;") (Some (txt ",;")).
Proof.
  do 6 (split; [vm_compute; reflexivity|]).
  intros more _. apply m_discard. eapply m_list with (s1 := txt ",;" ++ more).
  - exact (m_uint noenv nows 10 1 0 (txt "1,;" ++ more)).
  - eapply m_more_trailing with (s1 := txt ";" ++ more).
    + apply m_discard. apply m_char with (y := chr ","); [reflexivity|vm_compute; reflexivity].
    + exact (m_uint noenv nows 10 1 0 (txt ";" ++ more)).
Qed.
