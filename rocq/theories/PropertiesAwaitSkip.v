(** C75: below a skipper of single characters a parser waits exactly while the part it is at
    has nothing in front of it but text to skip, or has not got its answer. *)
From Coq Require Import String List ZArith Bool Arith Lia.
From Verif Require Import Base CharSet Source Dst Pattern Parser Session SpecSession SpecPeg SpecReady SpecAwait SpecLang SpecAwaitSkip Big PegSound PegTerm Comb Ready Leaf AwaitSkip Demo.
Import ListNotations.
Local Open Scope string_scope.
Local Open Scope list_scope.

(** As C74, for apply_skipper(p, skp).  [passes1 skp]: the characters [skp] matches.
    Partial: the patterns are those of C11, and [skp] reads one character at a time. *)
Theorem C75_waits_exactly_while_a_part_is_open_partial :
  forall env T, ct_ok T ->
  (forall id q, env id = Some q -> mok true recur_req q = true) ->
  (forall id q, env id = Some q -> peg_ok T true recur_req q = true) ->
  (forall id q, env id = Some q -> bare q = true) ->
  forall skp, skipper1 T skp = true ->
  forall t v p n l s,
  inclass T true p = true -> bare p = true -> Forall (tok T) (fed l) -> ended l = false ->
  run_session env n t v (WithSkipper p skp) (l ++ [Consume]) = Done s ->
  (s_res s = None <-> awaits_below env (tok T) (passes1 skp) (One p) (fed l)).
Proof. exact waits. Qed.
Print Assumptions C75_waits_exactly_while_a_part_is_open_partial.

(** And an answer given before the end was announced is the one for every text that begins so. *)
Theorem C75_an_early_answer_holds_whatever_follows_partial :
  forall env T, ct_ok T ->
  (forall id q, env id = Some q -> mok true recur_req q = true) ->
  (forall id q, env id = Some q -> peg_ok T true recur_req q = true) ->
  forall skp, skipper1 T skp = true ->
  forall t v p n l s r,
  inclass T true p = true -> Forall (tok T) (fed l) -> ended l = false ->
  run_session env n t v (WithSkipper p skp) (l ++ [Consume]) = Done s -> s_res s = Some r ->
  match r with
  | SUCCESS => exists rest, settled_below env (tok T) (passes1 skp) p (fed l) (Some rest)
  | _ => settled_below env (tok T) (passes1 skp) p (fed l) None
  end.
Proof. exact settles. Qed.
Print Assumptions C75_an_early_answer_holds_whatever_follows_partial.

Ltac chars := repeat constructor; unfold tok; vm_compute; reflexivity.
Definition C75_blank : pat := lc " ".
Definition C75_res (o : outcome (session cseq)) : outcome (option result) :=
  match o with Done s => Done (s_res s) | Err e => Err e end.
Definition C75_runs (p : pat) (l : list call) : outcome (option result) :=
  C75_res (run_session noenv 80 TNil VNil (WithSkipper p C75_blank) (l ++ [Consume])).
Notation below := (awaits_below noenv (tok ct_char) (passes1 C75_blank)).

(** For all patterns it is false, as C74 is. *)
Definition C75_rule : pat := Discard (Alt [Seq [lc "x"; Opt (lc "a"); lc "b"]; Lit (txt "xac!")]).
Theorem C75_refuted :
  exists p l s, bare p = true /\ Forall (tok ct_char) (fed l) /\ ended l = false /\
  run_session noenv 60 TNil VNil (WithSkipper p C75_blank) (l ++ [Consume]) = Done s /\
  s_res s = Some FAILURE /\ below (One p) (fed l) /\ ~ settled_below noenv (tok ct_char) (passes1 C75_blank) p (fed l) None.
Proof.
  assert (forall more, m noenv (SpecPeg.chars (passes1 C75_blank)) (One (Seq [lc "x"; Opt (lc "a"); lc "b"])) (txt "xac" ++ more) None) as HN.
  { intros more. apply m_seq. apply m_all with (s1 := txt "ac" ++ more).
    - apply m_discard, (m_char noenv _ _ _ (chr "x")); [reflexivity|vm_compute; reflexivity].
    - apply m_all with (s1 := txt "c" ++ more).
      + apply m_opt, m_discard, (m_char noenv _ _ _ (chr "a")); [reflexivity|vm_compute; reflexivity].
      + apply m_all_no, m_discard, m_char_no. intros y t [= <- <-] H. vm_compute in H. discriminate H. }
  exists C75_rule, [Feed (txt "xac") false]. eexists. split; [reflexivity|]. split; [chars|].
  split; [reflexivity|]. split; [vm_compute; reflexivity|]. split; [reflexivity|]. split.
  - apply ab_discard, ab_alt, ab_any_next; [intros more _; apply HN|].
    apply ab_any, ab_primitive; [reflexivity|]. exists (chr "!"), []. reflexivity.
  - intros H. specialize (H (txt "!")). assert (Forall (tok ct_char) (txt "!")) as Ht by chars.
    specialize (H Ht).
    assert (m noenv (SpecPeg.chars (passes1 C75_blank)) (One C75_rule) (txt "xac!") (Some [])) as HY.
    { apply m_discard, m_alt, m_any_next; [apply (HN (txt "!"))|]. apply m_any, m_lit. reflexivity. }
    pose proof (m_det _ _ _ _ _ H _ HY) as X.
    discriminate X.
Qed.
Print Assumptions C75_refuted.

(** uint_ >> ';' behind "12 ": the number has its answer, the ';' has nothing but a blank. *)
Definition C75_line : pat := Discard (Seq [uint_; lc ";"]).
Example C75_sequence :
  skipper1 ct_char C75_blank = true /\ inclass ct_char true C75_line = true /\ bare C75_line = true /\
  C75_runs C75_line [Feed (txt "  ") false] = Done None /\ below (One C75_line) (txt "  ") /\
  C75_runs C75_line [Feed (txt " 12") false] = Done None /\
  C75_runs C75_line [Feed (txt " 12") false; Consume; Feed (txt " ") false] = Done None /\
  below (One C75_line) (txt " 12 ") /\
  C75_runs C75_line [Feed (txt " 12 ") false; Consume; Feed (txt "  ;") false] = Done (Some SUCCESS) /\
  C75_runs C75_line [Feed (txt " 12 x") false] = Done (Some FAILURE).
Proof.
  do 4 (split; [vm_compute; reflexivity|]). split; [apply ab_blank; reflexivity|]. do 2 (split; [vm_compute; reflexivity|]).
  split; [|split; vm_compute; reflexivity].
  apply ab_discard, ab_seq. eapply ab_all_next with (s1 := txt " ").
  - intros more _. exists (txt " " ++ more). split; [|reflexivity].
    replace (Some (txt " " ++ more)) with (number 10 1 0 (trim (SpecPeg.chars (passes1 C75_blank)) (txt " 12 " ++ more))); [apply m_uint|].
    change (txt " 12 " ++ more) with (32%Z :: 49%Z :: 50%Z :: 32%Z :: more). rewrite !trim_chars. reflexivity.
  - apply ab_all, ab_blank. reflexivity.
Qed.

(** A number alone has its answer with the blank; a repetition waits for the next round. *)
Example C75_repetition :
  inclass ct_char true (Discard (Repeat 0 0 uint_)) = true /\
  C75_runs (Discard uint_) [Feed (txt "1 ") false] = Done (Some SUCCESS) /\
  C75_runs (Discard (Repeat 0 0 uint_)) [Feed (txt "1 ") false] = Done None /\
  C75_runs (Discard (Repeat 0 2 uint_)) [Feed (txt "1 2 ") false] = Done (Some SUCCESS) /\
  ~ below (One (Discard (Repeat 0 2 uint_))) (txt "1 2 ").
Proof.
  do 4 (split; [vm_compute; reflexivity|]).
  assert (forall s, run_session noenv 60 TNil VNil (WithSkipper (Discard (Repeat 0 2 uint_)) C75_blank) ([Feed (txt "1 2 ") false] ++ [Consume]) = Done s ->
    (s_res s = None <-> below (One (Discard (Repeat 0 2 uint_))) (txt "1 2 "))) as HW.
  { intros s. apply (C75_waits_exactly_while_a_part_is_open_partial noenv ct_char).
    1: vm_compute; discriminate.
    1-3: intros id q E; discriminate E.
    1-3: vm_compute; reflexivity.
    - chars.
    - reflexivity. }
  intros H. destruct (run_session noenv 60 TNil VNil (WithSkipper (Discard (Repeat 0 2 uint_)) C75_blank) ([Feed (txt "1 2 ") false] ++ [Consume])) as [s|] eqn:E.
  - apply (HW s eq_refl) in H. clear HW. vm_compute in E. injection E as <-. discriminate H.
  - clear HW. vm_compute in E. discriminate E.
Qed.

(** lexeme: blanks in front of it are skipped; inside, a blank is an answer. *)
Definition C75_word : pat := Discard (Lexeme (Seq [lc "a"; lc "b"])).
Example C75_lexeme :
  inclass ct_char true C75_word = true /\ bare C75_word = true /\
  C75_runs C75_word [Feed (txt "  a") false] = Done None /\ below (One C75_word) (txt "  a") /\
  C75_runs C75_word [Feed (txt "  a ") false] = Done (Some FAILURE) /\
  C75_runs C75_word [Feed (txt "  ab") false] = Done (Some SUCCESS).
Proof.
  do 3 (split; [vm_compute; reflexivity|]). split; [|split; vm_compute; reflexivity].
  apply ab_discard, ab_lexeme. change (trim (SpecPeg.chars (passes1 C75_blank)) (txt "  a")) with (txt "a").
  apply aw_seq. eapply aw_all_next with (s1 := []).
  - intros more _. apply m_discard. apply m_char with (y := chr "a"); [reflexivity|vm_compute; reflexivity].
  - apply aw_all, aw_discard, aw_primitive; reflexivity.
Qed.
