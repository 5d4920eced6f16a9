(** C66, C67: the marks a finished parse leaves behind, and those a waiting one has pending. *)
From Coq Require Import String List ZArith Bool Arith.
From Verif Require Import Base CharSet Source Dst Pattern Parser Session.
From Verif Require Import SpecSession Safety SpecMarks MarkCount MarkBound Demo PropertiesCollect.
Import ListNotations.
Local Open Scope string_scope.
Local Open Scope list_scope.

(** Callbacks [W] sit on the operand of each Optional (of the pattern, of its skippers and
    of the recursive patterns), and nowhere else.  Once the answer is there, the data source
    has one mark for each call of these, and no other.  If there was none, what the source
    holds begins in the buffer being read. *)
Theorem C66_one_mark_per_match_of_an_optional :
  forall env W t v p, (forall i q, env i = Some q -> watched W q = true) -> watched W p = true ->
  (forall n inp r w, parse env n t v p inp = Done (r, w) -> length (sf_stack (w_src w)) = called W (w_trace w)) /\
  (forall n l s r, run_session env n t v p l = Done s -> s_res s = Some r ->
     let src := w_src (s_world s) in
     length (cs_marks src) + cs_starved src = called W (w_trace (s_world s)) /\
     (called W (w_trace (s_world s)) = 0 ->
      match cs_bufs src with
      | [] => cs_unread src = []
      | (_, b) :: tl => exists k, k < length b /\ cs_unread src = skipn k b ++ concat (map snd tl)
      end)).
Proof. exact marks_counted. Qed.
Print Assumptions C66_one_mark_per_match_of_an_optional.

(** *(-('-'[f]) >> ';') over "-;;-;" in two pieces: two marks stay, and with them all that was
    read.  Over ";;" none stays. *)
Definition C66_act : action := Action_ 3 char8 false true (fun _ _ => (VNil, VNil)).
Definition C66_pat : pat := star (Seq [Opt (Act C66_act (ch "-")); lc ";"]).
Example C66_example :
  watched (Nat.eqb 3) C66_pat = true
  /\ (exists w, parse noenv 99 TNil VNil C66_pat (txt "-;;-;") = Done (SUCCESS, w) /\ length (sf_stack (w_src w)) = 2)
  /\ (exists s, run_session noenv 99 TNil VNil C66_pat [Feed (txt "-;;") false; Consume; Feed (txt "-;") true; Consume] = Done s
      /\ s_res s = Some SUCCESS /\ length (cs_marks (w_src (s_world s))) + cs_starved (w_src (s_world s)) = 2
      /\ map snd (cs_bufs (w_src (s_world s))) = [txt "-;;"; txt "-;"])
  /\ (exists s, run_session noenv 99 TNil VNil C66_pat [Feed (txt ";;") true; Consume] = Done s
      /\ s_res s = Some SUCCESS /\ cs_bufs (w_src (s_world s)) = []).
Proof. cases; [calc|eexists; cases; calc..]. Qed.

(** The Optional of an alternative that is given up counts as well: (-('a'[f]) >> 'b') | "ac". *)
Definition C66_alt : pat := Alt [Seq [Opt (Act C66_act (ch "a")); lc "b"]; Lit (txt "ac")].
Example C66_example_given_up :
  watched (Nat.eqb 3) C66_alt = true
  /\ exists w, parse noenv 99 TNil VNil C66_alt (txt "ac") = Done (SUCCESS, w) /\ length (sf_stack (w_src w)) = 1.
Proof. cases; [calc|]. eexists. cases; calc. Qed.

(** ** C67 *)

(** While it waits, a parser has no more marks pending than its pattern says, whatever the
    text, besides one for each match of an Optional. *)
Theorem C67_marks_pending_are_bounded_by_the_pattern :
  forall env R W n t v p l s, bounded R env ->
  (forall i q, env i = Some q -> watched W q = true) -> watched W p = true ->
  run_session env n t v p l = Done s -> s_res s = None ->
  length (cs_marks (w_src (s_world s))) + cs_starved (w_src (s_world s)) <= called W (w_trace (s_world s)) + marks R 0 false p.
Proof. exact waiting_marks. Qed.
Print Assumptions C67_marks_pending_are_bounded_by_the_pattern.

(** Without Optionals: no more marks than the pattern says, and where it says none, nothing
    that was read is held. *)
Theorem C67_a_pattern_that_never_goes_back_holds_nothing :
  forall env R t v p, bounded R env -> (forall i q, env i = Some q -> optfree q = true) -> optfree p = true ->
  (forall n l s, run_session env n t v p l = Done s -> s_res s = None ->
     length (cs_marks (w_src (s_world s))) + cs_starved (w_src (s_world s)) <= marks R 0 false p) /\
  (marks R 0 false p = 0 -> forall n l s, run_session env n t v p (l ++ [Consume]) = Done s -> s_res s = None -> cs_bufs (w_src (s_world s)) = []).
Proof. exact waiting_optfree. Qed.
Print Assumptions C67_a_pattern_that_never_goes_back_holds_nothing.

Definition R0 (_ _ : nat) : nat := 0.
Lemma noenv_bounded R : bounded R noenv. Proof. intros id q h H. discriminate. Qed.

(** Words separated by blanks, star(char_('a', 'z') | ' ') >> '.' >> int_: nothing is held, with
    any number of words.  The README pattern has one mark at most. *)
Definition C67_pat : pat := Seq [star (Alt [Char (CRange ct_char 97 122); ch " "]); lc "."; int_].
Example C67_example :
  optfree C67_pat = true /\ marks R0 0 false C67_pat = 0
  /\ (exists s, run_session noenv 99 TNil VNil C67_pat ([Feed (txt "ab ") false; Consume; Feed (txt "c.4") false] ++ [Consume]) = Done s /\ s_res s = None)
  /\ optfree readme = true /\ marks R0 0 false readme = 1
  /\ (exists s, run_session noenv 99 (TColl int32) (ints []) readme [Feed (txt "[1, 2") false; Consume] = Done s /\ s_res s = None
      /\ length (cs_marks (w_src (s_world s))) + cs_starved (w_src (s_world s)) = 1).
Proof. cases; try calc; eexists; cases; calc. Qed.

(** With an Optional there is no such bound: *(-'-' >> ';'). *)
Definition C67_opt : pat := star (Seq [Opt (Discard (ch "-")); lc ";"]).
Theorem C67_optional_refuted :
  exists s, run_session noenv 99 TNil VNil C67_opt [Feed (txt "-;-;-;-;-;") false; Consume] = Done s /\ s_res s = None
  /\ marks R0 0 false C67_opt < length (cs_marks (w_src (s_world s))) + cs_starved (w_src (s_world s)).
Proof. eexists. cases; [calc|calc|]. vm_compute. repeat constructor. Qed.
Print Assumptions C67_optional_refuted.
