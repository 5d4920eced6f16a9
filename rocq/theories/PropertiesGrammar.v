(** C11, C12, C14-C18, C35, C36: what patterns recognise.

    [inclass T sk p] is computed from the pattern.  It leaves out what the library gets
    wrong (the refutations are below, and in PropertiesSkipLocal.v): an
    Optional where something around it holds a mark, symbol(map<char,..>), an empty key in
    a symbol table, Int with at most one digit, numbers over another type than char or in a
    base the library does not support, a maximum below the minimum and, where there is a
    skipper ([sk]), lexeme and apply_skipper over something that takes a mark when it is
    created; for apply_skipper below the top see there.  [known]
    says the same of the definitions of Recur patterns. *)
From Coq Require Import String List ZArith Bool Arith.
From Verif Require Import Base CharSet Source Dst Pattern Parser Session.
From Verif Require Import SpecSession SpecPeg SpecRun Leaf PegSound Run Comb SkipAlone Demo.
Import ListNotations.
Local Open Scope string_scope.
Local Open Scope list_scope.

Ltac cases := repeat match goal with |- _ /\ _ => apply conj end.
Ltac calc := vm_compute; reflexivity.
(** The input is made of characters. *)
Ltac chars := unfold tok; repeat (constructor; [calc|]); constructor.
(** parse() gives this answer. *)
Ltac run := exists TNil, VNil, 99; eexists; cbv beta iota; match goal with |- _ /\ _ => split; calc | |- _ => calc end.

Lemma known_none : known ct_char noenv.
Proof. split; [discriminate|]. split; discriminate. Qed.

(** lit('x') >> -lit('y') >> lit('z'). *)
Definition leaky : pat := Seq [lc "x"; Opt (lc "y"); lc "z"].

(** ** C11 *)

Theorem C11_parse_follows_grammar_partial :
  forall T env p inp, known T env -> inclass T false p = true -> Forall (tok T) inp ->
  (forall n t v r w, parse env n t v p inp = Done (r, w) ->
     match r with
     | SUCCESS => m env nows (One p) inp (Some (left_at w))
     | FAILURE => m env nows (One p) inp None
     | PARTIAL => False
     end) /\
  (forall r, m env nows (One p) inp r -> obeys env p inp r).
Proof. exact grammar. Qed.
Print Assumptions C11_parse_follows_grammar_partial.

(** The same below apply_skipper(p, skp), up to skippable text where it stops.  The skipper
    skips single characters or, behind these, longer texts: char_(" \n") | ("/*" >>
    *(char_ - "*/") >> "*/").  What comes first must take no mark when it is created, see
    C35_refuted. *)
Theorem C11_skipping_parse_follows_grammar_partial :
  forall T env p inp skp ws, known T env -> inclass T true p = true -> Forall (tok T) inp ->
  skipper T skp = true -> (forall s, Forall (tok T) s -> ws s = passes skp s) ->
  (forall n t v r w, parse env n t v (WithSkipper p skp) inp = Done (r, w) ->
     match r with
     | SUCCESS => exists s, m env ws (One p) inp (Some s) /\ trim ws (left_at w) = trim ws s
     | FAILURE => m env ws (One p) inp None
     | PARTIAL => False
     end) /\
  (forall r, m env ws (One p) inp r -> obeys_upto ws env (WithSkipper p skp) inp r).
Proof. exact grammar_skipping. Qed.
Print Assumptions C11_skipping_parse_follows_grammar_partial.

(** Nested lists of numbers and words; [0] stands for a list. *)
Definition C11_item : pat := Alt [int_; Symbol [(txt "nil", VNum 0); (txt "nilly", VNum 1)]; Recur 0 true].
Definition C11_list : pat := Seq [lc "["; PList C11_item (lc ","); lc "]"].
Definition C11_env : nat -> option pat := fun id => match id with 0 => Some C11_list | _ => None end.
Definition C11_p : pat := Seq [C11_list; Opt (lc ";"); Not any].

Lemma C11_known : known ct_char C11_env.
Proof. split; [discriminate|]. split; intros [|id] q H; [injection H as <-; calc|discriminate|injection H as <-; calc|discriminate]. Qed.

Example C11_example :
  known ct_char C11_env /\ inclass ct_char false C11_p = true
  /\ Forall (tok ct_char) (txt "[[1],nilly,-2];")
  /\ says C11_env C11_p (txt "[[1],nilly,-2];") (Some [])
  /\ says C11_env C11_p (txt "[[1],nillo,-2];") None.
Proof. cases; [exact C11_known|calc|chars|run|run]. Qed.

Definition blank : gap := SpecPeg.chars (fun c => existsb (Z.eqb c) [32; 9; 13; 10]%Z).
Definition blanks : pat := Char (set_of_cstr [32; 9; 13; 10; 0]%Z).
Lemma blank_ok s : Forall (tok ct_char) s -> blank s = passes blanks s.
Proof. intros _. symmetry. apply passes_char. Qed.

Example C11_skipping_example :
  known ct_char C11_env /\ inclass ct_char true C11_p = true /\ skipper ct_char blanks = true
  /\ (forall s, Forall (tok ct_char) s -> blank s = passes blanks s)
  /\ says C11_env (WithSkipper C11_p blanks) (txt " [ [1 ] , nilly,  - 2 ] ; ") None
  /\ says C11_env (WithSkipper C11_p blanks) (txt " [ [1 ] , nilly,  -2 ] ;") (Some []).
Proof. cases; [exact C11_known|calc|calc|exact blank_ok|run|run]. Qed.

(** (lit('x') >> -lit('y') >> lit('z')) | lit("xyw") on "xyw": the mark Optional leaves
    behind is the one the alternative goes back to. *)
Theorem C11_refuted :
  exists p inp, says noenv p inp None /\ m noenv nows (One p) inp (Some []).
Proof.
  exists (Alt [leaky; Lit (txt "xyw")]), (txt "xyw"). split; [run|].
  apply m_alt, m_any_next; [|apply m_any, m_lit; calc].
  apply m_seq. eapply m_all; [|eapply m_all].
  - apply m_discard. eapply m_char; calc.
  - apply m_opt, m_discard. eapply m_char; calc.
  - apply m_all_no, m_discard, m_char_no. intros a t H. vm_compute in H. injection H as <- <-. discriminate.
Qed.
Print Assumptions C11_refuted.

(** ** C12 *)

Theorem C12_alternatives_from_same_place_partial :
  forall T env, known T env ->
  forall l inp r, inclass T false (Alt l) = true -> Forall (tok T) inp ->
  first (says env) l inp r -> obeys env (Alt l) inp r.
Proof. exact comb_alt. Qed.
Print Assumptions C12_alternatives_from_same_place_partial.

Definition C12_a : pat := Seq [plus (lc "x"); Symbol [(txt "ab", VNil)]; lc "z"].
Definition C12_b : pat := Lit (txt "xxabw").
Example C12_example :
  inclass ct_char false (Alt [C12_a; C12_b; Pass]) = true /\ Forall (tok ct_char) (txt "xxabw!")
  /\ first (says noenv) [C12_a; C12_b; Pass] (txt "xxabw!") (Some (txt "!")).
Proof. cases; [calc|chars|apply fst_next; [run|]; apply fst_yes; run]. Qed.

Theorem C12_refuted :
  exists a b inp s, says noenv a inp None /\ says noenv b inp (Some s) /\ says noenv (Alt [a; b]) inp None.
Proof. exists leaky, (Lit (txt "xyw")), (txt "xyw"), []. cases; run. Qed.
Print Assumptions C12_refuted.

(** ** C14 *)

Theorem C14_repetition_greedy_and_bounded_partial :
  forall T env, known T env ->
  forall lo hi p inp r, inclass T false (Repeat lo hi p) = true -> Forall (tok T) inp ->
  greedy (says env) lo hi p inp r -> obeys env (Repeat lo hi p) inp r.
Proof. exact comb_repeat. Qed.
Print Assumptions C14_repetition_greedy_and_bounded_partial.

(** For every pattern, every destination and every way of feeding it, *p never fails. *)
Theorem C14_star_never_fails :
  forall env t v hi p n,
  (forall inp r w, parse env n t v (Repeat 0 hi p) inp = Done (r, w) -> r = SUCCESS) /\
  (forall l s, run_session env n t v (Repeat 0 hi p) l = Done s -> s_res s = Some SUCCESS \/ s_res s = None).
Proof. exact star_never_fails. Qed.
Print Assumptions C14_star_never_fails.

Definition C14_p : pat := Seq [lc "a"; lc "b"].
Example C14_example :
  inclass ct_char false (Repeat 2 3 C14_p) = true /\ Forall (tok ct_char) (txt "ababac")
  /\ greedy (says noenv) 2 3 C14_p (txt "ababac") (Some (txt "ac"))
  /\ greedy (says noenv) 2 3 C14_p (txt "abababab") (Some (txt "ab"))
  /\ greedy (says noenv) 2 3 C14_p (txt "abba") None.
Proof.
  cases; [calc|chars| | |].
  - exists 2, (txt "ac"). split; [apply row_S with (txt "abac"); [run|]; apply row_S with (txt "ac"); [run|]; apply row_0|].
    right. cases; [right; repeat constructor|run|calc].
  - exists 3, (txt "ab"). split.
    + apply row_S with (txt "ababab"); [run|]. apply row_S with (txt "abab"); [run|]. apply row_S with (txt "ab"); [run|]. apply row_0.
    + left. cases; [discriminate|reflexivity|reflexivity].
  - exists 1, (txt "ba"). split; [apply row_S with (txt "ba"); [run|]; apply row_0|].
    right. cases; [right; repeat constructor|run|calc].
Qed.

(** repeat<2,1> succeeds with one match; *(lit('x') >> -lit('y') >> lit('z')) on "xyw" does
    not stop behind its last match but in the middle of the next. *)
Theorem C14_minimum_refuted :
  exists lo hi p inp s, greedy (says noenv) lo 0 p inp None /\ says noenv (Repeat lo hi p) inp (Some s).
Proof.
  exists 2, 1, (lc "a"), (txt "ab"), (txt "b"). split; [|run].
  exists 1, (txt "b"). split; [apply row_S with (txt "b"); [run|apply row_0]|]. right. cases; [now left|run|calc].
Qed.
Print Assumptions C14_minimum_refuted.

Theorem C14_position_refuted :
  exists p inp s, greedy (says noenv) 0 0 p inp (Some inp) /\ says noenv (Repeat 0 0 p) inp (Some s) /\ s <> inp.
Proof.
  exists leaky, (txt "xyw"), (txt "yw"). split; [|split; [run|discriminate]].
  exists 0, (txt "xyw"). split; [apply row_0|]. right. cases; [now left|run|calc].
Qed.
Print Assumptions C14_position_refuted.

(** ** C15 *)

Theorem C15_not_is_lookahead_partial :
  forall T env, known T env ->
  forall p inp r, inclass T false (Not p) = true -> Forall (tok T) inp ->
  says env p inp r -> obeys env (Not p) inp (match r with Some _ => None | None => Some inp end).
Proof. exact comb_not. Qed.
Print Assumptions C15_not_is_lookahead_partial.

Theorem C15_difference_partial :
  forall T env, known T env ->
  forall a b inp, inclass T false (Except a b) = true -> Forall (tok T) inp ->
  (forall s, says env b inp (Some s) -> obeys env (Except a b) inp None) /\
  (forall r, says env b inp None -> says env a inp r -> obeys env (Except a b) inp r).
Proof. exact comb_except. Qed.
Print Assumptions C15_difference_partial.

Example C15_example :
  inclass ct_char false (Not (Lit (txt "xy"))) = true /\ inclass ct_char false (Except (plus any) (Lit (txt "xy"))) = true
  /\ says noenv (Lit (txt "xy")) (txt "xz") None /\ says noenv (Lit (txt "xy")) (txt "xyz") (Some (txt "z"))
  /\ says noenv (plus any) (txt "xz") (Some []).
Proof. cases; [calc|calc|run|run|run]. Qed.

(** !(lit('x') >> -lit('y') >> lit('z')) on "xyw" succeeds one character further on. *)
Theorem C15_refuted :
  exists p inp s, says noenv p inp None /\ says noenv (Not p) inp (Some s) /\ s <> inp.
Proof. exists leaky, (txt "xyw"), (txt "yw"). cases; [run|run|discriminate]. Qed.
Print Assumptions C15_refuted.

(** ** C16 *)

Theorem C16_list_gives_back_trailing_separator_partial :
  forall T env, known T env ->
  forall p sep inp s, inclass T false (PList p sep) = true -> Forall (tok T) inp ->
  listed (says env) p sep inp s -> obeys env (PList p sep) inp (Some s).
Proof. exact comb_list. Qed.
Print Assumptions C16_list_gives_back_trailing_separator_partial.

(** It never fails, whatever the parts are. *)
Theorem C16_list_never_fails :
  forall env t v p sep n,
  (forall inp r w, parse env n t v (PList p sep) inp = Done (r, w) -> r = SUCCESS) /\
  (forall l s, run_session env n t v (PList p sep) l = Done s -> s_res s = Some SUCCESS \/ s_res s = None).
Proof. exact list_never_fails. Qed.
Print Assumptions C16_list_never_fails.

Definition C16_e : pat := Seq [lc "a"; lc "b"].
Example C16_example :
  inclass ct_char false (PList C16_e (plus (lc ","))) = true /\ Forall (tok ct_char) (txt "ab,,ab,a")
  /\ listed (says noenv) C16_e (plus (lc ",")) (txt "ab,,ab,a") (txt ",a").
Proof.
  cases; [calc|chars|]. right. exists (txt ",,ab,a"), 1. cases; [run| |].
  - apply row_S with (txt ",a"); [exists (txt "ab,a"); split; run|apply row_0].
  - right. exists (txt "a"). split; run.
Qed.

Theorem C16_refuted :
  exists p sep inp s, listed (says noenv) p sep inp inp /\ says noenv (PList p sep) inp (Some s) /\ s <> inp.
Proof. exists leaky, (lc ","), (txt "xyw"), (txt "yw"). cases; [left; split; [run|reflexivity]|run|discriminate]. Qed.
Print Assumptions C16_refuted.

(** ** C17 *)

Theorem C17_optional_partial :
  forall T env, known T env ->
  forall p inp r, inclass T false (Opt p) = true -> Forall (tok T) inp ->
  says env p inp r -> obeys env (Opt p) inp (match r with Some s => Some s | None => Some inp end).
Proof. exact comb_opt. Qed.
Print Assumptions C17_optional_partial.

Theorem C17_optional_never_fails :
  forall env t v p n,
  (forall inp r w, parse env n t v (Opt p) inp = Done (r, w) -> r = SUCCESS) /\
  (forall l s, run_session env n t v (Opt p) l = Done s -> s_res s = Some SUCCESS \/ s_res s = None).
Proof. exact opt_never_fails. Qed.
Print Assumptions C17_optional_never_fails.

Example C17_example :
  inclass ct_char false (Opt (Lit (txt "xy"))) = true
  /\ says noenv (Lit (txt "xy")) (txt "xz") None /\ says noenv (Opt (Lit (txt "xy"))) (txt "xz") (Some (txt "xz"))
  /\ says noenv (Opt (Lit (txt "xy"))) (txt "xyz") (Some (txt "z")).
Proof. cases; [calc|run|run|run]. Qed.

(** It disturbs what encloses it: with lit('y') in place of -lit('y'), on an input where
    both match the same, the alternative goes on to its second branch. *)
Theorem C17_refuted :
  exists a b c d inp,
  says noenv (Alt [Seq [a; b; c]; d]) inp (Some []) /\ says noenv (Alt [Seq [a; Opt b; c]; d]) inp None /\
  says noenv (Seq [a; b; c]) inp None /\ says noenv (Seq [a; Opt b; c]) inp None.
Proof. exists (lc "x"), (lc "y"), (lc "z"), (Lit (txt "xyw")), (txt "xyw"). cases; run. Qed.
Print Assumptions C17_refuted.

(** ** C18 *)

Theorem C18_alternative_gives_back_what_it_read_partial :
  forall T env, known T env ->
  forall n t v l inp w, inclass T false (Alt l) = true -> Forall (tok T) inp ->
  parse env n t v (Alt l) inp = Done (FAILURE, w) -> left_at w = inp.
Proof. exact alt_clean. Qed.
Print Assumptions C18_alternative_gives_back_what_it_read_partial.

Example C18_example :
  inclass ct_char false (Alt [C12_a; C12_b]) = true
  /\ exists w, parse noenv 99 TNil VNil (Alt [C12_a; C12_b]) (txt "xxabq") = Done (FAILURE, w).
Proof. split; [calc|]. eexists. calc. Qed.

(** After Optional; and with Int<10,1,1>, which is taken to fail cleanly but reads a sign. *)
Theorem C18_optional_refuted :
  exists l inp w, parse noenv 99 TNil VNil (Alt l) inp = Done (FAILURE, w) /\ left_at w <> inp.
Proof. exists [leaky; Fail], (txt "xyw"). eexists. split; [calc|discriminate]. Qed.
Print Assumptions C18_optional_refuted.

Theorem C18_int_refuted :
  exists l inp w, parse noenv 99 int32 (VNum 0) (Alt l) inp = Done (FAILURE, w) /\ left_at w <> inp.
Proof. exists [Int 10 1 1; Fail], (txt "-a"). eexists. split; [calc|discriminate]. Qed.
Print Assumptions C18_int_refuted.

(** ** C35 *)

(** Skippable text in front makes no difference. *)
Theorem C35_text_in_front_is_skipped_partial :
  forall T env, known T env ->
  forall skp ws, skipper T skp = true -> (forall s, Forall (tok T) s -> ws s = passes skp s) ->
  forall p s s2 r, inclass T true p = true -> Forall (tok T) s -> Forall (tok T) s2 ->
  trim ws s = trim ws s2 ->
  says env (WithSkipper p skp) s r -> obeys_upto ws env (WithSkipper p skp) s2 r.
Proof. exact skip_leading. Qed.
Print Assumptions C35_text_in_front_is_skipped_partial.

(** A skipper that finds nothing to skip makes no difference. *)
Theorem C35_nothing_to_skip_partial :
  forall T env, known T env ->
  forall skp ws, skipper T skp = true -> (forall s, Forall (tok T) s -> ws s = passes skp s) ->
  forall p s r, inclass T true p = true -> Forall (tok T) s -> (forall a b, s = a ++ b -> ws b = 0) ->
  says env p s r -> obeys_upto ws env (WithSkipper p skp) s r.
Proof. exact skip_free. Qed.
Print Assumptions C35_nothing_to_skip_partial.

(** Every part is read below the skipper: the parts may be run one by one. *)
Theorem C35_parts_skip_partial :
  forall T env, known T env ->
  forall skp ws, skipper T skp = true -> (forall s, Forall (tok T) s -> ws s = passes skp s) ->
  let says' : answer := fun p => says env (WithSkipper p skp) in
  let obeys' : answer := fun p => obeys_upto ws env (WithSkipper p skp) in
  (forall l s r, inclass T true (Seq l) = true -> Forall (tok T) s -> through says' l s r -> obeys' (Seq l) s r) /\
  (forall l s r, inclass T true (Alt l) = true -> Forall (tok T) s -> first says' l s r -> obeys' (Alt l) s r) /\
  (forall lo hi p s r, inclass T true (Repeat lo hi p) = true -> Forall (tok T) s ->
     greedy says' lo hi p s r -> obeys' (Repeat lo hi p) s r) /\
  (forall p sep s s', inclass T true (PList p sep) = true -> Forall (tok T) s ->
     listed says' p sep s s' -> obeys' (PList p sep) s (Some s')) /\
  (forall p s r, inclass T true (Not p) = true -> Forall (tok T) s ->
     says' p s r -> obeys' (Not p) s (match r with Some _ => None | None => Some s end)) /\
  (forall p s r, inclass T true (Opt p) = true -> Forall (tok T) s ->
     says' p s r -> obeys' (Opt p) s (match r with Some t => Some t | None => Some s end)) /\
  (forall a b s, inclass T true (Except a b) = true -> Forall (tok T) s ->
     (forall t, says' b s (Some t) -> obeys' (Except a b) s None) /\
     (forall r, says' b s None -> says' a s r -> obeys' (Except a b) s r)).
Proof. exact skip_parts. Qed.
Print Assumptions C35_parts_skip_partial.

Example C35_example :
  inclass ct_char true C11_p = true
  /\ trim blank (txt "  [1]") = trim blank (txt "[1]")
  /\ says C11_env (WithSkipper C11_p blanks) (txt "  [1]") (Some [])
  /\ (forall a b, txt "[1]" = a ++ b -> blank b = 0) /\ says C11_env C11_p (txt "[1]") (Some [])
  /\ through (fun p => says noenv (WithSkipper p blanks)) [lc "x"; lc "y"] (txt " x   y") (Some []).
Proof.
  cases; [calc|calc|run| |run|].
  { intros a b E. cbn in E. do 3 (destruct a as [|? a]; [cbn in E; now rewrite <- E|injection E as _ E]).
    destruct a; [cbn in E; now rewrite <- E|discriminate]. }
  apply thr_next with (txt "   y"); [run|]. apply thr_next with []; [run|]. apply thr_end.
Qed.

(** What is skipped is what the skipper matches: run on its own it reads these characters,
    and fails where nothing is skipped. *)
Theorem C35_skipper_skips_what_it_matches_partial :
  forall T env, known T env ->
  forall skp s, skipper T skp = true -> Forall (tok T) s ->
  (passes skp s = 0 -> obeys env skp s None) /\
  (forall k, passes skp s = S k -> obeys env skp s (Some (skipn (S k) s))) /\
  (says env skp s None -> passes skp s = 0) /\
  (forall t, says env skp s (Some t) -> exists u, s = u ++ t /\ u <> [] /\ passes skp s = List.length u).
Proof. exact (fun T env Hk skp s => alone T (proj1 Hk) env Hk skp s). Qed.
Print Assumptions C35_skipper_skips_what_it_matches_partial.

Definition C36_p : pat := Seq [lc "x"; plus (Char (CRange ct_char 48 57))].
(** Comments: char_(" \t\r\n") | ("/*" >> *(char_ - "*/") >> "*/") | ("//" >> *(char_ - '\n') >> '\n').
    A comment that is not closed is not skipped. *)
Definition comments : pat :=
  Alt [blanks;
       Seq [Lit (txt "/*"); Repeat 0 0 (Except any (Lit (txt "*/"))); Lit (txt "*/")];
       Seq [Lit (txt "//"); Repeat 0 0 (Except any (Discard (Char (CSingle ct_char 10)))); Discard (Char (CSingle ct_char 10))]].
Definition C35_text : list Z := txt "/* a list */ [ [1 ] //one" ++ [10]%Z ++ txt ", nilly/**/,/* * */  -2 ] ;".
Example C35_comment_example :
  skipper ct_char comments = true /\ known ct_char C11_env /\ inclass ct_char true C11_p = true
  /\ Forall (tok ct_char) C35_text
  /\ passes comments (txt "/* * / */x") = 9 /\ passes comments (txt "/* * / x") = 0 /\ passes comments (txt "x /**/") = 0
  /\ says noenv comments (txt "/* * / */x") (Some (txt "x"))
  /\ trim (passes comments) (txt " /* a */ // b" ++ [10]%Z ++ txt "c") = txt "c"
  /\ says C11_env (WithSkipper C11_p comments) C35_text (Some [])
  /\ says C11_env (WithSkipper C11_p comments) (txt "[1 /* ]") None
  /\ through (fun p => says noenv (WithSkipper p comments)) [lc "x"; lc "/"; lc "y"] (txt " x/*y*// y") (Some [])
  /\ trim (passes comments) (txt "/**/[1]") = trim (passes comments) (txt "[1]")
  /\ says noenv C36_p (trim (passes comments) (txt " /*x*/ x12/**/3")) (Some (txt "/**/3")).
Proof.
  cases; [calc|exact C11_known|calc|chars|calc|calc|calc|run|calc|run|run| |calc|run].
  apply thr_next with (txt "/*y*// y"); [run|]. apply thr_next with (txt " y"); [run|]. apply thr_next with []; [run|]. apply thr_end.
Qed.

(** A skipper that does not fail cleanly, lit("--"): +uint_ reads "12" but not "--12". *)
Theorem C35_refuted :
  exists p sk front rest,
  says noenv sk front (Some []) /\
  says noenv (WithSkipper p sk) rest (Some []) /\ says noenv (WithSkipper p sk) (front ++ rest) None.
Proof. exists (plus uint_), (Lit (txt "--")), (txt "--"), (txt "12"). cases; run. Qed.
Print Assumptions C35_refuted.

(** ** C36 *)

Theorem C36_lexeme_switches_skipper_off_partial :
  forall T env, known T env ->
  forall skp ws, skipper T skp = true -> (forall s, Forall (tok T) s -> ws s = passes skp s) ->
  forall p s r, inclass T true (Lexeme p) = true -> Forall (tok T) s ->
  says env p (trim ws s) r -> obeys_upto ws env (WithSkipper (Lexeme p) skp) s r.
Proof. exact skip_lexeme. Qed.
Print Assumptions C36_lexeme_switches_skipper_off_partial.

Example C36_example :
  inclass ct_char true (Lexeme C36_p) = true
  /\ says noenv C36_p (trim blank (txt "  x12 3")) (Some (txt " 3"))
  /\ says noenv C36_p (trim blank (txt "  x 12")) None
  /\ says noenv (WithSkipper C36_p blanks) (txt "  x 12") (Some []).
Proof. cases; [calc|run|run|run]. Qed.

(** lexeme(!lit('x') >> lit('1')) on " 1": Not goes back to where it was created, in front
    of the blank. *)
Theorem C36_refuted :
  exists p s, says noenv p (trim blank s) (Some []) /\ says noenv (WithSkipper (Lexeme p) blanks) s None.
Proof. exists (Seq [Not (lc "x"); lc "1"]), (txt " 1"). split; run. Qed.
Print Assumptions C36_refuted.
