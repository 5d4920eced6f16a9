(** C68: patterns as parsing expression grammars with values, callbacks that are given the
    bound destination included. *)
From Coq Require Import String List ZArith Bool Arith Lia.
From Verif Require Import Base CharSet Source Dst Pattern Parser Session.
From Verif Require Import SpecSession SpecPeg SpecRun SpecValue SpecLeaf SpecType SpecAttr SpecBound.
From Verif Require Import Leaf PegSound Run Comb Pieces AttrRun BoundRun Demo MathDemo PropertiesGrammar PropertiesAttr.
Import ListNotations.
Local Open Scope string_scope.
Local Open Scope list_scope.

(** ** C68 *)

(** [reads env ws p t v inp r v' k] (SpecBound.v): read as a grammar, [p] takes an object of
    type [t], bound at the start, from [v] to [v'] and makes the calls [k]. *)

(** parse() does exactly that.  Partial: the patterns of C11, without empty sequences and
    alternatives, and symbol tables that have a key twice. *)
Theorem C68_bound_values_of_a_grammar_partial :
  forall T env p, known T env -> all_tidy env -> inclass T false p = true -> tidy p = true ->
  forall t v inp, Forall (tok T) inp -> shaped t v = true ->
  (forall s v' k, does env p t v inp SUCCESS s v' k <-> reads env nows p t v inp (Some s) v' k) /\
  (forall v' k, (exists s, does env p t v inp FAILURE s v' k) <-> reads env nows p t v inp None v' k).
Proof. intros T env p Hk He Hc Hs t v inp. exact (does_reads T env Hk He p t v inp Hc Hs). Qed.
Print Assumptions C68_bound_values_of_a_grammar_partial.

(** Below a skipper of one character. *)
Theorem C68_bound_values_below_a_skipper_partial :
  forall T env skp ws p, known T env -> all_tidy env -> skipper T skp = true ->
  (forall s, Forall (tok T) s -> ws s = passes skp s) -> inclass T true p = true -> tidy p = true ->
  forall t v inp, Forall (tok T) inp -> shaped t v = true ->
  (forall s v' k, does env (WithSkipper p skp) t v inp SUCCESS s v' k ->
     exists s', reads env ws p t v inp (Some s') v' k /\ trim ws s = trim ws s') /\
  (forall s' v' k, reads env ws p t v inp (Some s') v' k ->
     exists s, does env (WithSkipper p skp) t v inp SUCCESS s v' k /\ trim ws s = trim ws s') /\
  (forall v' k, (exists s, does env (WithSkipper p skp) t v inp FAILURE s v' k) <-> reads env ws p t v inp None v' k).
Proof. intros T env skp ws p Hk He Hf Hw Hc Hs t v inp. exact (does_reads_sk T env Hk He skp ws Hf Hw p t v inp Hc Hs). Qed.
Print Assumptions C68_bound_values_below_a_skipper_partial.

(** In pieces of any size. *)
Theorem C68_bound_values_in_pieces_partial :
  forall T env p, known T env -> all_tidy env -> inclass T false p = true -> tidy p = true ->
  forall t v l, complete l -> Forall (tok T) (fed l) -> shaped t v = true ->
  (forall v' k, delivers env p t v l SUCCESS v' k <-> exists s, reads env nows p t v (fed l) (Some s) v' k) /\
  (forall v' k, delivers env p t v l FAILURE v' k <-> reads env nows p t v (fed l) None v' k).
Proof. intros T env p Hk He Hc Hs t v l. exact (delivers_reads T env Hk He p t v l Hc Hs). Qed.
Print Assumptions C68_bound_values_in_pieces_partial.

Theorem C68_bound_values_in_pieces_below_a_skipper_partial :
  forall T env skp ws p, known T env -> all_tidy env -> skipper T skp = true ->
  (forall s, Forall (tok T) s -> ws s = passes skp s) -> inclass T true p = true -> tidy p = true ->
  forall t v l, complete l -> Forall (tok T) (fed l) -> shaped t v = true ->
  (forall v' k, delivers env (WithSkipper p skp) t v l SUCCESS v' k <->
     exists s, reads env ws p t v (fed l) (Some s) v' k) /\
  (forall v' k, delivers env (WithSkipper p skp) t v l FAILURE v' k <-> reads env ws p t v (fed l) None v' k).
Proof. intros T env skp ws p Hk He Hf Hw Hc Hs t v l. exact (delivers_reads_sk T env Hk He skp ws Hf Hw p t v l Hc Hs). Qed.
Print Assumptions C68_bound_values_in_pieces_below_a_skipper_partial.

(** The reading leaves no choice. *)
Theorem C68_one_value_partial :
  forall T env p, known T env -> all_tidy env -> inclass T false p = true -> tidy p = true ->
  forall t v inp, Forall (tok T) inp -> shaped t v = true ->
  forall r1 v1 k1 r2 v2 k2, reads env nows p t v inp r1 v1 k1 -> reads env nows p t v inp r2 v2 k2 ->
  r1 = r2 /\ v1 = v2 /\ k1 = k2.
Proof. intros T env p Hk He Hc Hs t v inp. exact (reads_one T env Hk He p t v inp Hc Hs). Qed.
Print Assumptions C68_one_value_partial.

(** Without callbacks that are given the bound destination, C58 says the same. *)
Theorem C68_agrees_with_C58_partial :
  forall T env p, known T env -> all_simple env -> inclass T false p = true -> simple p = true ->
  forall t v inp, Forall (tok T) inp -> shaped t v = true ->
  forall r v' k, reads env nows p t v inp r v' k <-> mv env nows (VOne false p) t v inp r v' k.
Proof. intros T env p Hk He Hc Hs t v inp. exact (reads_mv T env p t v inp Hk He Hc Hs). Qed.
Print Assumptions C68_agrees_with_C58_partial.
Example C68_agrees_example :
  known ct_char C58_env /\ all_simple C58_env /\ inclass ct_char false C58_list = true /\ simple C58_list = true
  /\ reads C58_env nows C58_list (TColl int32) (ints [1]%Z) C58_text (Some (txt ",(6;")) (ints [1; 5; -4]%Z) [Event 5 (VNum 4); Event 5 (VNum (-5))].
Proof.
  destruct C58_example as (HK & HS & Hc & Hs & Ti & Sh & _ & HM). cases; auto. now apply (C68_agrees_with_C58_partial ct_char).
Qed.

(** The calculator of examples/math_expression: every callback works on the bound int. *)
Definition C68_ws : gap := SpecPeg.chars (fun z => z =? 32)%Z.
Lemma C68_ws_ok s : Forall (tok ct_char) s -> C68_ws s = passes space s.
Proof. intros _. symmetry. exact (passes_char (CSingle ct_char 32) s). Qed.
Lemma C68_known : known ct_char math_env /\ all_tidy math_env.
Proof. split; [split; [discriminate|split]|]; intros [|id] q H; try discriminate H; injection H as <-; reflexivity. Qed.
Definition C68_text : list Z := txt " 7 - 2*( 3+-1);".
Definition C68_calls : list event :=
  [Event 0 (VNum 7); Event 0 (VNum 7); Event 0 (VNum 2); Event 0 (VNum 3); Event 0 (VNum 3); Event 0 (VNum (-1));
   Event 1 (VTuple [VNum 43; VNum (-1)]); Event 1 (VTuple [VNum 42; VNum 2]); Event 1 (VTuple [VNum 45; VNum 4])].
Example C68_math_example :
  known ct_char math_env /\ all_tidy math_env /\ skipper ct_char space = true /\ (forall s, Forall (tok ct_char) s -> C68_ws s = passes space s)
  /\ inclass ct_char true expr_ = true /\ tidy expr_ = true
  /\ Forall (tok ct_char) C68_text /\ shaped int32 (VNum 55) = true
  /\ does math_env math int32 (VNum 55) C68_text SUCCESS (txt ";") (VNum 3) C68_calls
  /\ exists s, reads math_env C68_ws expr_ int32 (VNum 55) C68_text (Some s) (VNum 3) C68_calls.
Proof.
  pose proof C68_known as [HK HS].
  assert (HW : forall s, Forall (tok ct_char) s -> C68_ws s = passes space s) by exact C68_ws_ok.
  assert (HD : does math_env math int32 (VNum 55) C68_text SUCCESS (txt ";") (VNum 3) C68_calls) by (exists 99; eexists; cases; calc).
  cases; [exact HK|exact HS|calc|exact HW|calc|calc|chars|calc|exact HD|].
  destruct (proj1 (C68_bound_values_below_a_skipper_partial ct_char math_env space C68_ws expr_ HK HS eq_refl HW eq_refl eq_refl int32 (VNum 55) C68_text ltac:(chars) eq_refl) _ _ _ HD)
    as (s & H & _). eauto.
Qed.

(** A structure of a word and a count: the first callback, [](char, auto p), counts the
    characters in the bound structure while the word is read into it; the alternative fails at
    its end, the second one reads the word again.  What was counted and collected before stays. *)
Definition C68_count : action :=
  Action_ 3 char8 true false (fun x b => (x, match b with VTuple [w; VNum n] => VTuple [w; VNum (n + 1)] | _ => VUndef end)).
Definition C68_word : ty := TTuple [TColl char8; int32].
Definition C68_letters : pat := plus (Act C68_count (Char (CRange ct_char 97 122))).
Definition C68_alt : pat := Alt [Seq [C68_letters; lc "!"]; Seq [C68_letters; lc "?"]].
Definition C68_l : list call := [Feed (txt "a") false; Consume; Feed (txt "b?") true; Consume].
Definition C68_seen : list event := [Event 3 (VNum 97); Event 3 (VNum 98); Event 3 (VNum 97); Event 3 (VNum 98)].
Example C68_alternative_example :
  known ct_char noenv /\ all_tidy noenv /\ inclass ct_char false C68_alt = true /\ tidy C68_alt = true
  /\ complete C68_l /\ Forall (tok ct_char) (fed C68_l) /\ shaped C68_word (VTuple [ints []; VNum 10]) = true
  /\ delivers noenv C68_alt C68_word (VTuple [ints []; VNum 10]) C68_l SUCCESS (VTuple [ints (txt "abab"); VNum 14]) C68_seen
  /\ exists s, reads noenv nows C68_alt C68_word (VTuple [ints []; VNum 10]) (txt "ab?") (Some s) (VTuple [ints (txt "abab"); VNum 14]) C68_seen.
Proof.
  assert (HL : complete C68_l) by (exists (removelast C68_l); cases; calc).
  assert (HS : all_tidy noenv) by (intros ? ? [=]).
  assert (HD : delivers noenv C68_alt C68_word (VTuple [ints []; VNum 10]) C68_l SUCCESS (VTuple [ints (txt "abab"); VNum 14]) C68_seen)
    by (apply (pieces noenv _ _ _ _ _ _ _ HL); eexists; exists 99; eexists; cases; calc).
  cases; [exact known_none|exact HS|calc|calc|exact HL|chars|calc|exact HD|].
  exact (proj1 (proj1 (C68_bound_values_in_pieces_partial ct_char noenv C68_alt known_none HS eq_refl eq_refl C68_word (VTuple [ints []; VNum 10]) C68_l HL ltac:(chars) eq_refl) _ _) HD).
Qed.

(** The change a callback made stays when the pattern fails. *)
Example C68_failure_example :
  inclass ct_char false C68_alt = true /\ tidy C68_alt = true
  /\ reads noenv nows C68_alt C68_word (VTuple [ints []; VNum 10]) (txt "a;") None (VTuple [ints (txt "aa"); VNum 12])
       [Event 3 (VNum 97); Event 3 (VNum 97)].
Proof.
  cases; [calc|calc|].
  refine (proj1 (proj2 (C68_bound_values_of_a_grammar_partial ct_char noenv C68_alt known_none _ eq_refl eq_refl _ _ _ _ _) _ _) _);
    [intros ? ? [=]|chars|calc|eexists; exists 99; eexists; cases; calc].
Qed.
