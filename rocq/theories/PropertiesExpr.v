(** C62, C63: patterns written as expressions. *)
From Coq Require Import String List ZArith Bool Arith.
From Verif Require Import Base CharSet Source Dst Pattern Expr Parser Session.
From Verif Require Import SpecSession SpecPeg SpecRun SpecValue SpecLang SpecExpr Leaf PegSound Run Comb LangRun ExprThms Demo PropertiesGrammar.
Import ListNotations.
Local Open Scope string_scope.
Local Open Scope list_scope.

(** ** C62 *)

(** Two expressions that differ in nothing but the parentheses of >> and |, anywhere in
    them, and that both compile: parse() and parsers do the same, step by step. *)
Theorem C62_parentheses_make_no_difference :
  forall e e' p p', regrouped e e' -> pattern_of e = Some p -> pattern_of e' = Some p' ->
  (forall env n t v inp, parse env n t v p inp = parse env n t v p' inp) /\
  (forall env n t v l, run_session env n t v p l = run_session env n t v p' l).
Proof. intros e e' p p' H E E'. rewrite (regrouped_pattern e e' p p' H E E'). now split. Qed.
Print Assumptions C62_parentheses_make_no_difference.

(** uint_ >> ',' >> uint_, between parentheses or not, twice with ';' between them. *)
Definition C62_point : expr := ESeq (EPat uint_) (ESeq (EChar false (chr ",")) (EPat uint_)).
Definition C62_grouped : expr := ESeq C62_point (ESeq (EChar false (chr ";")) C62_point).
Definition C62_flat : expr :=
  ESeq (ESeq (ESeq (ESeq (ESeq (ESeq (EPat uint_) (EChar false (chr ","))) (EPat uint_)) (EChar false (chr ";"))) (EPat uint_)) (EChar false (chr ","))) (EPat uint_).
Definition C62_u : ty := TNum false 32.

Example C62_example :
  regrouped C62_grouped C62_flat /\
  pattern_of C62_grouped = Some (Seq [uint_; lc ","; uint_; lc ";"; uint_; lc ","; uint_]) /\
  pattern_of C62_flat = Some (Seq [uint_; lc ","; uint_; lc ";"; uint_; lc ","; uint_]) /\
  does noenv (Seq [uint_; lc ","; uint_; lc ";"; uint_; lc ","; uint_]) (TTuple [C62_u; C62_u; C62_u; C62_u]) (VTuple [VNum 0; VNum 0; VNum 0; VNum 0])
    (txt "1,2;3,4") SUCCESS [] (VTuple [VNum 1; VNum 2; VNum 3; VNum 4]) [].
Proof. cases; [calc|calc|calc|exists 99; eexists; cases; calc]. Qed.

(** Other parentheses than those of the operators do make one: bind_dst() around an operand
    gives it one element of the destination, parentheses do not. *)
Definition C62_bound : expr := ESeq (EBind C62_point) (ESeq (EChar false (chr ";")) (EBind C62_point)).
Definition C62_two : ty := TTuple [TTuple [C62_u; C62_u]; TTuple [C62_u; C62_u]].
Definition C62_two_0 : val := VTuple [VTuple [VNum 0; VNum 0]; VTuple [VNum 0; VNum 0]].
Theorem C62_a_group_is_not_an_element_refuted :
  exists e e' p p' t v inp, e = ESeq C62_point (ESeq (EChar false (chr ";")) C62_point) /\
  e' = ESeq (EBind C62_point) (ESeq (EChar false (chr ";")) (EBind C62_point)) /\
  pattern_of e = Some p /\ pattern_of e' = Some p' /\
  (exists v', does noenv p' t v inp SUCCESS [] v' []) /\
  (exists n, parse noenv n t v p inp = Err EType).
Proof.
  exists C62_grouped, C62_bound. do 2 eexists. exists C62_two, C62_two_0, (txt "1,2;3,4").
  split; [reflexivity|]. split; [reflexivity|]. split; [calc|]. split; [calc|]. split.
  - eexists. exists 99. eexists. cases; calc.
  - exists 99. calc.
Qed.
Print Assumptions C62_a_group_is_not_an_element_refuted.

(** Both have to compile: 'a' >> ('b' >> p) does and ('a' >> 'b') >> p shifts numbers. *)
Example C62_both_compile :
  regrouped (ESeq (EChar false 97) (ESeq (EChar false 98) (EPat any))) (ESeq (ESeq (EChar false 97) (EChar false 98)) (EPat any)) /\
  pattern_of (ESeq (EChar false 97) (ESeq (EChar false 98) (EPat any))) = Some (Seq [lc "a"; lc "b"; any]) /\
  pattern_of (ESeq (ESeq (EChar false 97) (EChar false 98)) (EPat any)) = None.
Proof. cases; calc. Qed.

(** ** C63 *)

(** What an expression recognises is what its operators say of what its operands recognise,
    as it is written.  Partial: the patterns of C11. *)
Theorem C63_expressions_mean_what_they_say_partial :
  forall T env e p inp, pattern_of e = Some p -> plain_skippers e = true ->
  known T env -> inclass T false p = true -> Forall (tok T) inp ->
  (forall n t v r w, parse env n t v p inp = Done (r, w) ->
     match r with
     | SUCCESS => written env nows e inp (Some (left_at w))
     | FAILURE => written env nows e inp None
     | PARTIAL => False
     end) /\
  (forall r, written env nows e inp r -> obeys env p inp r).
Proof. exact expr_parse. Qed.
Print Assumptions C63_expressions_mean_what_they_say_partial.

Theorem C63_below_a_skipper_partial :
  forall T env e p inp skp ws, pattern_of e = Some p -> plain_skippers e = true ->
  known T env -> inclass T true p = true -> Forall (tok T) inp ->
  skipper T skp = true -> (forall s, Forall (tok T) s -> ws s = passes skp s) ->
  (forall n t v r w, parse env n t v (WithSkipper p skp) inp = Done (r, w) ->
     match r with
     | SUCCESS => exists s, written env ws e inp (Some s) /\ trim ws (left_at w) = trim ws s
     | FAILURE => written env ws e inp None
     | PARTIAL => False
     end) /\
  (forall r, written env ws e inp r -> obeys_upto ws env (WithSkipper p skp) inp r).
Proof. exact expr_parse_sk. Qed.
Print Assumptions C63_below_a_skipper_partial.

Theorem C63_in_pieces_partial :
  forall T env e p l r, pattern_of e = Some p -> plain_skippers e = true ->
  known T env -> inclass T false p = true -> complete l -> Forall (tok T) (fed l) ->
  written env nows e (fed l) r -> session_obeys env p l (verdict r).
Proof. exact expr_pieces. Qed.
Print Assumptions C63_in_pieces_partial.

Theorem C63_in_pieces_below_a_skipper_partial :
  forall T env e p l r skp ws, pattern_of e = Some p -> plain_skippers e = true ->
  known T env -> inclass T true p = true -> complete l -> Forall (tok T) (fed l) ->
  skipper T skp = true -> (forall s, Forall (tok T) s -> ws s = passes skp s) ->
  written env ws e (fed l) r -> session_obeys env (WithSkipper p skp) l (verdict r).
Proof. exact expr_pieces_sk. Qed.
Print Assumptions C63_in_pieces_below_a_skipper_partial.

(** ("let" >> +char_('a','z') >> '=' | !(char_ >> '=')) >> (int_ - "13") % ',', in which the
    strings, characters and sets become patterns. *)
Definition C63_e : expr :=
  ESeq (EAlt (ESeq (EStr (txt "let" ++ [0])%Z) (ESeq (ERep 1 0 (ESet (CRange ct_char 97 122))) (EChar false (chr "="))))
             (ENot (ESeq (EPat any) (EChar false (chr "=")))))
       (EList (EExcept (EPat int_) (EStr (txt "13" ++ [0])%Z)) (EChar false (chr ","))).
Definition C63_p : pat :=
  Seq [Alt [Seq [Lit (txt "let"); Repeat 1 0 (Char (CRange ct_char 97 122)); lc "="]; Not (Seq [any; lc "="])];
       PList (Except int_ (Lit (txt "13"))) (lc ",")].

Example C63_example :
  pattern_of C63_e = Some C63_p /\ plain_skippers C63_e = true /\ inclass ct_char false C63_p = true /\
  inclass ct_char true C63_p = true /\
  says noenv C63_p (txt "letx=1,-2,13") (Some (txt ",13")) /\ says noenv C63_p (txt "7=") None /\
  session_obeys noenv C63_p [Feed (txt "le") false; Consume; Feed (txt "tx=1,-2,13") true; Consume] SUCCESS.
Proof.
  assert (forall inp r, Forall (tok ct_char) inp -> says noenv C63_p inp r -> obeys noenv C63_p inp r) as H.
  { intros inp r Ht (t & v & n & w & E). destruct (C11_parse_follows_grammar_partial ct_char noenv C63_p inp known_none) as [G1 G2]; [calc|exact Ht|].
    apply G2. destruct r; [destruct E as [E <-]; exact (G1 _ _ _ _ _ E)|exact (G1 _ _ _ _ _ E)]. }
  assert (says noenv C63_p (txt "letx=1,-2,13") (Some (txt ",13"))) as H1 by run.
  cases; [calc|calc|calc|calc|exact H1|run|].
  refine (obeys_pieces noenv C63_p [Feed (txt "le") false; Consume; Feed (txt "tx=1,-2,13") true; Consume] (Some (txt ",13")) _ _).
  - exists [Feed (txt "le") false; Consume; Feed (txt "tx=1,-2,13") true]. cases; calc.
  - apply H; [chars|exact H1].
Qed.

(** apply_skipper('a' >> int_, '_' | lit(' ')) >> ';', where blanks are skipped in front of the
    number but not in front of the semicolon. *)
Definition C63_local : expr :=
  ESeq (ESkip (ESeq (EChar false (chr "a")) (EPat int_)) (EAlt (EChar false 95) (EPat (Discard (Char (CSingle ct_char 32)))))) (EChar false (chr ";")).
Definition C63_local_p : pat := Seq [WithSkipper (Seq [lc "a"; int_]) (Alt [Discard (Char (CSingle ct_char 95)); Discard (Char (CSingle ct_char 32))]); lc ";"].
Example C63_skipper_example :
  pattern_of C63_local = Some C63_local_p /\ plain_skippers C63_local = true /\ inclass ct_char false C63_local_p = true /\
  says noenv C63_local_p (txt " a_ 1;") (Some []) /\ says noenv C63_local_p (txt " a 1 ;") None.
Proof. cases; [calc|calc|calc|run|run]. Qed.
