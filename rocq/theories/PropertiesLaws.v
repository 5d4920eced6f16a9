(** C54, C55: validation; the laws by which grammars are rewritten. *)
From Coq Require Import String List ZArith Bool Arith Lia.
From Verif Require Import Base CharSet Source Dst Pattern Parser Session.
From Verif Require Import SpecSession SpecPeg SpecRun SpecValue SpecTerm SpecType SpecNil SpecGuide SpecLaws.
From Verif Require Import Leaf PegSound Run Comb NestThms NilThms LawsThms Demo PropertiesGrammar.
Import ListNotations.
Local Open Scope string_scope.
Local Open Scope list_scope.

(** ** C54 *)

(** [wellformed] (SpecNil.v): there are no actions and no as<..>(), nothing is empty, what is
    skipped consumes, every Recur is defined.  Then nothing but an endless loop can go wrong,
    nothing is stored, nobody is called. *)
Theorem C54_validation_goes_well_partial :
  forall env p, all_wellformed env -> wellformed env false p = true ->
  (forall n inp,
   match parse env n TNil VNil p inp with
   | Err e => e = EFuel
   | Done (r, w) => w_cells w = [VNil] /\ w_trace w = []
   end) /\
  (forall n l, legal l = true ->
   match run_session env n TNil VNil p l with
   | Err e => e = EFuel
   | Done s => w_cells (s_world s) = [VNil] /\ w_trace (s_world s) = []
   end).
Proof. intros env p He W. split; intros; [now apply nil_run|now apply nil_session]. Qed.
Print Assumptions C54_validation_goes_well_partial.

(** [guarded] (SpecTerm.v): no endless loop either. *)
Theorem C54_validation_answers_partial :
  forall env eager rank p inp, all_wellformed env -> all_guarded eager rank env ->
  wellformed env false p = true -> guarded eager rank None p = true ->
  exists r s, (r = SUCCESS \/ r = FAILURE) /\ does env p TNil VNil inp r s VNil [].
Proof. intros env eager rank p inp He Hg. exact (nil_total env He eager rank Hg p inp). Qed.
Print Assumptions C54_validation_answers_partial.

Theorem C54_validation_in_pieces_answers_partial :
  forall env eager rank p l, all_wellformed env -> all_guarded eager rank env -> complete l ->
  wellformed env false p = true -> guarded eager rank None p = true ->
  exists r, (r = SUCCESS \/ r = FAILURE) /\ delivers env p TNil VNil l r VNil [].
Proof. intros env eager rank p l He Hg. exact (nil_delivers env He eager rank Hg p l). Qed.
Print Assumptions C54_validation_in_pieces_answers_partial.

Example C54_example :
  all_wellformed nest_env /\ all_guarded (fun _ => true) (fun _ => 0) nest_env
  /\ wellformed nest_env false nest_doc_ws = true /\ guarded (fun _ => true) (fun _ => 0) None nest_doc_ws = true
  /\ complete [Feed (txt "( 1,(+2") false; Consume; Feed (txt "), ())") true; Consume]
  /\ exists w, parse nest_env 99 TNil VNil nest_doc_ws (txt "( 1,(+2), ())") = Done (SUCCESS, w).
Proof.
  cases; try calc; [intros [|id] q [= <-]; calc|exact nest_guarded| |eexists; calc].
  exists [Feed (txt "( 1,(+2") false; Consume; Feed (txt "), ())") true]. cases; calc.
Qed.

(** as<int, int>() does not compile with Nil. *)
Theorem C54_refuted :
  exists p inp w, parse noenv 99 (TUser 3) (VUser 3 []) p inp = Done (SUCCESS, w)
  /\ parse noenv 99 TNil VNil p inp = Err EType.
Proof. exists pair_, (txt "1,2"). eexists. cases; calc. Qed.
Print Assumptions C54_refuted.

(** ** C55 *)

(** [law] (SpecLaws.v).  Partial: for the patterns of C11. *)
Theorem C55_rewritten_patterns_recognise_the_same_partial :
  forall T env p q inp, known T env -> inclass T false p = true -> inclass T false q = true -> Forall (tok T) inp ->
  law env p q -> forall r, says env p inp r -> obeys env q inp r.
Proof. exact laws_parse. Qed.
Print Assumptions C55_rewritten_patterns_recognise_the_same_partial.

Theorem C55_also_below_a_skipper_partial :
  forall T env p q inp skp ws, known T env -> inclass T true p = true -> inclass T true q = true -> Forall (tok T) inp ->
  skipper T skp = true -> (forall s, Forall (tok T) s -> ws s = passes skp s) ->
  law env p q -> forall r, says_upto ws env (WithSkipper p skp) inp r -> obeys_upto ws env (WithSkipper q skp) inp r.
Proof. exact laws_parse_skipping. Qed.
Print Assumptions C55_also_below_a_skipper_partial.

(** [ 1 , 2 ]: a list, and what it amounts to. *)
Definition C55_p : pat := Seq [lc "["; PList int_ (lc ","); lc "]"].
Definition C55_q : pat := Seq [lc "["; Repeat 0 1 (Seq [int_; star (Seq [lc ","; int_])]); lc "]"].
Example C55_law env : law env C55_p C55_q.
Proof.
  apply (law_seq env [lc "["] [lc "]"]). eapply law_trans; [apply law_separated|]. apply law_sym, law_at_most_one.
Qed.
Example C55_example :
  inclass ct_char false C55_p = true /\ inclass ct_char false C55_q = true
  /\ inclass ct_char true C55_p = true /\ inclass ct_char true C55_q = true /\ Forall (tok ct_char) (txt "[1,-2]x")
  /\ says noenv C55_p (txt "[1,-2]x") (Some (txt "x")) /\ says noenv C55_q (txt "[1,-2]x") (Some (txt "x"))
  /\ says_upto blank noenv (WithSkipper C55_p blanks) (txt " [ 1 ,-2] x") (Some (txt "x"))
  /\ says_upto blank noenv (WithSkipper C55_q blanks) (txt " [ 1 ,-2] x") (Some (txt "x")).
Proof. cases; [calc|calc|calc|calc|chars|run|run|run|run]. Qed.

(** -p is p | pass, but not where something around holds a mark. *)
Theorem C55_refuted :
  exists p q inp s, law noenv p q /\ says noenv p inp None /\ says noenv q inp (Some s).
Proof.
  exists (Alt [leaky; Lit (txt "xyw")]), (Alt [Seq [lc "x"; Alt [lc "y"; Pass]; lc "z"]; Lit (txt "xyw")]), (txt "xyw"), [].
  cases; [|run|run]. apply (law_alt noenv [] [Lit (txt "xyw")]), (law_seq noenv [lc "x"] [lc "z"]), law_optional.
Qed.
Print Assumptions C55_refuted.
