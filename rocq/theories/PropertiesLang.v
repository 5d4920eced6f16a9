(** C57: patterns as context-free grammars. *)
From Coq Require Import String List ZArith Bool Arith Lia.
From Verif Require Import Base CharSet Source Dst Pattern Parser Session.
From Verif Require Import SpecSession SpecPeg SpecRun SpecTerm SpecNil SpecGuide SpecLang.
From Verif Require Import Leaf PegSound Run Comb LangRun LangDemo Demo NestThms PropertiesGrammar.
Import ListNotations.
Local Open Scope string_scope.
Local Open Scope list_scope.

(** ** C57 *)

(** [lang env ws (FOne p)] (SpecLang.v): the texts of the pattern, read as a context-free
    grammar.  [one_ahead env ws p K]: the next character decides how to go on, if what follows
    is in [K]. *)

(** A text of the pattern is read, all of it and no more.  Partial: the patterns of C11. *)
Theorem C57_texts_are_read_partial :
  forall T env p K, known T env -> inclass T false p = true -> one_ahead env none p K ->
  forall u rest, Forall (tok T) (u ++ rest) -> lang env none (FOne p) u -> K (hd_error rest) ->
  obeys env p (u ++ rest) (Some rest).
Proof. intros T env p K Hk Hc Ho u rest. intros. eapply written_read; eauto. Qed.
Print Assumptions C57_texts_are_read_partial.

Theorem C57_texts_are_read_below_a_skipper_partial :
  forall T env skp ws p K, known T env -> skipper T skp = true -> onechars skp = true -> (forall z, tok T z -> ws z = passes1 skp z) ->
  inclass T true p = true -> one_ahead env ws p K ->
  forall u rest, Forall (tok T) (u ++ rest) -> lang env ws (FOne p) u -> K (next ws rest) ->
  obeys_upto (chars ws) env (WithSkipper p skp) (u ++ rest) (Some rest).
Proof. intros. eapply written_read_sk; eauto. Qed.
Print Assumptions C57_texts_are_read_below_a_skipper_partial.

(** What is read is a text of the pattern, whether the next character decides or not. *)
Theorem C57_what_is_read_is_a_text_partial :
  forall T env p, known T env -> inclass T false p = true ->
  (forall id q, env id = Some q -> onechar_skippers q = true) -> onechar_skippers p = true ->
  forall n t v inp w, Forall (tok T) inp -> parse env n t v p inp = Done (SUCCESS, w) ->
  exists u, inp = u ++ left_at w /\ lang env none (FOne p) u.
Proof. intros T env p Hk Hc Ho1 Ho2 n t v inp w. intros. eapply read_written; eauto. Qed.
Print Assumptions C57_what_is_read_is_a_text_partial.

Theorem C57_what_is_read_below_a_skipper_partial :
  forall T env skp ws p, known T env -> skipper T skp = true -> onechars skp = true -> (forall z, tok T z -> ws z = passes1 skp z) ->
  inclass T true p = true -> (forall id q, env id = Some q -> onechar_skippers q = true) -> onechar_skippers p = true ->
  forall n t v inp w, Forall (tok T) inp -> parse env n t v (WithSkipper p skp) inp = Done (SUCCESS, w) ->
  exists u s, inp = u ++ s /\ trim (chars ws) (left_at w) = trim (chars ws) s /\ lang env ws (FOne p) u.
Proof. intros. eapply read_written_sk; eauto. Qed.
Print Assumptions C57_what_is_read_below_a_skipper_partial.

(** Whole texts, at once or in pieces: p >> eoi says whether the text is one of the grammar. *)
Theorem C57_grammar_is_decided_partial :
  forall T env eager rank p, known T env -> all_guarded eager rank env -> guarded eager rank None p = true ->
  inclass T false p = true -> inclass T false (Seq [p; Eoi]) = true -> one_ahead env none p (fun o => o = None) ->
  forall l, complete l -> Forall (tok T) (fed l) ->
  (lang env none (FOne p) (fed l) -> session_obeys env (Seq [p; Eoi]) l SUCCESS) /\
  (~ lang env none (FOne p) (fed l) -> session_obeys env (Seq [p; Eoi]) l FAILURE).
Proof. intros. eapply whole_pieces; eauto. Qed.
Print Assumptions C57_grammar_is_decided_partial.

Theorem C57_grammar_is_decided_below_a_skipper_partial :
  forall T env eager rank skp ws p, known T env -> all_guarded eager rank env -> guarded eager rank None p = true ->
  skipper T skp = true -> onechars skp = true -> (forall z, tok T z -> ws z = passes1 skp z) ->
  inclass T true p = true -> inclass T true (Seq [p; Eoi]) = true -> one_ahead env ws p (fun o => o = None) ->
  forall l, complete l -> Forall (tok T) (fed l) ->
  let text := exists u b, fed l = u ++ b /\ lang env ws (FOne p) u /\ Forall (fun z => ws z = true) b in
  (text -> session_obeys env (WithSkipper (Seq [p; Eoi]) skp) l SUCCESS) /\
  (~ text -> session_obeys env (WithSkipper (Seq [p; Eoi]) skp) l FAILURE).
Proof. intros. eapply whole_sk_pieces; eauto. Qed.
Print Assumptions C57_grammar_is_decided_below_a_skipper_partial.

(** JSON, as far as integers go (LangDemo.v): whatever the value, however deep and however
    blanks are put, what is written for it is accepted, in pieces of any size. *)
Theorem C57_json :
  forall b j l, Forall (fun z => LangDemo.blank z = true) b -> jgood j ->
  complete l -> fed l = b ++ jrender b j -> Forall (tok ct_char) (fed l) ->
  session_obeys json_env (Seq [json; Eoi]) l SUCCESS.
Proof.
  intros b j l Hb Hj Hl E Ht.
  apply (C57_grammar_is_decided_partial ct_char json_env (fun _ => true) (fun _ => 0) json json_known json_guarded
    eq_refl (proj1 json_class) (proj2 json_class) json_ahead l Hl Ht). rewrite E. now apply json_b.
Qed.
Print Assumptions C57_json.

Definition C57_value : jv :=
  JObject (FItem (txt "a""\b") (JArray (JItem (JInt true 49 []) (JItem JNull (JItem (JObject FEnd) JEnd)))) (FItem [] (JString (txt "[")) FEnd)).
Definition C57_l : list call :=
  [Feed (txt " { ""a\") false; Consume; Feed (txt """\\b"" : [ -1 , nu") false; Consume; Feed (txt "ll , { } ] , """" : ""["" } ") true; Consume].
Example C57_json_example :
  Forall (fun z => LangDemo.blank z = true) (txt " ") /\ jgood C57_value /\ complete C57_l /\ fed C57_l = txt " " ++ jrender (txt " ") C57_value
  /\ Forall (tok ct_char) (fed C57_l).
Proof.
  cases; try calc; [repeat constructor|repeat constructor| |chars].
  exists (removelast C57_l). cases; calc.
Qed.

(** The conditions hold of it, and of the nested lists of the guide below a skipper. *)
Example C57_example :
  known ct_char json_env /\ inclass ct_char false json = true /\ inclass ct_char false (Seq [json; Eoi]) = true
  /\ one_ahead json_env none json (fun o => o = None)
  /\ all_guarded (fun _ => true) (fun _ => 0) json_env /\ guarded (fun _ => true) (fun _ => 0) None json = true
  /\ lang json_env none (FOne json) (fed C57_l).
Proof.
  pose proof json_known. pose proof json_ahead. pose proof json_guarded. pose proof json_class. cases; try tauto; try calc.
  rewrite (proj1 (proj2 (proj2 (proj2 C57_json_example)))). apply json_b; apply C57_json_example.
Qed.

(** A list in front of a semicolon. *)
Lemma C57_list_ahead : one_ahead noenv none (PList int_ (lc ",")) (fun o => o = Some 59%Z).
Proof.
  exists (fun _ => false), (fun _ _ => False), (fun _ _ _ => False), (fun _ => 0). split; [intros id q [=]|].
  ll_auto (PList int_ (lc ",")).
Qed.
Example C57_list_example :
  inclass ct_char false (PList int_ (lc ",")) = true /\ one_ahead noenv none (PList int_ (lc ",")) (fun o => o = Some 59%Z)
  /\ exists u, txt "1,-22;x" = u ++ txt ";x" /\ lang noenv none (FOne (PList int_ (lc ","))) u.
Proof.
  cases; [calc|exact C57_list_ahead|].
  destruct (C57_what_is_read_is_a_text_partial ct_char noenv (PList int_ (lc ",")) ltac:(split; [discriminate|split; intros ? ? [=]]) eq_refl ltac:(intros ? ? [=]) eq_refl
    99 TNil VNil (txt "1,-22;x")) with (w := World (sf_make (txt ";x")) [VNil] (@nil event)) as (u & E & H); [chars|calc|].
  exists u. auto.
Qed.

(** lit(' ') | char_("\t\r\n") *)
Definition C57_ws : pat := Alt [Discard (Char (CSingle ct_char 32)); Char (set_of_cstr [9; 13; 10; 0]%Z)].
Example C57_skipper_example :
  known ct_char nest_env /\ skipper ct_char C57_ws = true /\ onechars C57_ws = true /\ (forall z, tok ct_char z -> LangDemo.blank z = passes1 C57_ws z)
  /\ inclass ct_char true nest = true /\ inclass ct_char true (Seq [nest; Eoi]) = true
  /\ one_ahead nest_env LangDemo.blank nest (fun o => o = None)
  /\ all_guarded (fun _ => true) (fun _ => 0) nest_env /\ guarded (fun _ => true) (fun _ => 0) None nest = true
  /\ exists w, parse nest_env 99 TNil VNil (WithSkipper nest C57_ws) (txt " ( 1,( +2), ( ) ) ") = Done (SUCCESS, w).
Proof.
  pose proof nest_known. pose proof nest_ahead. pose proof nest_guarded. cases; try tauto; try calc.
  - intros z _. unfold LangDemo.blank. cbn. destruct (Z.eqb_spec z 32); subst; cbn; rewrite ?orb_false_r; auto.
  - eexists. calc.
Qed.

(** What comes next has to decide: "ab" is a text of 'a' | "ab", and (('a' | "ab") >> eoi) refuses it. *)
Theorem C57_next_character_needed :
  exists p u, inclass ct_char false p = true /\ lang noenv none (FOne p) u /\ says noenv (Seq [p; Eoi]) u None.
Proof.
  exists (Alt [Lit (txt "a"); Lit (txt "ab")]), (txt "ab"). cases; [calc| |run].
  eapply l_alt; [right; left; reflexivity|]. constructor. exists []. repeat split. constructor.
Qed.
Print Assumptions C57_next_character_needed.

(** Outside of the patterns of C11: repeat<3, 2> is satisfied with two. *)
Theorem C57_refuted :
  exists p u, says noenv p u (Some []) /\ ~ lang noenv none (FOne p) u.
Proof.
  exists (Repeat 3 2 (ch "a")), (txt "aa"). cases; [run|].
  intros H. inversion H; subst. lia.
Qed.
Print Assumptions C57_refuted.
