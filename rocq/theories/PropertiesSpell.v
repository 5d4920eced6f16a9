(** C57 and C59 with skippers of any kind, such as comments. *)
From Coq Require Import String List ZArith Bool Arith Lia.
From Verif Require Import Base CharSet Source Dst Pattern Parser Session.
From Verif Require Import SpecSession SpecPeg SpecRun SpecTerm SpecLeaf SpecValue SpecType SpecAttr SpecGuide SpecLang SpecSpell SpecWrite SpecSpellValue.
From Verif Require Import Leaf PegSound Run Comb LangDemo SpellRun SpellValueRun Demo NestThms SessionThms PropertiesGrammar PropertiesSkipLocal SpecJson JsonDemo JsonComments JsonCommentsRead.
Import ListNotations.
Local Open Scope string_scope.
Local Open Scope list_scope.

(** ** C57 *)

(** [spells env gp (FOne p) s t] (SpecSpell.v): between the places [s] and [t] of a text stands
    a text of the pattern, read as a context-free grammar, where [gp] tells what is skipped.
    [begins skp]: the characters what is skipped can begin with; [one_ahead env ws p K], as
    before, is to hold for those. *)

Theorem C57_texts_with_comments_are_read_partial :
  forall T env skp ws p K, known T env -> skipper T skp = true -> (forall z, begins skp z = true -> ws z = true) ->
  inclass T true p = true -> one_ahead env ws p K ->
  forall s t, Forall (tok T) s -> spells env (passes skp) (FOne p) s t -> K (upcoming (passes skp) t) ->
  obeys_upto (passes skp) env (WithSkipper p skp) s (Some t).
Proof. intros. eapply spelt_read_sk; eauto. Qed.
Print Assumptions C57_texts_with_comments_are_read_partial.

(** What is read is a text of the pattern, whether the next character decides or not; there may
    be further skippers inside. *)
Theorem C57_what_is_read_with_comments_is_a_text_partial :
  forall T env skp p, known T env -> skipper T skp = true -> inclass T true p = true ->
  forall n ty v inp w, Forall (tok T) inp -> parse env n ty v (WithSkipper p skp) inp = Done (SUCCESS, w) ->
  exists t, trim (passes skp) (left_at w) = trim (passes skp) t /\ spells env (passes skp) (FOne p) inp t.
Proof. intros. eapply read_spelt_sk; eauto. Qed.
Print Assumptions C57_what_is_read_with_comments_is_a_text_partial.

Theorem C57_what_is_read_with_inner_skippers_is_a_text_partial :
  forall T env p, known T env -> inclass T false p = true ->
  forall n ty v inp w, Forall (tok T) inp -> parse env n ty v p inp = Done (SUCCESS, w) ->
  spells env nows (FOne p) inp (left_at w).
Proof. intros. eapply read_spelt; eauto. Qed.
Print Assumptions C57_what_is_read_with_inner_skippers_is_a_text_partial.

(** Whole texts, at once or in pieces. *)
Theorem C57_grammar_with_comments_is_decided_partial :
  forall T env eager rank skp ws p, known T env -> all_guarded eager rank env -> guarded eager rank None (WithSkipper p skp) = true ->
  skipper T skp = true -> (forall z, begins skp z = true -> ws z = true) ->
  inclass T true p = true -> inclass T true (Seq [p; Eoi]) = true -> one_ahead env ws p (fun o => o = None) ->
  forall l, complete l -> Forall (tok T) (fed l) ->
  let text := exists s, spells env (passes skp) (FOne p) (fed l) s /\ trim (passes skp) s = [] in
  (text -> session_obeys env (WithSkipper (Seq [p; Eoi]) skp) l SUCCESS) /\
  (~ text -> session_obeys env (WithSkipper (Seq [p; Eoi]) skp) l FAILURE).
Proof. intros. eapply whole_spelt_pieces; eauto. Qed.
Print Assumptions C57_grammar_with_comments_is_decided_partial.

(** The nested lists of the guide with comments: char_(" \t\r\n") | ("/*" ... "*/") | ("//" ... '\n'). *)
(** [cstarts]: a blank or a slash. *)
Lemma C57_nest_ll : all_ll (fun _ => false) (fun _ => nest_first) (fun lex _ => nest_follow) (fun _ => 1) nest_env cstarts.
Proof.
  intros [|id] q E; [|discriminate]. injection E as <-. unfold nest_first, nest_follow. split; [reflexivity|split; [|split; [reflexivity|]]].
  - let x := eval vm_compute in nest_def in change nest_def with x. ll_part.
  - intros lex. destruct lex; ll_auto nest_def.
Qed.
Lemma C57_nest_ahead : one_ahead nest_env cstarts nest (fun o => o = None).
Proof. do 4 eexists. split; [exact C57_nest_ll|]. unfold nest_first, nest_follow. ll_auto nest. Qed.

(** A comment, and the sign it ends with, in two pieces. *)
Definition C57_commented : list call :=
  [Feed (txt " ( 1 /* a, *") false; Consume; Feed (txt "/, (2)// )" ++ [10]%Z) false; Consume; Feed (txt ")/**/") true; Consume].
Definition C57_uncommented : list call := [Feed (txt "(1 /* ,") false; Consume; Feed (txt " 2)") true; Consume].
Example C57_comments_example :
  known ct_char nest_env /\ all_guarded (fun _ => true) (fun _ => 0) nest_env /\ guarded (fun _ => true) (fun _ => 0) None (WithSkipper nest comments) = true
  /\ skipper ct_char comments = true /\ (forall z, begins comments z = true -> cstarts z = true)
  /\ inclass ct_char true nest = true /\ inclass ct_char true (Seq [nest; Eoi]) = true
  /\ one_ahead nest_env cstarts nest (fun o => o = None)
  /\ complete C57_commented /\ Forall (tok ct_char) (fed C57_commented)
  /\ (exists s, spells nest_env (passes comments) (FOne nest) (fed C57_commented) s /\ trim (passes comments) s = [] /\ upcoming (passes comments) s = None)
  /\ complete C57_uncommented /\ Forall (tok ct_char) (fed C57_uncommented)
  /\ ~ (exists s, spells nest_env (passes comments) (FOne nest) (fed C57_uncommented) s /\ trim (passes comments) s = []).
Proof.
  assert (L1 : complete C57_commented) by (exists (removelast C57_commented); cases; calc).
  assert (L2 : complete C57_uncommented) by (exists (removelast C57_uncommented); cases; calc).
  cases; [exact nest_known|exact nest_guarded|calc|calc|exact cstarts_all|calc|calc|exact C57_nest_ahead|exact L1|chars| |exact L2|chars|].
  - assert (R : exists w, parse nest_env 999 TNil VNil (WithSkipper nest comments) (fed C57_commented) = Done (SUCCESS, w) /\ left_at w = txt "/**/")
      by (eexists; cases; calc).
    destruct R as (w & R & E).
    destruct (C57_what_is_read_with_comments_is_a_text_partial ct_char nest_env comments nest nest_known ltac:(calc) ltac:(calc) _ _ _ (fed C57_commented) _ ltac:(chars) R) as (s & Es & Hs).
    rewrite E in Es. assert (Es' : trim (passes comments) s = []) by (rewrite <- Es; calc). exists s. cases; [exact Hs|exact Es'|]. unfold upcoming. now rewrite Es'.
  - intros (s & H1 & H2).
    pose proof (C57_texts_with_comments_are_read_partial ct_char nest_env comments cstarts nest (fun o => o = None) nest_known ltac:(calc) cstarts_all
      ltac:(calc) C57_nest_ahead (fed C57_uncommented) s ltac:(chars) H1 ltac:(unfold upcoming; now rewrite H2)) as H.
    destruct (H TNil VNil) as (o & [_ (n & Hn)] & Hr). specialize (Hn (n + 999) ltac:(lia)).
    assert (F : exists w, parse nest_env 999 TNil VNil (WithSkipper nest comments) (fed C57_uncommented) = Done (FAILURE, w)) by (eexists; calc).
    destruct F as (w & F). destruct (mono_parse nest_env TNil VNil (WithSkipper nest comments) (fed C57_uncommented) 999 (n + 999) ltac:(lia)) as [E|E]; rewrite F in E; [discriminate|].
    rewrite <- E in Hn. subst o. destruct Hr as [Hr _]. clear - Hr. discriminate Hr.
Qed.
Example C57_inner_comments_example :
  known ct_char noenv /\ inclass ct_char false C64_call2 = true /\ Forall (tok ct_char) (txt "f(1 /*;*/,2);x")
  /\ exists w, parse noenv 999 TNil VNil C64_call2 (txt "f(1 /*;*/,2);x") = Done (SUCCESS, w) /\ left_at w = txt "x".
Proof. cases; [split; [discriminate|split; intros ? ? [=]]|calc|chars|]. eexists. cases; calc. Qed.

(** ** C59 *)

(** [sv env gp (WOne false p) t v s s' v' k] (SpecSpellValue.v): between the places [s] and [s']
    stands a text the pattern can write for [v'], given [v], and the calls [k]. *)
Theorem C59_values_with_comments_are_read_partial :
  forall T env skp ws p t K, known T env -> all_simple env -> skipper T skp = true -> (forall z, begins skp z = true -> ws z = true) ->
  inclass T true p = true -> simple p = true -> one_ahead_for env ws p t K ->
  forall v s e v' k, Forall (tok T) s -> shaped t v = true -> sv env (passes skp) (WOne false p) t v s e v' k -> K (upcoming (passes skp) e) ->
  exists s', does env (WithSkipper p skp) t v s SUCCESS s' v' k /\ trim (passes skp) s' = trim (passes skp) e.
Proof. intros. eapply spelt_does; eauto. Qed.
Print Assumptions C59_values_with_comments_are_read_partial.

(** However the text is cut into pieces. *)
Theorem C59_values_with_comments_are_read_in_pieces_partial :
  forall T env skp ws p t K, known T env -> all_simple env -> skipper T skp = true -> (forall z, begins skp z = true -> ws z = true) ->
  inclass T true p = true -> simple p = true -> one_ahead_for env ws p t K ->
  forall v l e v' k, complete l -> Forall (tok T) (fed l) -> shaped t v = true ->
  sv env (passes skp) (WOne false p) t v (fed l) e v' k -> K (upcoming (passes skp) e) ->
  delivers env (WithSkipper p skp) t v l SUCCESS v' k.
Proof. intros. eapply spelt_delivers; eauto. Qed.
Print Assumptions C59_values_with_comments_are_read_in_pieces_partial.

(** A text stands for one value at most. *)
Theorem C59_a_text_with_comments_has_one_value_partial :
  forall T env skp ws p t K, known T env -> all_simple env -> skipper T skp = true -> (forall z, begins skp z = true -> ws z = true) ->
  inclass T true p = true -> simple p = true -> one_ahead_for env ws p t K ->
  forall v s e1 v1 k1 e2 v2 k2, Forall (tok T) s -> shaped t v = true -> K (upcoming (passes skp) e1) -> K (upcoming (passes skp) e2) ->
  sv env (passes skp) (WOne false p) t v s e1 v1 k1 -> sv env (passes skp) (WOne false p) t v s e2 v2 k2 ->
  trim (passes skp) e1 = trim (passes skp) e2 /\ v1 = v2 /\ k1 = k2.
Proof. intros T env skp ws p t K ? ? ? ? ? ? ? v s e1 v1 k1 e2 v2 k2. intros. exact (spelt_one T env ltac:(eassumption) ltac:(eassumption) skp ltac:(eassumption) ws p t v K s e1 v1 k1 e2 v2 k2 ltac:(eassumption) ltac:(eassumption) ltac:(eassumption) ltac:(eassumption) ltac:(eassumption) ltac:(eassumption) ltac:(assumption) ltac:(assumption) ltac:(assumption) ltac:(assumption)). Qed.
Print Assumptions C59_a_text_with_comments_has_one_value_partial.

(** JSON with comments ([commented], SpecJson.v) into objects.  The grammar is [cenv], [cdoc]
    (JsonCommentsRead.v), below the skipper for comments; in strings nothing is skipped. *)
Theorem C59_json_with_comments :
  forall j b u, gtext commented j u -> jfits j -> commented b ->
  forall v l, complete l -> fed l = b ++ u -> Forall (tok ct_char) (fed l) -> shaped (TUser 0) v = true ->
  delivers cenv cdoc (TUser 0) v l SUCCESS (jval j) [].
Proof. intros. eapply commented_read; eauto. Qed.
Print Assumptions C59_json_with_comments.

(** A text is a text of one value. *)
Theorem C59_json_with_comments_is_unambiguous :
  forall j1 b1 u1 j2 b2 u2, b1 ++ u1 = b2 ++ u2 -> commented b1 -> commented b2 -> gtext commented j1 u1 -> gtext commented j2 u2 ->
  jfits j1 -> jfits j2 -> Forall (tok ct_char) (b1 ++ u1) -> j1 = j2.
Proof. exact commented_unique. Qed.
Print Assumptions C59_json_with_comments_is_unambiguous.

(** Nothing else is read. *)
Theorem C59_json_with_comments_only :
  forall l, complete l -> Forall (tok ct_char) (fed l) -> (forall j b u, fed l = b ++ u -> commented b -> ~ gtext commented j u) ->
  session_obeys cenv cdoc l FAILURE.
Proof. exact commented_refused. Qed.
Print Assumptions C59_json_with_comments_only.

(** {"//":[1/*,2*/,null]} with a comment to the end of the line in front; the first comment and
    the end of the second come in two pieces. *)
Definition C59_cvalue : json := JObj [(txt "//", JArr [JNum 1; JNull])].
Definition C59_cl : list call :=
  [Feed (txt "/") false; Consume; Feed (txt "/ [" ++ [10]%Z ++ txt "{""//"": [1/*,2*") false; Consume; Feed (txt "/,null]} ") true; Consume].
Definition C59_cb : list Z := txt "// [" ++ [10]%Z.
Definition C59_cu : list Z := txt "{""//"": [1/*,2*/,null]} ".
Lemma C59_cgap : commented (txt "/*,2*/").
Proof.
  apply (cm_block (txt ",2") []); [|constructor]. intros x y E. apply (f_equal (@List.length Z)) in E as El. rewrite !app_length in El. cbn in El.
  destruct x as [|x0 x]; [discriminate|cbn in El; lia].
Qed.
Lemma C59_ctext : gtext commented C59_cvalue C59_cu.
Proof.
  assert (B : commented (txt " ")) by (apply cm_blank; [reflexivity|constructor]).
  assert (W : forall x, gword commented x (txt x)) by (intros x; exists []; split; [constructor|now rewrite app_nil_r]).
  assert (WB : forall x, gword commented x (txt x ++ txt " ")) by (intros x; exists (txt " "); auto).
  change C59_cu with (txt "{" ++ ((txt """" ++ txt "//" ++ txt """" ++ []) ++ (txt ":" ++ txt " ") ++ (txt "[" ++ ([] ++ txt "1" ++ txt "/*,2*/") ++ (txt "," ++ txt "null" ++ []) ++ txt "]")) ++ [] ++ (txt "}" ++ txt " ")).
  apply (jt_obj commented (txt "//", JArr [JNum 1; JNull]) [] (txt "{")); [apply W| |constructor|apply WB].
  apply jf_field; [|apply WB|].
  - exists (txt "//"), []. split; [|split; [constructor|reflexivity]]. repeat (apply jc_plain; [discriminate|discriminate|]). apply jc_end.
  - apply (jt_arr commented (JNum 1) [JNull]); [apply W| |apply jl_more; [apply W|apply jt_null, (W "null")|apply jl_end]|apply (W "]")].
    apply (jt_num [] (txt "1") (txt "/*,2*/")); [now left|split; [repeat constructor|discriminate]|exact C59_cgap].
Qed.
Example C59_comments_example :
  gtext commented C59_cvalue C59_cu /\ jfits C59_cvalue /\ commented C59_cb /\ complete C59_cl /\ fed C59_cl = C59_cb ++ C59_cu
  /\ Forall (tok ct_char) (fed C59_cl) /\ shaped (TUser 0) (VUser 0 [VNum 7]) = true
  /\ known ct_char cenv /\ all_simple cenv /\ skipper ct_char comments = true /\ inclass ct_char true cbody = true /\ simple cbody = true
  /\ one_ahead_for cenv cstarts cbody (TUser 0) (fun o => o = None)
  /\ sv cenv (passes comments) (WOne false cbody) (TUser 0) (VUser 0 [VNum 7]) (fed C59_cl) [] (jval C59_cvalue) []
  /\ upcoming (passes comments) [] = None.
Proof.
  assert (Hb : commented C59_cb) by (apply (cm_line (txt " [") []); [cbn; lia|constructor]).
  assert (Hl : complete C59_cl) by (exists (removelast C59_cl); cases; calc).
  assert (Ht : Forall (tok ct_char) (fed C59_cl)) by chars.
  assert (Hf : jfits C59_cvalue) by (cbn; lia).
  destruct cclass_ok as (K1 & K2 & K3).
  cases; [exact C59_ctext|exact Hf|exact Hb|exact Hl|calc|exact Ht|calc|exact cknown|exact csimple|exact K3|exact K1|exact K2|exact cahead| |calc].
  exact (cdoc_write C59_cvalue C59_cu C59_cb _ _ C59_ctext Hf Hb eq_refl Ht).
Qed.

(** A comment that is not closed is no gap. *)
Definition C59_cno : list call := [Feed (txt "/*1") false; Consume; Feed (txt "*") true; Consume].
Example C59_comments_only_example :
  complete C59_cno /\ Forall (tok ct_char) (fed C59_cno) /\ (forall j b u, fed C59_cno = b ++ u -> commented b -> ~ gtext commented j u).
Proof.
  cases; [exists (removelast C59_cno); cases; calc|chars|]. intros j b u E Hb Hj. change (fed C59_cno) with (txt "/*1*") in E.
  assert (b = []) as ->.
  { destruct Hb as [|z b Hz _|c b _ _|c b _ _]; [reflexivity| | |].
    - injection E as <- _. discriminate.
    - exfalso. injection E as E.
      destruct c as [|c0 c]; [discriminate|]. injection E as <- E. destruct c as [|c1 c]; [discriminate|]. injection E as <- E. destruct c; discriminate.
    - discriminate. }
  cbn [app] in E. subst u.
  inversion Hj; subst; clear Hj; repeat match goal with
    | H : gword _ _ _ |- _ => destruct H as (? & _ & ?); subst
    | H : gstring _ _ _ |- _ => destruct H as (? & ? & _ & _ & ?); subst
    | H : _ \/ _ |- _ => destruct H; subst
    end; try discriminate.
  match goal with H : digits10_of ?ds |- _ => destruct H as [Hd Hn]; destruct ds; [congruence|] end.
  match goal with H : _ = txt "/*1*" |- _ => injection H as -> _ end. apply Forall_inv in Hd. discriminate.
Qed.
