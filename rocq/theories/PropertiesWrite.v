(** C59: what is written for a value is read as that value. *)
From Coq Require Import String List ZArith Bool Arith Lia.
From Verif Require Import Base CharSet Source Dst Pattern Parser Session.
From Verif Require Import SpecSession SpecPeg SpecRun SpecValue SpecLeaf SpecType SpecAttr SpecLang SpecWrite.
From Verif Require Import Leaf PegSound Run Comb Pieces LangDemo Demo PropertiesGrammar WriteRun SpecJson JsonDemo JsonRead.
Import ListNotations.
Local Open Scope string_scope.
Local Open Scope list_scope.

(** ** C59 *)

(** [wv env ws (WOne false p) t v u v' k] (SpecWrite.v): [u] is a text of [p], read as a
    context-free grammar, that takes an object of type [t] from [v] to [v'] and stands for the
    calls [k].  [one_ahead_for env ws p t K]: the next character decides how to go on, if what
    follows is in [K], and what is tried in vain leaves no trace in an object of type [t]. *)

(** Such a text is read, all of it and no more, and with just these effects.  Partial: the
    patterns of C58, and those in which failed attempts leave no trace. *)
Theorem C59_written_values_are_read_partial :
  forall T env p t K, known T env -> all_simple env -> inclass T false p = true -> simple p = true -> one_ahead_for env none p t K ->
  forall v u rest v' k, Forall (tok T) (u ++ rest) -> shaped t v = true -> wv env none (WOne false p) t v u v' k -> K (hd_error rest) ->
  does env p t v (u ++ rest) SUCCESS rest v' k.
Proof. intros T env p t K Hk He Hc Hs Ho v u rest v' k. intros. eapply written_does; eauto. Qed.
Print Assumptions C59_written_values_are_read_partial.

Theorem C59_written_values_are_read_below_a_skipper_partial :
  forall T env skp ws p t K, known T env -> all_simple env -> skipper T skp = true ->
  onechars skp = true -> (forall z, tok T z -> ws z = passes1 skp z) -> inclass T true p = true -> simple p = true -> one_ahead_for env ws p t K ->
  forall v u rest v' k, Forall (tok T) (u ++ rest) -> shaped t v = true -> wv env ws (WOne false p) t v u v' k -> K (next ws rest) ->
  exists s, does env (WithSkipper p skp) t v (u ++ rest) SUCCESS s v' k /\ trim (chars ws) s = trim (chars ws) rest.
Proof. intros. eapply written_does_sk; eauto. Qed.
Print Assumptions C59_written_values_are_read_below_a_skipper_partial.

(** In pieces of any size. *)
Theorem C59_written_values_in_pieces_partial :
  forall T env p t K, known T env -> all_simple env -> inclass T false p = true -> simple p = true -> one_ahead_for env none p t K ->
  forall v l u rest v' k, complete l -> fed l = u ++ rest -> Forall (tok T) (fed l) -> shaped t v = true ->
  wv env none (WOne false p) t v u v' k -> K (hd_error rest) -> delivers env p t v l SUCCESS v' k.
Proof. intros. eapply written_delivers; eauto. Qed.
Print Assumptions C59_written_values_in_pieces_partial.

Theorem C59_written_values_in_pieces_below_a_skipper_partial :
  forall T env skp ws p t K, known T env -> all_simple env -> skipper T skp = true ->
  onechars skp = true -> (forall z, tok T z -> ws z = passes1 skp z) -> inclass T true p = true -> simple p = true -> one_ahead_for env ws p t K ->
  forall v l u rest v' k, complete l -> fed l = u ++ rest -> Forall (tok T) (fed l) -> shaped t v = true ->
  wv env ws (WOne false p) t v u v' k -> K (next ws rest) -> delivers env (WithSkipper p skp) t v l SUCCESS v' k.
Proof. intros. eapply written_delivers_sk; eauto. Qed.
Print Assumptions C59_written_values_in_pieces_below_a_skipper_partial.

(** No text stands for two values. *)
Theorem C59_a_text_has_one_value_partial :
  forall T env p t K, known T env -> all_simple env -> inclass T false p = true -> simple p = true -> one_ahead_for env none p t K ->
  forall v u rest v1 k1 v2 k2, Forall (tok T) (u ++ rest) -> shaped t v = true -> K (hd_error rest) ->
  wv env none (WOne false p) t v u v1 k1 -> wv env none (WOne false p) t v u v2 k2 -> v1 = v2 /\ k1 = k2.
Proof. intros. eapply written_one; eauto. Qed.
Print Assumptions C59_a_text_has_one_value_partial.

(** JSON, as far as integers go (SpecJson.v; the pattern is [jdoc], JsonDemo.v).  Whatever the
    value, however deep, however blanks are put, strings escaped and the text cut: what is
    written for it is read back as the object for it ... *)
Theorem C59_json :
  forall j b u, jtext j u -> jfits j -> blanks b ->
  forall v l, complete l -> fed l = b ++ u -> Forall (tok ct_char) (fed l) -> shaped (TUser 0) v = true ->
  delivers jenv jdoc (TUser 0) v l SUCCESS (jval j) [].
Proof. intros j b u H1 H2 H3 v l. intros. eapply json_read; eauto. Qed.
Print Assumptions C59_json.

(** ... which stands for that value only; and everything else is refused. *)
Theorem C59_json_values_differ :
  (forall j1 j2, jval j1 = jval j2 -> j1 = j2) /\
  (forall j1 j2 u, jtext j1 u -> jtext j2 u -> jfits j1 -> jfits j2 -> Forall (tok ct_char) u -> j1 = j2).
Proof. split; [exact jval_inj|]. intros. eapply json_unique; eauto. Qed.
Print Assumptions C59_json_values_differ.

Theorem C59_json_only :
  forall l, complete l -> Forall (tok ct_char) (fed l) -> (forall j b u, fed l = b ++ u -> blanks b -> ~ jtext j u) ->
  session_obeys jenv jdoc l FAILURE.
Proof. exact json_refused. Qed.
Print Assumptions C59_json_only.

(** An object with two fields, one of them an array, in three pieces. *)
Definition C59_value : json := JObj [(txt "a""\b", JArr [JNum (-1); JNull; JObj []]); ([], JStr (txt "["))].
Definition C59_l : list call :=
  [Feed (txt " { ""a\") false; Consume; Feed (txt """\\b"" : [ -1 , nu") false; Consume; Feed (txt "ll , { } ] , """" : ""["" } ") true; Consume].
Lemma C59_blank : blanks (txt " ").
Proof. repeat constructor. Qed.
Lemma C59_word s : jword s (txt s ++ txt " ").
Proof. exists (txt " "). split; [apply C59_blank|reflexivity]. Qed.
Lemma C59_string s c : jchars s c -> jstring s (txt """" ++ c ++ txt """" ++ txt " ").
Proof. intros H. exists c, (txt " "). split; [exact H|split; [apply C59_blank|reflexivity]]. Qed.
Lemma C59_text : exists u, fed C59_l = txt " " ++ u /\ jtext C59_value u.
Proof.
  eexists. split; [|].
  2:{ unfold C59_value.
      eapply jt_obj; [apply (C59_word "{")| | |apply (C59_word "}")].
      - apply jf_field; [apply C59_string| apply (C59_word ":")|].
        + apply jc_plain; [discriminate|discriminate|]. apply jc_escaped, jc_escaped. apply jc_plain; [discriminate|discriminate|apply jc_end].
        + eapply jt_arr; [apply (C59_word "[")| | |apply (C59_word "]")].
          * exact (jt_num (txt "-") (txt "1") (txt " ") ltac:(auto) ltac:(split; [repeat constructor|discriminate]) C59_blank).
          * eapply jl_more; [apply (C59_word ",")|apply jt_null, (C59_word "null")|].
            eapply jl_more; [apply (C59_word ",")|apply jt_obj_empty; [apply (C59_word "{")|apply (C59_word "}")]|apply jl_end].
      - eapply fl_more; [apply (C59_word ",")| |apply fl_end].
        apply jf_field; [apply C59_string, jc_end|apply (C59_word ":")|]. apply jt_str, C59_string. apply jc_plain; [discriminate|discriminate|apply jc_end]. }
  vm_compute. reflexivity.
Qed.
Example C59_json_example :
  exists u, jtext C59_value u /\ jfits C59_value /\ blanks (txt " ") /\ complete C59_l /\ fed C59_l = txt " " ++ u /\ Forall (tok ct_char) (fed C59_l)
  /\ shaped (TUser 0) (VUser 0 [VNum 7]) = true.
Proof.
  destruct C59_text as (u & E & H). exists u. cases; [exact H|cbn; lia|exact C59_blank| |exact E|chars|calc].
  exists (removelast C59_l). cases; calc.
Qed.

(** No JSON. *)
Definition C59_no : list call := [Feed (txt "}") false; Consume; Feed (txt "1") true; Consume].
Example C59_json_only_example :
  complete C59_no /\ Forall (tok ct_char) (fed C59_no) /\ (forall j b u, fed C59_no = b ++ u -> blanks b -> ~ jtext j u)
  /\ delivers jenv jdoc (TUser 0) (VUser 0 [VNum 1]) C59_no FAILURE (VUser 0 [VNum 1]) [].
Proof.
  assert (HL : complete C59_no) by (exists (removelast C59_no); cases; calc).
  cases; [exact HL|chars| |apply (pieces jenv _ _ _ _ _ _ _ HL); eexists; exists 99; eexists; cases; calc].
  intros j b u E Hb Hj. change (fed C59_no) with (txt "}1") in E. destruct Hb as [|z b Hz Hb]; [|injection E as <- E; discriminate]. cbn [app] in E. subst u.
  inversion Hj; subst; clear Hj; repeat match goal with
    | H : jword _ _ |- _ => destruct H as (? & _ & ?); subst
    | H : jstring _ _ |- _ => destruct H as (? & ? & _ & _ & ?); subst
    | H : _ \/ _ |- _ => destruct H; subst
    end; try discriminate.
  match goal with H : digits10_of ?ds |- _ => destruct H as [Hd Hn]; destruct ds; [congruence|] end.
  match goal with H : _ = txt "}1" |- _ => injection H as -> _ end. apply Forall_inv in Hd. discriminate.
Qed.

(** (number | 'x') % ',' with [](int x) { return x + 1; } called with the numbers, below a
    skipper, into a vector. *)
Definition C59_incr : action :=
  Action_ 5 int32 false false (fun x _ => (match x with VNum z => VNum (z + 1) | _ => VUndef end, VNil)).
Definition C59_list : pat := PList (Alt [Act C59_incr int_; ch "x"]) (lc ",").
Lemma C59_list_ahead lex : one_ahead_for noenv (if lex : bool then none else LangDemo.blank) C59_list (TColl int32) (fun o => o = Some 59%Z).
Proof.
  exists (fun _ => false), (fun _ _ => False), (fun _ _ _ => False), (fun _ => 0), (fun _ _ _ => false), (fun _ _ => false).
  split; [intros id q [=]|]. split; [|split; [intros id q [=]|reflexivity]].
  destruct lex; ll_auto C59_list.
Qed.
Definition C59_ws : charset := set_of_cstr [32; 9; 13; 10; 0]%Z.
Lemma C59_lead b l : Forall (fun z => LangDemo.blank z = true) b -> trim (chars LangDemo.blank) l = l -> lead LangDemo.blank (b ++ l) l.
Proof. intros Hb Hl. exists b. auto. Qed.
Lemma C59_item b ds z acc : Forall (fun z => LangDemo.blank z = true) b -> Forall (fun z => is_digit 10 z = true) ds -> ds <> [] -> trim (chars LangDemo.blank) ds = ds ->
  negative ds = false -> wrap true 32 (value 10 ds) = z -> (value 10 ds < 2 ^ 31)%Z -> wrap true 32 z = z -> wrap true 32 (z + 1) = (z + 1)%Z ->
  wv noenv LangDemo.blank (WOne true (Alt [Act C59_incr int_; ch "x"])) (TColl int32) (ints acc) (b ++ ds) (ints (acc ++ [z + 1]%Z)) [Event 5 (VNum z)].
Proof.
  intros Hb Hd Hn Ht Hg E Hs E1 E2. eapply w_alt; [left; reflexivity|].
  eapply (w_act _ _ _ C59_incr _ _ _ _ (VNum z) (VNum z) _ []); [|cbn [C59_incr ac_land conv int32]; now rewrite E1|reflexivity|].
  - apply (w_int _ _ 10 1 0 int32 _ [] ds); [now apply C59_lead|now left|exact Hd| |lia|].
    + destruct ds; [congruence|]. cbn [List.length]. lia.
    + cbn [app]. rewrite Hg, <- E. apply (cnt_num 10 false ds true 32). intros _. unfold ty_max. lia.
  - eapply cal_value; [reflexivity|reflexivity|reflexivity|]. unfold ints. rewrite map_app. apply sto_coll. cbn [conv int32]. now rewrite E2.
Qed.
Example C59_example :
  known ct_char noenv /\ all_simple noenv /\ skipper ct_char (Char C59_ws) = true /\ onechars (Char C59_ws) = true /\ (forall z, tok ct_char z -> LangDemo.blank z = passes1 (Char C59_ws) z)
  /\ inclass ct_char true C59_list = true /\ inclass ct_char false C59_list = true /\ simple C59_list = true
  /\ one_ahead_for noenv LangDemo.blank C59_list (TColl int32) (fun o => o = Some 59%Z) /\ one_ahead_for noenv none C59_list (TColl int32) (fun o => o = Some 59%Z)
  /\ wv noenv LangDemo.blank (WOne false C59_list) (TColl int32) (ints [3]%Z) (txt " 41 ,x, 7") (ints [3; 42; 120; 8]%Z) [Event 5 (VNum 41); Event 5 (VNum 7)]
  /\ next LangDemo.blank (txt "  ;") = Some 59%Z.
Proof.
  cases; [split; [discriminate|split; intros ? ? [=]]|intros ? ? [=]|calc|calc| |calc|calc|calc|exact (C59_list_ahead false)|exact (C59_list_ahead true)| |calc].
  - reflexivity.
  - assert (C : forall b, Forall (fun z => LangDemo.blank z = true) b -> wv noenv LangDemo.blank (WOne false (lc ",")) TNil VNil (b ++ txt ",") VNil []).
    { intros b Hb. eapply w_discard. eapply w_char; [apply (C59_lead b (txt ",") Hb); calc|reflexivity|apply sto_nil]. }
    apply (w_list noenv _ _ _ _ _ (txt " 41") (ints [3; 42]%Z) [Event 5 (VNum 41)] (txt " ,x, 7") _ [Event 5 (VNum 7)]).
    { apply (C59_item (txt " ") (txt "41") 41%Z [3%Z]); try calc; try discriminate; repeat constructor. }
    apply (w_more noenv _ _ _ _ _ (txt " ,") VNil [] (txt "x") (ints [3; 42; 120]%Z) [] (txt ", 7") _ [Event 5 (VNum 7)]); [apply (C (txt " ")); repeat constructor| |].
    { eapply w_alt; [right; left; reflexivity|]. eapply w_char; [apply (C59_lead [] (txt "x")); [constructor|calc]|reflexivity|].
      apply (sto_coll int32 [VNum 3; VNum 42]). calc. }
    apply (w_more noenv _ _ _ _ _ (txt ",") VNil [] (txt " 7") (ints [3; 42; 120; 8]%Z) [Event 5 (VNum 7)] [] _ []); [apply (C []); constructor| |apply w_more_end].
    apply (C59_item (txt " ") (txt "7") 7%Z [3; 42; 120]%Z); try calc; try discriminate; repeat constructor.
Qed.

(** Where attempts in vain leave a trace it does not hold: a number is tried first here, and
    sets the object to 0. *)
Definition C59_noisy : pat := Alt [int_; lc "x"].
Theorem C59_refuted :
  exists p t v u v', inclass ct_char false p = true /\ simple p = true /\ one_ahead noenv none p (fun o => o = None)
  /\ wv noenv none (WOne false p) t v u v' [] /\ forall s k, ~ does noenv p t v u SUCCESS s v' k.
Proof.
  exists C59_noisy, int32, (VNum 7), (txt "x"), (VNum 7). cases; [calc|calc| | |].
  - exists (fun _ => false), (fun _ _ => False), (fun _ _ _ => False), (fun _ => 0). split; [intros id q [=]|]. ll_auto C59_noisy.
  - eapply w_alt; [right; left; reflexivity|]. eapply w_discard. eapply w_char; [apply lead_none|reflexivity|apply sto_nil].
  - intros s k H. assert (D : does noenv C59_noisy int32 (VNum 7) (txt "x") SUCCESS [] (VNum 0) []) by (exists 99; eexists; cases; calc).
    destruct (LocalThms.does_fun _ _ _ _ _ _ _ _ _ _ _ _ _ H D) as (_ & _ & E & _). discriminate.
Qed.
Print Assumptions C59_refuted.
