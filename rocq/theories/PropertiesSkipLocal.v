(** C64: apply_skipper in the middle of a pattern.

    [inclass] (PropertiesGrammar.v) leaves out, of patterns apply_skipper(p, skp) below
    the top: [p] whose matches need not end with something that is read, as a repetition
    ([ends]); [p] that reads at most one character, where failing must not consume; and [p]
    that takes a mark when it is created, where there is a skipper around it.  Each of these
    goes wrong in the library; the refutations are below. *)
From Coq Require Import String List ZArith Bool Arith.
From Verif Require Import Base CharSet Source Dst Pattern Parser Session.
From Verif Require Import SpecSession SpecPeg SpecRun SpecLang Leaf PegSound Run Comb LangRun SkipLocal Demo PropertiesGrammar.
Import ListNotations.
Local Open Scope string_scope.
Local Open Scope list_scope.

(** Where nothing is skipped around it, apply_skipper(p, skp) reads what the grammar
    says and leaves the text exactly behind what was read. *)
Theorem C64_stops_behind_what_was_read_partial :
  forall T env, known T env ->
  forall p inp skp ws, inclass T false (WithSkipper p skp) = true -> Forall (tok T) inp ->
  (forall s, Forall (tok T) s -> ws s = passes skp s) ->
  (forall n t v r w, parse env n t v (WithSkipper p skp) inp = Done (r, w) ->
     match r with
     | SUCCESS => m env ws (One p) inp (Some (left_at w))
     | FAILURE => m env ws (One p) inp None
     | PARTIAL => False
     end) /\
  (forall r, m env ws (One p) inp r -> obeys env (WithSkipper p skp) inp r).
Proof. exact own_skipper. Qed.
Print Assumptions C64_stops_behind_what_was_read_partial.

(** Below another skipper, that one is applied in front of it and nowhere inside. *)
Theorem C64_the_inner_skipper_counts_partial :
  forall T env, known T env ->
  forall skp ws, skipper T skp = true -> (forall s, Forall (tok T) s -> ws s = passes skp s) ->
  forall p own s r, inclass T true (WithSkipper p own) = true -> Forall (tok T) s ->
  says env (WithSkipper p own) (trim ws s) r ->
  obeys env (WithSkipper (WithSkipper p own) skp) s r.
Proof. exact inner_skipper. Qed.
Print Assumptions C64_the_inner_skipper_counts_partial.

(** Among the parts of a pattern below a skipper: what the whole does is put together from
    what its parts do, those with a skipper of their own with that one, from where the
    skipping in front of them ended. *)
Theorem C64_part_by_part_partial :
  forall T env, known T env ->
  forall skp ws, skipper T skp = true -> (forall s, Forall (tok T) s -> ws s = passes skp s) ->
  let says' : answer := fun p s r =>
    match p with
    | WithSkipper _ _ => says env p (trim ws s) r
    | _ => says env (WithSkipper p skp) s r
    end in
  let obeys' : answer := fun p => obeys_upto ws env (WithSkipper p skp) in
  (forall l s r, inclass T true (Seq l) = true -> Forall (tok T) s -> through says' l s r -> obeys' (Seq l) s r) /\
  (forall l s r, inclass T true (Alt l) = true -> Forall (tok T) s -> first says' l s r -> obeys' (Alt l) s r) /\
  (forall lo hi p s r, inclass T true (Repeat lo hi p) = true -> Forall (tok T) s ->
     greedy says' lo hi p s r -> obeys' (Repeat lo hi p) s r) /\
  (forall p sep s s', inclass T true (PList p sep) = true -> Forall (tok T) s ->
     listed says' p sep s s' -> obeys' (PList p sep) s (Some s')).
Proof. exact own_parts. Qed.
Print Assumptions C64_part_by_part_partial.

(** In pieces. *)
Theorem C64_in_pieces_partial :
  forall T env, known T env ->
  forall skp ws, skipper T skp = true -> (forall s, Forall (tok T) s -> ws s = passes skp s) ->
  forall p own l r, inclass T true (WithSkipper p own) = true -> Forall (tok T) (fed l) -> complete l ->
  says env (WithSkipper p own) (trim ws (fed l)) r ->
  session_obeys env (WithSkipper (WithSkipper p own) skp) l (verdict r).
Proof.
  exact (fun T env Hk skp ws Hcs Hws p own l r HC Ht Hl H =>
    obeys_pieces env _ l r Hl (inner_skipper T env Hk skp ws Hcs Hws p own (fed l) r HC Ht H)).
Qed.
Print Assumptions C64_in_pieces_partial.

(** A call, name(1, 2), whose arguments may be spread out over several lines, in a text
    whose lines matter: f ( 1 ,\n 2 ) here and nothing but blanks in front of ';'. *)
Definition lines : pat := Char (set_of_cstr [32; 10; 0]%Z).
(** lit(' ') *)
Definition spaces : pat := Discard (Char (CSingle ct_char 32)).
Definition C64_args : pat := Seq [lc "("; PList int_ (lc ","); lc ")"].
Definition C64_call : pat := Seq [lc "f"; WithSkipper C64_args lines; lc ";"].
Definition C64_text : list Z := txt " f (" ++ [10]%Z ++ txt " 1 ," ++ [10]%Z ++ txt "2)  ;".
Definition C64_text2 : list Z := txt " f (1,2)" ++ [10]%Z ++ txt ";".
Definition space : gap := SpecPeg.chars (fun c => Z.eqb c 32).
Lemma space_ok s : Forall (tok ct_char) s -> space s = passes spaces s.
Proof. intros _. symmetry. exact (passes_char (CSingle ct_char 32) s). Qed.
Definition broken : gap := SpecPeg.chars (fun c => existsb (Z.eqb c) [32; 10]%Z).
Lemma broken_ok s : Forall (tok ct_char) s -> broken s = passes lines s.
Proof. intros _. symmetry. apply passes_char. Qed.

Example C64_example :
  inclass ct_char false (WithSkipper C64_args lines) = true
  /\ inclass ct_char true (WithSkipper C64_args lines) = true
  /\ inclass ct_char true C64_call = true
  /\ inclass ct_char true (Alt [C64_call; WithSkipper (Seq [lc "["; lc "]"]) lines]) = true
  /\ Forall (tok ct_char) C64_text
  /\ says noenv (WithSkipper C64_args lines) (txt "( 1 ,2 )  x") (Some (txt "  x"))
  /\ says noenv (WithSkipper (WithSkipper C64_args lines) spaces) (txt "  (" ++ [10]%Z ++ txt ")  x") (Some (txt "  x"))
  /\ says noenv (WithSkipper C64_call spaces) C64_text (Some [])
  /\ says noenv (WithSkipper C64_call spaces) C64_text2 None.
Proof. cases; [calc|calc|calc|calc|chars|run|run|run|run]. Qed.

(** Arguments among which there may be comments, in a text in which there are none. *)
Definition C64_call2 : pat := Seq [lc "f"; WithSkipper C64_args comments; lc ";"].
Example C64_comment_example :
  inclass ct_char false (WithSkipper C64_args comments) = true
  /\ inclass ct_char true C64_call2 = true
  /\ says noenv (WithSkipper C64_args comments) (txt "( 1/* 2 */,3)/**/") (Some (txt "/**/"))
  /\ says noenv (WithSkipper C64_call2 spaces) (txt " f (1 /*;*/,//)" ++ [10]%Z ++ txt "2)  ;") (Some [])
  /\ says noenv (WithSkipper C64_call2 spaces) (txt " f (1)/**/;") None.
Proof. cases; [calc|calc|run|run|run]. Qed.

Example C64_parts_example :
  through (fun p s r => match p with
                        | WithSkipper _ _ => says noenv p (trim space s) r
                        | _ => says noenv (WithSkipper p spaces) s r
                        end)
    [lc "f"; WithSkipper C64_args lines; lc ";"] C64_text (Some []).
Proof.
  apply thr_next with (txt " (" ++ [10]%Z ++ txt " 1 ," ++ [10]%Z ++ txt "2)  ;"); [run|].
  apply thr_next with (txt "  ;"); [run|]. apply thr_next with []; [run|]. apply thr_end.
Qed.

(** A failing alternative has eaten the blank in front: apply_skipper(char_('a'), ' ') |
    (char_(' ') >> char_('b')) on " b". *)
Theorem C64_failing_alternative_refuted :
  exists p q own s, says noenv (WithSkipper p own) s None /\ says noenv q s (Some []) /\
  says noenv (Alt [WithSkipper p own; q]) s None.
Proof. exists (ch "a"), (Seq [ch " "; ch "b"]), spaces, (txt " b"). cases; run. Qed.
Print Assumptions C64_failing_alternative_refuted.

(** A repetition eats the text to skip behind its last match:
    apply_skipper( *char_('a'), ' ') >> char_(' ') on "a a b". *)
Theorem C64_repetition_refuted :
  exists p own q s s1, m noenv (passes own) (One p) s (Some s1) /\ says noenv q s1 (Some (txt "b")) /\
  says noenv (Seq [WithSkipper p own; q]) s None.
Proof.
  exists (star (ch "a")), spaces, (ch " "), (txt "a a b"), (txt " b"). cases; [|run|run].
  apply m_repeat. eapply m_times; [eapply m_char; [calc|calc]|discriminate|].
  eapply m_times; [eapply m_char; [calc|calc]|discriminate|].
  refine (m_times_stop _ _ _ _ _ _ _ _). apply m_char_no. cbn. intros y t [= <- <-]. vm_compute. discriminate.
Qed.
Print Assumptions C64_repetition_refuted.

(** Not goes back to where it was created, in front of the text the skipper around has
    skipped: apply_skipper(apply_skipper(!lit('x') >> lit('1'), '_'), ' ') on " 1". *)
Theorem C64_lookahead_refuted :
  exists p own s, says noenv (WithSkipper p own) (trim space s) (Some []) /\
  says noenv (WithSkipper (WithSkipper p own) spaces) s None.
Proof. exists (Seq [Not (lc "x"); lc "1"]), (Char (CSingle ct_char 95)), (txt " 1"). split; run. Qed.
Print Assumptions C64_lookahead_refuted.
