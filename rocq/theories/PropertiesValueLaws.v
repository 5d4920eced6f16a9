(** C61: rewriting a grammar without changing what is stored. *)
From Coq Require Import String List ZArith Bool Arith Lia.
From Verif Require Import Base CharSet Source Dst Pattern Parser Session.
From Verif Require Import SpecSession SpecPeg SpecRun SpecValue SpecLeaf SpecType SpecAttr SpecLaws SpecValueLaws.
From Verif Require Import Leaf PegSound Run Comb Pieces AttrRun ValueLaws Demo PropertiesGrammar PropertiesAttr.
Import ListNotations.
Local Open Scope string_scope.
Local Open Scope list_scope.

(** ** C61 *)

(** [vlaw] (SpecValueLaws.v): the laws of C55 that concern more than what is recognised.
    Two patterns that they make equal answer the same, leave the same object and make the
    same calls.  Partial: the patterns of C58. *)
Theorem C61_rewritten_patterns_store_the_same_partial :
  forall T env p q t, known T env -> all_simple env -> vlaw false env false t p q ->
  inclass T false p = true -> simple p = true -> inclass T false q = true -> simple q = true ->
  forall v inp, Forall (tok T) inp -> shaped t v = true ->
  (forall s v' k, does env p t v inp SUCCESS s v' k <-> does env q t v inp SUCCESS s v' k) /\
  (forall v' k, (exists s, does env p t v inp FAILURE s v' k) <-> (exists s, does env q t v inp FAILURE s v' k)).
Proof. intros T env p q t Hk He. exact (vlaws_parse T env Hk He p q t). Qed.
Print Assumptions C61_rewritten_patterns_store_the_same_partial.

(** In pieces of any size. *)
Theorem C61_in_pieces_partial :
  forall T env p q t, known T env -> all_simple env -> vlaw false env false t p q ->
  inclass T false p = true -> simple p = true -> inclass T false q = true -> simple q = true ->
  forall v l, complete l -> Forall (tok T) (fed l) -> shaped t v = true ->
  forall r v' k, r <> PARTIAL -> delivers env p t v l r v' k <-> delivers env q t v l r v' k.
Proof. intros T env p q t Hk He. exact (vlaws_session T env Hk He p q t). Qed.
Print Assumptions C61_in_pieces_partial.

(** Below a skipper of one character. *)
Theorem C61_below_a_skipper_partial :
  forall T env p q t, known T env -> all_simple env ->
  forall skp ws, skipper T skp = true -> (forall s, Forall (tok T) s -> ws s = passes skp s) -> vlaw false env false t p q ->
  inclass T true p = true -> simple p = true -> inclass T true q = true -> simple q = true ->
  forall v inp, Forall (tok T) inp -> shaped t v = true ->
  (forall s v' k, does env (WithSkipper p skp) t v inp SUCCESS s v' k ->
     exists s', does env (WithSkipper q skp) t v inp SUCCESS s' v' k /\ trim ws s = trim ws s') /\
  (forall v' k, (exists s, does env (WithSkipper p skp) t v inp FAILURE s v' k) <->
     (exists s, does env (WithSkipper q skp) t v inp FAILURE s v' k)).
Proof. intros T env p q t Hk He skp ws Hf Hw. exact (vlaws_parse_sk T env Hk He skp ws Hf Hw p q t). Qed.
Print Assumptions C61_below_a_skipper_partial.

Theorem C61_in_pieces_below_a_skipper_partial :
  forall T env p q t, known T env -> all_simple env ->
  forall skp ws, skipper T skp = true -> (forall s, Forall (tok T) s -> ws s = passes skp s) -> vlaw false env false t p q ->
  inclass T true p = true -> simple p = true -> inclass T true q = true -> simple q = true ->
  forall v l, complete l -> Forall (tok T) (fed l) -> shaped t v = true ->
  forall r v' k, r <> PARTIAL ->
  delivers env (WithSkipper p skp) t v l r v' k <-> delivers env (WithSkipper q skp) t v l r v' k.
Proof. intros T env p q t Hk He skp ws Hf Hw. exact (vlaws_session_sk T env Hk He skp ws Hf Hw p q t). Qed.
Print Assumptions C61_in_pieces_below_a_skipper_partial.

(** lit("[") >> +(int_[incr]) >> "]" | lit("[") >> int_[incr] >> ";" into a vector, and what
    is left after expanding the repetition, dropping parentheses and factoring "[". *)
Definition C61_num : pat := Act C58_incr int_.
Definition C61_p : pat := Alt [Seq [Lit (txt "["); Repeat 1 0 C61_num; lc "]"]; Seq [Lit (txt "["); C61_num; lc ";"]].
Definition C61_q : pat := Seq [Lit (txt "["); Alt [Seq [C61_num; star C61_num; lc "]"]; Seq [C61_num; lc ";"]]].
Lemma C61_law b env : vlaw b env false (TColl int32) C61_p C61_q.
Proof.
  eapply vl_trans; [|apply vl_factor; reflexivity].
  apply (vl_alt b env false (TColl int32) [] [Seq [Lit (txt "["); C61_num; lc ";"]]).
  eapply vl_trans; [apply (vl_seq_flat b env (TColl int32) [Lit (txt "[")] [lc "]"] (Repeat 1 0 C61_num) (Seq [C61_num; star C61_num])); try reflexivity|].
  - apply vl_plus; reflexivity.
  - apply (vl_seq_seq b env (TColl int32) [Lit (txt "[")] [C61_num; star C61_num] [lc "]"]). reflexivity.
Qed.
Definition C61_text : list Z := txt "[4-5+6]x".
Definition C61_calls : list event := [Event 5 (VNum 4); Event 5 (VNum (-5)); Event 5 (VNum 6)].
Example C61_example :
  vlaw false noenv false (TColl int32) C61_p C61_q
  /\ inclass ct_char false C61_p = true /\ simple C61_p = true /\ inclass ct_char false C61_q = true /\ simple C61_q = true
  /\ inclass ct_char true C61_p = true /\ inclass ct_char true C61_q = true
  /\ Forall (tok ct_char) C61_text /\ shaped (TColl int32) (ints [1]%Z) = true
  /\ does noenv C61_p (TColl int32) (ints [1]%Z) C61_text SUCCESS (txt "x") (ints [1; 5; -4; 7]%Z) C61_calls
  /\ does noenv C61_q (TColl int32) (ints [1]%Z) C61_text SUCCESS (txt "x") (ints [1; 5; -4; 7]%Z) C61_calls
  /\ does noenv (WithSkipper C61_q C58_ws) (TColl int32) (ints [1]%Z) (txt " [ 4 -5+6 ]x") SUCCESS (txt "x") (ints [1; 5; -4; 7]%Z) C61_calls.
Proof. cases; [apply C61_law|calc|calc|calc|calc|calc|calc|chars|calc|exists 99; eexists; cases; calc|exists 99; eexists; cases; calc|exists 99; eexists; cases; calc]. Qed.

(** Not all the laws of C55 keep the values: (char_ >> 'a') | (char_ >> 'b') stores the first
    character twice where the second alternative matches, char_ >> ('a' | 'b') does not. *)
Theorem C61_refuted :
  exists p q inp v1 v2, law noenv p q /\
  does noenv p (TColl char8) (ints []) inp SUCCESS [] v1 [] /\ does noenv q (TColl char8) (ints []) inp SUCCESS [] v2 [] /\ v1 <> v2.
Proof.
  exists (Alt [Seq [Char (CAny ct_char); lc "a"]; Seq [Char (CAny ct_char); lc "b"]]), (Seq [Char (CAny ct_char); Alt [Seq [lc "a"]; Seq [lc "b"]]]), (txt "xb"),
    (ints (txt "xx")), (ints (txt "x")).
  cases; [apply law_factor|exists 99; eexists; cases; calc|exists 99; eexists; cases; calc|discriminate].
Qed.
Print Assumptions C61_refuted.
