(** C65: what patterns written as expressions store. *)
From Coq Require Import String List ZArith Bool Arith Lia.
From Verif Require Import Base CharSet Source Dst Pattern Expr Parser Session.
From Verif Require Import SpecSession SpecPeg SpecRun SpecValue SpecLeaf SpecType SpecAttr SpecExpr SpecExprVal.
From Verif Require Import Leaf PegSound Run Comb Pieces AttrRun ExprVal Demo PropertiesGrammar.
Import ListNotations.
Local Open Scope string_scope.
Local Open Scope list_scope.

(** ** C65 *)

(** [stores env ws InPlace e t v inp r v' k] (SpecExprVal.v): by the operators it is written
    with, [e] takes an object of type [t] from [v] to [v'] and makes the calls [k].

    parse() does exactly that.  Partial: the patterns of C58. *)
Theorem C65_expressions_store_what_they_say_partial :
  forall T env e p, pattern_of e = Some p -> plain_skippers e = true ->
  known T env -> all_simple env -> inclass T false p = true -> simple p = true ->
  forall t v inp, Forall (tok T) inp -> shaped t v = true ->
  (forall s v' k, does env p t v inp SUCCESS s v' k <-> stores env nows InPlace e t v inp (Some s) v' k) /\
  (forall v' k, (exists s, does env p t v inp FAILURE s v' k) <-> stores env nows InPlace e t v inp None v' k).
Proof. intros T env e p Hp Hs Hk He Hc Hi t v inp. exact (expr_does T env Hk He e p Hp Hs Hi t v inp Hc). Qed.
Print Assumptions C65_expressions_store_what_they_say_partial.

Theorem C65_below_a_skipper_partial :
  forall T env e p, pattern_of e = Some p -> plain_skippers e = true ->
  known T env -> all_simple env -> inclass T true p = true -> simple p = true ->
  forall skp ws, skipper T skp = true -> (forall s, Forall (tok T) s -> ws s = passes skp s) ->
  forall t v inp, Forall (tok T) inp -> shaped t v = true ->
  (forall s v' k, does env (WithSkipper p skp) t v inp SUCCESS s v' k ->
     exists s', stores env ws InPlace e t v inp (Some s') v' k /\ trim ws s = trim ws s') /\
  (forall s' v' k, stores env ws InPlace e t v inp (Some s') v' k ->
     exists s, does env (WithSkipper p skp) t v inp SUCCESS s v' k /\ trim ws s = trim ws s') /\
  (forall v' k, (exists s, does env (WithSkipper p skp) t v inp FAILURE s v' k) <-> stores env ws InPlace e t v inp None v' k).
Proof.
  intros T env e p Hp Hs Hk He Hc Hi skp ws Hf Hw t v inp. exact (expr_does_sk T env Hk He e p Hp Hs Hi skp ws Hf Hw t v inp Hc).
Qed.
Print Assumptions C65_below_a_skipper_partial.

Theorem C65_in_pieces_partial :
  forall T env e p, pattern_of e = Some p -> plain_skippers e = true ->
  known T env -> all_simple env -> inclass T false p = true -> simple p = true ->
  forall t v l, complete l -> Forall (tok T) (fed l) -> shaped t v = true ->
  (forall v' k, delivers env p t v l SUCCESS v' k <-> exists s, stores env nows InPlace e t v (fed l) (Some s) v' k) /\
  (forall v' k, delivers env p t v l FAILURE v' k <-> stores env nows InPlace e t v (fed l) None v' k).
Proof. intros T env e p Hp Hs Hk He Hc Hi t v l. exact (expr_delivers T env Hk He e p Hp Hs Hi t v l Hc). Qed.
Print Assumptions C65_in_pieces_partial.

Theorem C65_in_pieces_below_a_skipper_partial :
  forall T env e p, pattern_of e = Some p -> plain_skippers e = true ->
  known T env -> all_simple env -> inclass T true p = true -> simple p = true ->
  forall skp ws, skipper T skp = true -> (forall s, Forall (tok T) s -> ws s = passes skp s) ->
  forall t v l, complete l -> Forall (tok T) (fed l) -> shaped t v = true ->
  (forall v' k, delivers env (WithSkipper p skp) t v l SUCCESS v' k <-> exists s, stores env ws InPlace e t v (fed l) (Some s) v' k) /\
  (forall v' k, delivers env (WithSkipper p skp) t v l FAILURE v' k <-> stores env ws InPlace e t v (fed l) None v' k).
Proof.
  intros T env e p Hp Hs Hk He Hc Hi skp ws Hf Hw t v l. exact (expr_delivers_sk T env Hk He e p Hp Hs Hi skp ws Hf Hw t v l Hc).
Qed.
Print Assumptions C65_in_pieces_below_a_skipper_partial.

(** name = +char_('a','z'); entry = name >> '=' >> (int_ % ','), and entry >>
    discard(lit('!') | ";") >> +char_(..) in which the characters and strings take no element of the tuple, the named
    parts give theirs to the whole, and the elements of the list go to one of them. *)
Definition C65_name : expr := ERep 1 0 (ESet (CRange ct_char 97 122)).
Definition C65_entry : expr := ESeq C65_name (ESeq (EChar false (chr "=")) (EList (EPat int_) (EChar false (chr ",")))).
Definition C65_e : expr :=
  ESeq C65_entry (ESeq (EDiscard (EAlt (EPat (lc "!")) (EStr (txt ";" ++ [0])%Z))) (EPlus (EPat (Char (CRange ct_char 97 122))))).
Definition C65_p : pat :=
  Seq [plus (Char (CRange ct_char 97 122)); lc "="; PList int_ (lc ","); Discard (Alt [lc "!"; Lit (txt ";")]); plus (Char (CRange ct_char 97 122))].
Definition C65_t : ty := TTuple [TColl char8; TColl int32; TColl char8].
Definition C65_v : val := VTuple [ints []; ints []; ints []].
Definition C65_text : list Z := txt "ab=1,-2;cd ef".
Definition C65_l : list call := [Feed (txt "ab=1,") false; Consume; Feed (txt "-2;cd ef") true; Consume].
Lemma C65_known : known ct_char noenv /\ all_simple noenv.
Proof. split; [split; [discriminate|split; intros ? ? [=]]|intros ? ? [=]]. Qed.
Definition C65_after : val := VTuple [ints (txt "ab"); ints [1; -2]%Z; ints (txt "cd")].

Example C65_example :
  pattern_of C65_e = Some C65_p /\ plain_skippers C65_e = true /\ known ct_char noenv /\ all_simple noenv
  /\ inclass ct_char false C65_p = true /\ inclass ct_char true C65_p = true /\ simple C65_p = true
  /\ Forall (tok ct_char) C65_text /\ shaped C65_t C65_v = true /\ complete C65_l
  /\ does noenv C65_p C65_t C65_v C65_text SUCCESS (txt " ef") C65_after []
  /\ delivers noenv C65_p C65_t C65_v C65_l SUCCESS C65_after []
  /\ stores noenv nows InPlace C65_e C65_t C65_v C65_text (Some (txt " ef")) C65_after [].
Proof.
  pose proof C65_known as [HK HS]. assert (HL : complete C65_l) by (exists (removelast C65_l); cases; calc).
  assert (HD : does noenv C65_p C65_t C65_v C65_text SUCCESS (txt " ef") C65_after []) by (exists 99; eexists; cases; calc).
  cases; [calc|calc|exact HK|exact HS|calc|calc|calc|chars|calc|exact HL|exact HD| |].
  - apply (pieces noenv _ _ _ _ _ _ _ HL). eexists. exact HD.
  - refine (proj1 (proj1 (C65_expressions_store_what_they_say_partial ct_char noenv C65_e C65_p eq_refl eq_refl HK HS eq_refl eq_refl _ _ _ _ _) _ _ _) HD); [chars|calc].
Qed.
