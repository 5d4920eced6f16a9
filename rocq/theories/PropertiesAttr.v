(** C58: patterns as parsing expression grammars with values. *)
From Coq Require Import String List ZArith Bool Arith Lia.
From Verif Require Import Base CharSet Source Dst Pattern Parser Session.
From Verif Require Import SpecSession SpecPeg SpecRun SpecValue SpecLeaf SpecType SpecAttr.
From Verif Require Import Leaf PegSound Run Comb Pieces AttrRun Demo PropertiesGrammar.
Import ListNotations.
Local Open Scope string_scope.
Local Open Scope list_scope.

(** ** C58 *)

(** [mv env ws (VOne false p) t v inp r v' k] (SpecAttr.v): read as a grammar, [p] takes an
    object of type [t] from [v] to [v'] and makes the calls [k]. *)

(** parse() does exactly that.  Partial: the patterns of C11, without callbacks that are given
    the bound destination, empty sequences and alternatives, and symbol tables that have a key
    twice. *)
Theorem C58_values_of_a_grammar_partial :
  forall T env p, known T env -> all_simple env -> inclass T false p = true -> simple p = true ->
  forall t v inp, Forall (tok T) inp -> shaped t v = true ->
  (forall s v' k, does env p t v inp SUCCESS s v' k <-> mv env nows (VOne false p) t v inp (Some s) v' k) /\
  (forall v' k, (exists s, does env p t v inp FAILURE s v' k) <-> mv env nows (VOne false p) t v inp None v' k).
Proof. intros T env p Hk He Hc Hs t v inp. exact (does_mv T env Hk He p t v inp Hc Hs). Qed.
Print Assumptions C58_values_of_a_grammar_partial.

(** Below a skipper of one character. *)
Theorem C58_values_below_a_skipper_partial :
  forall T env skp ws p, known T env -> all_simple env -> skipper T skp = true ->
  (forall s, Forall (tok T) s -> ws s = passes skp s) -> inclass T true p = true -> simple p = true ->
  forall t v inp, Forall (tok T) inp -> shaped t v = true ->
  (forall s v' k, does env (WithSkipper p skp) t v inp SUCCESS s v' k ->
     exists s', mv env ws (VOne false p) t v inp (Some s') v' k /\ trim ws s = trim ws s') /\
  (forall s' v' k, mv env ws (VOne false p) t v inp (Some s') v' k ->
     exists s, does env (WithSkipper p skp) t v inp SUCCESS s v' k /\ trim ws s = trim ws s') /\
  (forall v' k, (exists s, does env (WithSkipper p skp) t v inp FAILURE s v' k) <-> mv env ws (VOne false p) t v inp None v' k).
Proof. intros T env skp ws p Hk He Hf Hw Hc Hs t v inp. exact (does_mv_sk T env Hk He skp ws Hf Hw p t v inp Hc Hs). Qed.
Print Assumptions C58_values_below_a_skipper_partial.

(** In pieces of any size. *)
Theorem C58_values_in_pieces_partial :
  forall T env p, known T env -> all_simple env -> inclass T false p = true -> simple p = true ->
  forall t v l, complete l -> Forall (tok T) (fed l) -> shaped t v = true ->
  (forall v' k, delivers env p t v l SUCCESS v' k <-> exists s, mv env nows (VOne false p) t v (fed l) (Some s) v' k) /\
  (forall v' k, delivers env p t v l FAILURE v' k <-> mv env nows (VOne false p) t v (fed l) None v' k).
Proof. intros T env p Hk He Hc Hs t v l. exact (delivers_mv T env Hk He p t v l Hc Hs). Qed.
Print Assumptions C58_values_in_pieces_partial.

Theorem C58_values_in_pieces_below_a_skipper_partial :
  forall T env skp ws p, known T env -> all_simple env -> skipper T skp = true ->
  (forall s, Forall (tok T) s -> ws s = passes skp s) -> inclass T true p = true -> simple p = true ->
  forall t v l, complete l -> Forall (tok T) (fed l) -> shaped t v = true ->
  (forall v' k, delivers env (WithSkipper p skp) t v l SUCCESS v' k <->
     exists s, mv env ws (VOne false p) t v (fed l) (Some s) v' k) /\
  (forall v' k, delivers env (WithSkipper p skp) t v l FAILURE v' k <-> mv env ws (VOne false p) t v (fed l) None v' k).
Proof. intros T env skp ws p Hk He Hf Hw Hc Hs t v l. exact (delivers_mv_sk T env Hk He skp ws Hf Hw p t v l Hc Hs). Qed.
Print Assumptions C58_values_in_pieces_below_a_skipper_partial.

(** The reading leaves no choice. *)
Theorem C58_one_value_partial :
  forall T env p, known T env -> all_simple env -> inclass T false p = true -> simple p = true ->
  forall t v inp, Forall (tok T) inp -> shaped t v = true ->
  forall r1 v1 k1 r2 v2 k2, mv env nows (VOne false p) t v inp r1 v1 k1 -> mv env nows (VOne false p) t v inp r2 v2 k2 ->
  r1 = r2 /\ v1 = v2 /\ k1 = k2.
Proof. intros T env p Hk He Hc Hs t v inp. exact (mv_one T env Hk He p t v inp Hc Hs). Qed.
Print Assumptions C58_one_value_partial.

(** Numbers in parentheses, [](int x) { return x + 1; } called with each of them, into a
    vector. *)
Definition C58_incr : action :=
  Action_ 5 int32 false false (fun x _ => (match x with VNum z => VNum (z + 1) | _ => VUndef end, VNil)).
Definition C58_env : nat -> option pat := fun id => match id with 0 => Some (Alt [Seq [lc "("; Recur 0 false; lc ")"]; int_]) | _ => None end.
Definition C58_list : pat := PList (Act C58_incr (Recur 0 false)) (lc ",").
Definition C58_text : list Z := txt "((4)),-5,(6;".
Lemma C58_known : known ct_char C58_env /\ all_simple C58_env.
Proof. split; [split; [discriminate|split]|]; intros [|id] q H; try discriminate H; injection H as <-; reflexivity. Qed.
Example C58_example :
  known ct_char C58_env /\ all_simple C58_env /\ inclass ct_char false C58_list = true /\ simple C58_list = true
  /\ Forall (tok ct_char) C58_text /\ shaped (TColl int32) (ints [1%Z]) = true
  /\ does C58_env C58_list (TColl int32) (ints [1]%Z) C58_text SUCCESS (txt ",(6;") (ints [1; 5; -4]%Z) [Event 5 (VNum 4); Event 5 (VNum (-5))]
  /\ mv C58_env nows (VOne false C58_list) (TColl int32) (ints [1]%Z) C58_text (Some (txt ",(6;")) (ints [1; 5; -4]%Z) [Event 5 (VNum 4); Event 5 (VNum (-5))].
Proof.
  pose proof C58_known as [HK HS].
  assert (HD : does C58_env C58_list (TColl int32) (ints [1]%Z) C58_text SUCCESS (txt ",(6;") (ints [1; 5; -4]%Z) [Event 5 (VNum 4); Event 5 (VNum (-5))])
    by (exists 99; eexists; cases; calc).
  cases; [exact HK|exact HS|calc|calc|chars|calc|exact HD|]. refine (proj1 (proj1 (C58_values_of_a_grammar_partial ct_char C58_env C58_list HK HS eq_refl eq_refl _ _ _ _ _) _ _ _) HD); [chars|calc].
Qed.

(** What an alternative stored before it failed is still there. *)
Definition C58_alt : pat := Alt [Seq [int_; lc ";"]; Seq [lc "("; int_; lc ";"]].
Example C58_failure_example :
  inclass ct_char false C58_alt = true /\ simple C58_alt = true
  /\ (exists s, does noenv C58_alt int32 (VNum 1) (txt "12,") FAILURE s (VNum 12) [])
  /\ mv noenv nows (VOne false C58_alt) int32 (VNum 1) (txt "12,") None (VNum 12) [].
Proof.
  assert (HD : exists s, does noenv C58_alt int32 (VNum 1) (txt "12,") FAILURE s (VNum 12) []) by (eexists; exists 99; eexists; cases; calc).
  cases; [calc|calc|exact HD|]. refine (proj1 (proj2 (C58_values_of_a_grammar_partial ct_char noenv C58_alt _ _ eq_refl eq_refl _ _ _ _ _) _ _) HD);
    [split; [discriminate|split; intros ? ? [=]]|intros ? ? [=]|chars|calc].
Qed.

(** A structure of a number and a word, below a skipper and in pieces. *)
Definition C58_ws : pat := Char (set_of_cstr [32; 9; 13; 10; 0]%Z).
Definition C58_pair : pat := Seq [int_; lc "="; Lexeme (plus (Char (CRange ct_char 97 122)))].
Definition C58_l : list call := [Feed (txt " 1") false; Consume; Feed (txt "2 = a") false; Consume; Feed (txt "b c") true; Consume].
Example C58_skipper_example :
  known ct_char noenv /\ all_simple noenv /\ skipper ct_char C58_ws = true
  /\ (forall s, Forall (tok ct_char) s -> SpecPeg.chars (fun z => existsb (Z.eqb z) [32; 9; 13; 10]%Z) s = passes C58_ws s)
  /\ inclass ct_char true C58_pair = true /\ simple C58_pair = true /\ complete C58_l /\ Forall (tok ct_char) (fed C58_l)
  /\ shaped (TTuple [int32; TColl char8]) (VTuple [VUndef; ints []]) = true
  /\ delivers noenv (WithSkipper C58_pair C58_ws) (TTuple [int32; TColl char8]) (VTuple [VUndef; ints []]) C58_l SUCCESS
       (VTuple [VNum 12; ints (txt "ab")]) [].
Proof.
  assert (HL : complete C58_l) by (exists (removelast C58_l); cases; calc).
  cases; [split; [discriminate|split; intros ? ? [=]]|intros ? ? [=]|calc| |calc|calc|exact HL|chars|calc|].
  - intros s _. symmetry. apply passes_char.
  - apply (pieces noenv _ _ _ _ _ _ _ HL). eexists. exists 99. eexists. cases; calc.
Qed.

(** The same with comments. *)
Definition C58_comments : pat :=
  Alt [C58_ws; Seq [Lit (txt "/*"); Repeat 0 0 (Except any (Lit (txt "*/"))); Lit (txt "*/")]].
Definition C58_l2 : list call := [Feed (txt " 1") false; Consume; Feed (txt "2 /* = *") false; Consume; Feed (txt "/= /**/a") false; Consume; Feed (txt "b/*c*/") true; Consume].
Example C58_comment_example :
  skipper ct_char C58_comments = true /\ complete C58_l2 /\ Forall (tok ct_char) (fed C58_l2)
  /\ delivers noenv (WithSkipper C58_pair C58_comments) (TTuple [int32; TColl char8]) (VTuple [VUndef; ints []]) C58_l2 SUCCESS
       (VTuple [VNum 12; ints (txt "ab")]) [].
Proof.
  assert (HL : complete C58_l2) by (exists (removelast C58_l2); cases; calc).
  cases; [calc|exact HL|chars|].
  apply (pieces noenv _ _ _ _ _ _ _ HL). eexists. exists 99. eexists. cases; calc.
Qed.

(** With two entries for a key the table has the last word; the reading allows both. *)
Theorem C58_distinct_keys_needed :
  exists p v', inclass ct_char false p = true /\ mv noenv nows (VOne false p) int32 (VNum 0) (txt "a") (Some []) v' [] /\
  forall s k, ~ does noenv p int32 (VNum 0) (txt "a") SUCCESS s v' k.
Proof.
  assert (H : exists x y, x <> y /\ does noenv (Symbol [(txt "a", VNum 1); (txt "a", VNum 2)]) int32 (VNum 0) (txt "a") SUCCESS [] (VNum x) []
    /\ In (txt "a", VNum y) [(txt "a", VNum 1); (txt "a", VNum 2)] /\ conv int32 (VNum y) = Done (VNum y)).
  { exists 2%Z, 1%Z. cases; [discriminate|exists 99; eexists; cases; calc|cbn; auto|calc]. }
  destruct H as (x & y & Hxy & HD & HI & HC). exists (Symbol [(txt "a", VNum 1); (txt "a", VNum 2)]), (VNum y). cases; [calc| |].
  - eapply (v_sym _ _ _ _ (txt "a")); [reflexivity|exact HI| |apply sto_value; [discriminate|discriminate|exact HC]].
    intros key' x' s'' _ [[= <- <-]|[[= <- <-]|[]]]; auto.
  - intros s k H. destruct (LocalThms.does_fun _ _ _ _ _ _ _ _ _ _ _ _ _ HD H) as (_ & _ & E & _). now injection E.
Qed.
Print Assumptions C58_distinct_keys_needed.
