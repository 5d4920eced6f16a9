(** C61: rewriting a grammar without changing what is stored, callbacks that are given the
    bound destination included. *)
From Coq Require Import String List ZArith Bool Arith Lia.
From Verif Require Import Base CharSet Source Dst Pattern Parser Session.
From Verif Require Import SpecSession SpecPeg SpecRun SpecValue SpecLeaf SpecType SpecAttr SpecBound SpecLaws SpecValueLaws.
From Verif Require Import Leaf PegSound Run Comb Pieces AttrRun BoundRun BoundLaws Demo PropertiesGrammar PropertiesAttr.
Import ListNotations.
Local Open Scope string_scope.
Local Open Scope list_scope.

(** ** C61 *)

(** [vlaw true]: the laws of SpecValueLaws.v without the one that drops bind_dst().
    Partial: the patterns of C68. *)
Theorem C61_bound_rewritten_patterns_store_the_same_partial :
  forall T env p q t, known T env -> all_tidy env -> vlaw true env false t p q ->
  inclass T false p = true -> tidy p = true -> inclass T false q = true -> tidy q = true ->
  forall v inp, Forall (tok T) inp -> shaped t v = true ->
  (forall s v' k, does env p t v inp SUCCESS s v' k <-> does env q t v inp SUCCESS s v' k) /\
  (forall v' k, (exists s, does env p t v inp FAILURE s v' k) <-> (exists s, does env q t v inp FAILURE s v' k)).
Proof. intros T env p q t Hk He L. exact (same_parse T env Hk He p q t (vlaw_reads env p q t L)). Qed.
Print Assumptions C61_bound_rewritten_patterns_store_the_same_partial.

(** In pieces of any size. *)
Theorem C61_bound_in_pieces_partial :
  forall T env p q t, known T env -> all_tidy env -> vlaw true env false t p q ->
  inclass T false p = true -> tidy p = true -> inclass T false q = true -> tidy q = true ->
  forall v l, complete l -> Forall (tok T) (fed l) -> shaped t v = true ->
  forall r v' k, r <> PARTIAL -> delivers env p t v l r v' k <-> delivers env q t v l r v' k.
Proof. intros T env p q t Hk He L. exact (same_session T env Hk He p q t (vlaw_reads env p q t L)). Qed.
Print Assumptions C61_bound_in_pieces_partial.

(** Below a skipper of one character. *)
Theorem C61_bound_below_a_skipper_partial :
  forall T env p q t, known T env -> all_tidy env ->
  forall skp ws, skipper T skp = true -> (forall s, Forall (tok T) s -> ws s = passes skp s) -> vlaw true env false t p q ->
  inclass T true p = true -> tidy p = true -> inclass T true q = true -> tidy q = true ->
  forall v inp, Forall (tok T) inp -> shaped t v = true ->
  (forall s v' k, does env (WithSkipper p skp) t v inp SUCCESS s v' k ->
     exists s', does env (WithSkipper q skp) t v inp SUCCESS s' v' k /\ trim ws s = trim ws s') /\
  (forall v' k, (exists s, does env (WithSkipper p skp) t v inp FAILURE s v' k) <->
     (exists s, does env (WithSkipper q skp) t v inp FAILURE s v' k)).
Proof. intros T env p q t Hk He skp ws Hf Hw L. exact (same_parse_sk T env Hk He skp ws Hf Hw p q t (vlaw_reads env p q t L)). Qed.
Print Assumptions C61_bound_below_a_skipper_partial.

Theorem C61_bound_in_pieces_below_a_skipper_partial :
  forall T env p q t, known T env -> all_tidy env ->
  forall skp ws, skipper T skp = true -> (forall s, Forall (tok T) s -> ws s = passes skp s) -> vlaw true env false t p q ->
  inclass T true p = true -> tidy p = true -> inclass T true q = true -> tidy q = true ->
  forall v l, complete l -> Forall (tok T) (fed l) -> shaped t v = true ->
  forall r v' k, r <> PARTIAL ->
  delivers env (WithSkipper p skp) t v l r v' k <-> delivers env (WithSkipper q skp) t v l r v' k.
Proof. intros T env p q t Hk He skp ws Hf Hw L. exact (same_session_sk T env Hk He skp ws Hf Hw p q t (vlaw_reads env p q t L)). Qed.
Print Assumptions C61_bound_in_pieces_below_a_skipper_partial.

(** Around the whole pattern, bind_dst() says what holds anyway. *)
Theorem C61_bind_the_whole_partial :
  forall T env p t, known T env -> all_tidy env -> t <> TNil ->
  inclass T false (BindDst p) = true -> tidy (BindDst p) = true -> inclass T false p = true -> tidy p = true ->
  (forall v inp, Forall (tok T) inp -> shaped t v = true ->
    (forall s v' k, does env (BindDst p) t v inp SUCCESS s v' k <-> does env p t v inp SUCCESS s v' k) /\
    (forall v' k, (exists s, does env (BindDst p) t v inp FAILURE s v' k) <-> (exists s, does env p t v inp FAILURE s v' k))) /\
  (forall v l, complete l -> Forall (tok T) (fed l) -> shaped t v = true ->
    forall r v' k, r <> PARTIAL -> delivers env (BindDst p) t v l r v' k <-> delivers env p t v l r v' k).
Proof.
  intros T env p t Hk He N Cb Sb Cp Sp.
  exact (conj (same_parse T env Hk He _ _ t (bind_reads env p t N) Cb Sb Cp Sp) (same_session T env Hk He _ _ t (bind_reads env p t N) Cb Sb Cp Sp)).
Qed.
Print Assumptions C61_bind_the_whole_partial.

(** The callback [](int i, auto& v) { v.push_back(v.size()); return i; } on the elements of
    lit("[") >> +elem >> "]" | lit("[") >> elem >> ";", and the pattern with the repetition
    expanded, parentheses dropped and "[" factored. *)
Definition C61_note : action :=
  Action_ 6 int32 true false (fun x b => (x, match b with VColl l => VColl (l ++ [VNum (Z.of_nat (List.length l))]) | _ => VUndef end)).
Definition C61_elem : pat := Act C61_note int_.
Definition C61_bp : pat := Alt [Seq [Lit (txt "["); Repeat 1 0 C61_elem; lc "]"]; Seq [Lit (txt "["); C61_elem; lc ";"]].
Definition C61_bq : pat := Seq [Lit (txt "["); Alt [Seq [C61_elem; star C61_elem; lc "]"]; Seq [C61_elem; lc ";"]]].
Lemma C61_bound_law env : vlaw true env false (TColl int32) C61_bp C61_bq.
Proof.
  eapply vl_trans; [|apply vl_factor; reflexivity].
  apply (vl_alt true env false (TColl int32) [] [Seq [Lit (txt "["); C61_elem; lc ";"]]).
  eapply vl_trans; [apply (vl_seq_flat true env (TColl int32) [Lit (txt "[")] [lc "]"] (Repeat 1 0 C61_elem) (Seq [C61_elem; star C61_elem])); try reflexivity|].
  - apply vl_plus; reflexivity.
  - apply (vl_seq_seq true env (TColl int32) [Lit (txt "[")] [C61_elem; star C61_elem] [lc "]"]). reflexivity.
Qed.
Definition C61_btext : list Z := txt "[4-5+6]x".
Definition C61_bcalls : list event := [Event 6 (VNum 4); Event 6 (VNum (-5)); Event 6 (VNum 6)].
Definition C61_bout : val := ints [9; 1; 4; 3; -5; 5; 6]%Z.
Definition C61_bl : list call := [Feed (txt "[4-") false; Consume; Feed (txt "5+6]x") true; Consume].
Example C61_bound_example :
  vlaw true noenv false (TColl int32) C61_bp C61_bq
  /\ inclass ct_char false C61_bp = true /\ tidy C61_bp = true /\ inclass ct_char false C61_bq = true /\ tidy C61_bq = true
  /\ inclass ct_char true C61_bp = true /\ inclass ct_char true C61_bq = true
  /\ inclass ct_char false (BindDst C61_bq) = true /\ tidy (BindDst C61_bq) = true
  /\ Forall (tok ct_char) C61_btext /\ shaped (TColl int32) (ints [9]%Z) = true
  /\ does noenv C61_bp (TColl int32) (ints [9]%Z) C61_btext SUCCESS (txt "x") C61_bout C61_bcalls
  /\ does noenv C61_bq (TColl int32) (ints [9]%Z) C61_btext SUCCESS (txt "x") C61_bout C61_bcalls
  /\ does noenv (BindDst C61_bq) (TColl int32) (ints [9]%Z) C61_btext SUCCESS (txt "x") C61_bout C61_bcalls
  /\ does noenv (WithSkipper C61_bq C58_ws) (TColl int32) (ints [9]%Z) (txt " [ 4 -5+6 ]x") SUCCESS (txt "x") C61_bout C61_bcalls
  /\ complete C61_bl /\ delivers noenv C61_bq (TColl int32) (ints [9]%Z) C61_bl SUCCESS C61_bout C61_bcalls.
Proof.
  assert (HL : complete C61_bl) by (exists (removelast C61_bl); cases; calc).
  cases; [apply C61_bound_law|calc|calc|calc|calc|calc|calc|calc|calc|chars|calc|exists 99; eexists; cases; calc|exists 99; eexists; cases; calc
    |exists 99; eexists; cases; calc|exists 99; eexists; cases; calc|exact HL|].
  apply (pieces noenv _ _ _ _ _ _ _ HL). exists (txt "x"). exists 99; eexists; cases; calc.
Qed.

(** Further inside it matters: in int_ >> bind_dst(char_[f]) the callback is given the
    character, in int_ >> char_[f] the pair. *)
Definition C61_twice : action :=
  Action_ 7 char8 true false (fun x b => (x, match b with VTuple [VNum n; c] => VTuple [VNum (2 * n); c] | _ => b end)).
Theorem C61_bind_dst_refuted :
  exists p q t v inp v1 v2 k, vlaw false noenv false t p q /\ tidy p = true /\ tidy q = true /\
  does noenv p t v inp SUCCESS [] v1 k /\ does noenv q t v inp SUCCESS [] v2 k /\ v1 <> v2.
Proof.
  exists (Seq [int_; BindDst (Act C61_twice (Char (CAny ct_char)))]), (Seq [int_; Act C61_twice (Char (CAny ct_char))]), (TTuple [int32; char8]),
    (VTuple [VNum 0; VNum 0]), (txt "21x"), (VTuple [VNum 21; VNum 120]), (VTuple [VNum 42; VNum 120]), [Event 7 (VNum 120)].
  cases; [|calc|calc|exists 99; eexists; cases; calc|exists 99; eexists; cases; calc|discriminate].
  apply (vl_seq false noenv (TTuple [int32; char8]) [int_] [] (BindDst (Act C61_twice (Char (CAny ct_char)))) (Act C61_twice (Char (CAny ct_char)))); [reflexivity|].
  intros t'. now apply vl_bind_dst.
Qed.
Print Assumptions C61_bind_dst_refuted.
