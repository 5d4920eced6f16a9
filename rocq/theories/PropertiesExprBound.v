(** C65: what patterns written as expressions store, when callbacks are given the bound
    destination. *)
From Coq Require Import String List ZArith Bool Arith Lia.
From Verif Require Import Base CharSet Source Dst Pattern Expr Parser Session.
From Verif Require Import SpecSession SpecPeg SpecRun SpecValue SpecLeaf SpecType SpecAttr SpecExpr SpecExprVal SpecBound SpecExprBound.
From Verif Require Import Leaf PegSound Run Comb Pieces AttrRun BoundRun ExprBound Demo MathDemo PropertiesGrammar PropertiesBound.
Import ListNotations.
Local Open Scope string_scope.
Local Open Scope list_scope.

(** ** C65 *)

(** [works env ws e t v inp r v' k] (SpecExprBound.v): by the operators it is written with, [e]
    takes an object of type [t], bound at the start, from [v] to [v'] and makes the calls [k].

    parse() does exactly that.  Partial: the patterns of C68. *)
Theorem C65_expressions_work_as_they_say_partial :
  forall T env e p, pattern_of e = Some p -> plain_skippers e = true ->
  known T env -> all_tidy env -> inclass T false p = true -> tidy p = true ->
  forall t v inp, Forall (tok T) inp -> shaped t v = true ->
  (forall s v' k, does env p t v inp SUCCESS s v' k <-> works env nows e t v inp (Some s) v' k) /\
  (forall v' k, (exists s, does env p t v inp FAILURE s v' k) <-> works env nows e t v inp None v' k).
Proof. intros T env e p Hp Hs Hk He Hc Hi t v inp. exact (bexpr_does T env Hk He e p Hp Hs Hi t v inp Hc). Qed.
Print Assumptions C65_expressions_work_as_they_say_partial.

Theorem C65_work_below_a_skipper_partial :
  forall T env e p, pattern_of e = Some p -> plain_skippers e = true ->
  known T env -> all_tidy env -> inclass T true p = true -> tidy p = true ->
  forall skp ws, skipper T skp = true -> (forall s, Forall (tok T) s -> ws s = passes skp s) ->
  forall t v inp, Forall (tok T) inp -> shaped t v = true ->
  (forall s v' k, does env (WithSkipper p skp) t v inp SUCCESS s v' k ->
     exists s', works env ws e t v inp (Some s') v' k /\ trim ws s = trim ws s') /\
  (forall s' v' k, works env ws e t v inp (Some s') v' k ->
     exists s, does env (WithSkipper p skp) t v inp SUCCESS s v' k /\ trim ws s = trim ws s') /\
  (forall v' k, (exists s, does env (WithSkipper p skp) t v inp FAILURE s v' k) <-> works env ws e t v inp None v' k).
Proof.
  intros T env e p Hp Hs Hk He Hc Hi skp ws Hf Hw t v inp. exact (bexpr_does_sk T env Hk He e p Hp Hs Hi skp ws Hf Hw t v inp Hc).
Qed.
Print Assumptions C65_work_below_a_skipper_partial.

Theorem C65_work_in_pieces_partial :
  forall T env e p, pattern_of e = Some p -> plain_skippers e = true ->
  known T env -> all_tidy env -> inclass T false p = true -> tidy p = true ->
  forall t v l, complete l -> Forall (tok T) (fed l) -> shaped t v = true ->
  (forall v' k, delivers env p t v l SUCCESS v' k <-> exists s, works env nows e t v (fed l) (Some s) v' k) /\
  (forall v' k, delivers env p t v l FAILURE v' k <-> works env nows e t v (fed l) None v' k).
Proof. intros T env e p Hp Hs Hk He Hc Hi t v l. exact (bexpr_delivers T env Hk He e p Hp Hs Hi t v l Hc). Qed.
Print Assumptions C65_work_in_pieces_partial.

Theorem C65_work_in_pieces_below_a_skipper_partial :
  forall T env e p, pattern_of e = Some p -> plain_skippers e = true ->
  known T env -> all_tidy env -> inclass T true p = true -> tidy p = true ->
  forall skp ws, skipper T skp = true -> (forall s, Forall (tok T) s -> ws s = passes skp s) ->
  forall t v l, complete l -> Forall (tok T) (fed l) -> shaped t v = true ->
  (forall v' k, delivers env (WithSkipper p skp) t v l SUCCESS v' k <-> exists s, works env ws e t v (fed l) (Some s) v' k) /\
  (forall v' k, delivers env (WithSkipper p skp) t v l FAILURE v' k <-> works env ws e t v (fed l) None v' k).
Proof.
  intros T env e p Hp Hs Hk He Hc Hi skp ws Hf Hw t v l. exact (bexpr_delivers_sk T env Hk He e p Hp Hs Hi skp ws Hf Hw t v l Hc).
Qed.
Print Assumptions C65_work_in_pieces_below_a_skipper_partial.

(** examples/math_expression as it is written, the calls of the outer bind_dst() working on its
    int and those of the inner ones on the int of the operand: main.cpp:46-53. *)
Definition C65_row (cs : string) (e : expr) : expr :=
  EBind (ESeq (EAct assign_act e) (EStar (EAct binop_act (ESeq (ESet (set_of_cstr (txt cs ++ [0%Z]))) e)))).
Definition C65_primary : expr := EAlt (EPat int_) (ESeq (EChar false (chr "(")) (ESeq (EPat expr_) (EChar false (chr ")")))).
Definition C65_math : expr := C65_row "+-" (C65_row "*/" C65_primary).
Definition C65_sum_l : list call := [Feed (txt "9 - 2*(") false; Consume; Feed (txt "3 + 1)*2 ;") true; Consume].
Definition C65_sum_calls : list event :=
  [Event 0 (VNum 9); Event 0 (VNum 9); Event 0 (VNum 2); Event 0 (VNum 3); Event 0 (VNum 3); Event 0 (VNum 1); Event 1 (VTuple [VNum 43; VNum 1]);
   Event 1 (VTuple [VNum 42; VNum 4]); Event 1 (VTuple [VNum 42; VNum 2]); Event 1 (VTuple [VNum 45; VNum 16])].
Example C65_math_example :
  pattern_of C65_math = Some addsub /\ plain_skippers C65_math = true /\ known ct_char math_env /\ all_tidy math_env
  /\ inclass ct_char true addsub = true /\ tidy addsub = true /\ skipper ct_char space = true /\ (forall s, Forall (tok ct_char) s -> C68_ws s = passes space s)
  /\ Forall (tok ct_char) (fed C65_sum_l) /\ shaped int32 (VNum 5) = true /\ complete C65_sum_l
  /\ delivers math_env (WithSkipper addsub space) int32 (VNum 5) C65_sum_l SUCCESS (VNum (-7)) C65_sum_calls
  /\ exists s, works math_env C68_ws C65_math int32 (VNum 5) (fed C65_sum_l) (Some s) (VNum (-7)) C65_sum_calls.
Proof.
  pose proof C68_known as [HK HS]. assert (HL : complete C65_sum_l) by (exists (removelast C65_sum_l); cases; calc).
  assert (HD : delivers math_env (WithSkipper addsub space) int32 (VNum 5) C65_sum_l SUCCESS (VNum (-7)) C65_sum_calls)
    by (apply (pieces math_env _ _ _ _ _ _ _ HL); exists (txt " ;"); exists 99; eexists; cases; calc).
  assert (HP : pattern_of C65_math = Some addsub) by reflexivity. assert (HC : plain_skippers C65_math = true) by calc.
  assert (HI : inclass ct_char true addsub = true) by calc. assert (HT : tidy addsub = true) by calc.
  assert (HF : skipper ct_char space = true) by calc. assert (HW : forall s, Forall (tok ct_char) s -> C68_ws s = passes space s) by exact C68_ws_ok.
  assert (HA : Forall (tok ct_char) (fed C65_sum_l)) by chars. assert (HV : shaped int32 (VNum 5) = true) by calc.
  cases; auto. revert HD. apply (proj1 (C65_work_in_pieces_below_a_skipper_partial ct_char math_env C65_math addsub HP HC HK HS HI HT
    space C68_ws HF HW int32 (VNum 5) C65_sum_l HL HA HV)).
Qed.
