(** C43, the math_expression example, and C44, the pattern it is made of.

    [shows Sum e ts] (SpecMath.v): the tokens [ts] are a way to write [e] with the usual
    precedences, rows grouped to the left.  [eval e] is its value, none if there is overflow
    or division by zero, or if the smallest int is written out (see [C43_refuted]). *)
From Coq Require Import String List ZArith Bool Arith Lia.
From Verif Require Import Base CharSet Source Dst Pattern Parser Session.
From Verif Require Import SpecSession SpecRun SpecValue SpecCollect SpecSkip SpecLeaf SpecText SpecFold SpecMath.
From Verif Require Import Big BigLeaf Leaf Local Unary Fold Pieces Demo MathDemo MathThms PropertiesCollect.
Import ListNotations.
Local Open Scope string_scope.
Local Open Scope list_scope.

(** ** C44 *)

(** bind_dst(p[a] >> *q[b]), with or without a skipper: [a] works on the bound object after
    [p], then [b] once for every [q], in order, each on what the one before has left. *)
Theorem C44_actions_fold_left_partial :
  forall env, all_nested env -> all_unbound env ->
  forall sk t a p b q v s r s' v' k,
  ac_void a = true -> ac_void b = true -> unbound p = true -> unbound q = true -> steady (under sk q) = true ->
  nested (under sk (Seq [Act a p; Repeat 0 0 (Act b q)])) ->
  (does env (under sk (BindDst (Seq [Act a p; Repeat 0 0 (Act b q)]))) t v s (res r) s' v' k <->
   (r = false /\ v' = v /\ declines env a (under sk p) s s' k) \/
   (r = true /\ exists s1 v1 k1 k2, performs env a (under sk p) t v s s1 v1 k1 /\
      folded env b (under sk q) t v1 s1 s' v' k2 /\ k = k1 ++ k2)).
Proof. intros env Hm Hu sk t a p b q v s r s' v' k. exact (left_fold env Hm Hu sk t a p b q v s r s' v' k). Qed.
Print Assumptions C44_actions_fold_left_partial.

(** 9 - 4 - 3 is (9 - 4) - 3. *)
Definition C44_q : pat := Seq [Char (set_of_cstr (txt "+-" ++ [0%Z])); int_].
Example C44_example :
  unbound int_ = true /\ unbound C44_q = true /\ steady (under space C44_q) = true /\
  nested (under space (Seq [Act assign_act int_; Repeat 0 0 (Act binop_act C44_q)])) /\
  does noenv (under space (BindDst (Seq [Act assign_act int_; Repeat 0 0 (Act binop_act C44_q)]))) int32 (VNum 77) (txt "9 - 4 -3 ;")
       SUCCESS (txt " ;") (VNum 2)
       [Event 0 (VNum 9); Event 1 (VTuple [VNum 45; VNum 4]); Event 1 (VTuple [VNum 45; VNum 3])].
Proof. cases; try (unfold nested; calc). perform. Qed.

(** A p that assigns to p.bound_dst itself, and fails afterwards. *)
Definition C44_early : action := Action_ 7 (TNum true 8) true true (fun x _ => (VNil, x)).
Theorem C44_refuted :
  exists a p b q t v s s' v' k,
  does noenv (BindDst (Seq [Act a p; Repeat 0 0 (Act b q)])) t v s FAILURE s' v' k /\ v' <> v.
Proof.
  exists assign_act, (Seq [Act C44_early (Char (CAny ct_char)); Fail]), binop_act, C44_q, int32, (VNum 1), (txt "a"), [], (VNum 97), [Event 7 (VNum 97)].
  split; [perform|discriminate].
Qed.
Print Assumptions C44_refuted.

(** ** C43 *)
Theorem C43_value_of_expression_partial :
  forall e ts z text rest v, shows Sum e ts -> eval e = Some z ->
  spaced is_space ts text rest -> Forall (tok ct_char) text -> no_digit 10 rest -> next_not (txt "+-*/") rest ->
  exists k, does math_env math int32 v text SUCCESS rest (VNum z) k.
Proof. exact math_value. Qed.
Print Assumptions C43_value_of_expression_partial.

Theorem C43_value_in_pieces_partial :
  forall e ts z l rest v, complete l -> shows Sum e ts -> eval e = Some z ->
  spaced is_space ts (fed l) rest -> Forall (tok ct_char) (fed l) -> no_digit 10 rest -> next_not (txt "+-*/") rest ->
  exists k, delivers math_env math int32 v l SUCCESS (VNum z) k.
Proof.
  intros e ts z l rest v Hl Hs Hz H Ht Hd Hn. destruct (math_value e ts z (fed l) rest v Hs Hz H Ht Hd Hn) as [k Hk].
  exists k. apply pieces; eauto.
Qed.
Print Assumptions C43_value_in_pieces_partial.

(** 7 - 2*(3+-1) - 8/3 *)
Definition C43_e : expr := Bin Sub (Bin Sub (Num 7) (Bin Mul (Num 2) (Bin Add (Num 3) (Num (-1))))) (Bin Div (Num 8) (Num 3)).
Definition C43_ts : list (list Z) := map txt ["7"; "-"; "2"; "*"; "("; "3"; "+"; "-1"; ")"; "-"; "8"; "/"; "3"].
Definition C43_l : list call :=
  [Feed (txt " 7 - 2*( 3+-") false; Consume; Feed (txt "1) - 8/3;") true; Consume].
Example C43_example :
  shows Sum C43_e C43_ts /\ eval C43_e = Some 1%Z /\ spaced is_space C43_ts (fed C43_l) (txt ";") /\ Forall (tok ct_char) (fed C43_l)
  /\ no_digit 10 (txt ";") /\ next_not (txt "+-*/") (txt ";") /\ complete C43_l
  /\ exists k, does math_env math int32 (VNum 55) (fed C43_l) SUCCESS (txt ";") (VNum 1) k.
Proof.
  assert (forall t ts text rest, spaced is_space ts text rest -> spaced is_space (t :: ts) (t ++ text) rest) as S0
    by (intros t ts text rest; exact (spc_tok is_space [] t ts text rest (Forall_nil _))).
  assert (forall t ts text rest, spaced is_space ts text rest -> spaced is_space (t :: ts) (32%Z :: t ++ text) rest) as S1
    by (intros t ts text rest; exact (spc_tok is_space [32%Z] t ts text rest (Forall_cons _ eq_refl (Forall_nil _)))).
  cases.
  - assert (forall z, shows Prod (Num z) [dec z]) as HN by (intros z; apply shw_prim, shw_num).
    refine (shw_add Sub (Bin Sub (Num 7) (Bin Mul (Num 2) (Bin Add (Num 3) (Num (-1))))) (Bin Div (Num 8) (Num 3))
      (map txt ["7"; "-"; "2"; "*"; "("; "3"; "+"; "-1"; ")"]) (map txt ["8"; "/"; "3"]) (or_intror eq_refl) _ _).
    + refine (shw_add Sub (Num 7) (Bin Mul (Num 2) (Bin Add (Num 3) (Num (-1)))) [dec 7] (map txt ["2"; "*"; "("; "3"; "+"; "-1"; ")"]) (or_intror eq_refl) (shw_prod _ _ (HN 7%Z)) _).
      refine (shw_mul Mul (Num 2) (Bin Add (Num 3) (Num (-1))) [dec 2] (map txt ["("; "3"; "+"; "-1"; ")"]) (or_introl eq_refl) (HN 2%Z) _).
      refine (shw_par (Bin Add (Num 3) (Num (-1))) (map txt ["3"; "+"; "-1"]) _).
      exact (shw_add Add (Num 3) (Num (-1)) [dec 3] [dec (-1)] (or_introl eq_refl) (shw_prod _ _ (HN 3%Z)) (HN (-1)%Z)).
    + exact (shw_mul Div (Num 8) (Num 3) [dec 8] [dec 3] (or_intror eq_refl) (HN 8%Z) (shw_num 3)).
  - calc.
  - unfold C43_ts. cbn [map].
    apply (S1 (txt "7")). apply (S1 (txt "-")). apply (S1 (txt "2")). apply (S0 (txt "*")). apply (S0 (txt "(")). apply (S1 (txt "3")). apply (S0 (txt "+")). apply (S0 (txt "-1")). apply (S0 (txt ")")). apply (S1 (txt "-")). apply (S1 (txt "8")). apply (S0 (txt "/")). apply (S0 (txt "3")). apply spc_end.
  - repeat (constructor; [unfold tok; calc|]). constructor.
  - exact eq_refl.
  - intros b z r E Hb. destruct Hb as [|y b Hy Hb]; [injection E as <- _; cbn; intuition discriminate|]. injection E as <- _. discriminate.
  - exists (removelast C43_l). cases; calc.
  - exists (map (fun e => match e with (i, v) => Event i v end)
      [(0, VNum 7); (0, VNum 7); (0, VNum 2); (0, VNum 3); (0, VNum 3); (0, VNum (-1)); (1, VTuple [VNum 43; VNum (-1)]);
       (1, VTuple [VNum 42; VNum 2]); (1, VTuple [VNum 45; VNum 4]); (0, VNum 8); (1, VTuple [VNum 47; VNum 3]); (1, VTuple [VNum 45; VNum 2])]). perform.
Qed.

Theorem C43_refuted :
  exists z, in_range true 32 z = true /\ shows Sum (Num z) [dec z] /\
  parse math_env 99 int32 (VNum 0) math (dec z) = Err (EUb UbOverflow).
Proof. exists (-2147483648)%Z. split; [calc|]. split; [apply shw_prod, shw_prim, shw_num|calc]. Qed.
Print Assumptions C43_refuted.
