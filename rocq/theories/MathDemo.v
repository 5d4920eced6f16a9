(** examples/math_expression/main.cpp. *)
From Coq Require Import List ZArith Bool String.
From Verif Require Import Base CharSet Source Dst Pattern Parser Session Demo.
Import ListNotations.
Local Open Scope Z_scope.

(** [](int v, auto p) { p.bound_dst.get() = v; }, main.cpp:20. *)
Definition assign_act : action := Action_ 0 int32 true true (fun x _ => (VNil, x)).

(** (int)lhs op rhs, main.cpp:31-42; overflow and division by zero, which are undefined, are
    made to give something that is no int. *)
Definition int_result (z : Z) : val := if in_range true 32 z then VNum z else VUndef.
Definition binop (c x y : Z) : val :=
  if c =? 43 then int_result (x + y)
  else if c =? 45 then int_result (x - y)
  else if c =? 42 then int_result (x * y)
  else if c =? 47 then if y =? 0 then VUndef else int_result (Z.quot x y)
  else VNum x.

(** [](std::tuple<char, int> v, auto p), main.cpp:25-44. *)
Definition binop_act : action :=
  Action_ 1 (TTuple [char8; int32]) true true (fun v b =>
    (VNil, match v, b with VTuple [VNum c; VNum y], VNum x => binop c x y | _, _ => VUndef end)).

(** main.cpp:46-56.  [char_("*/")]: the characters and the 0 behind them. *)
Definition expr_ : pat := Recur 0 false.
Definition primary : pat := Alt [int_; Seq [lc "("; expr_; lc ")"]].
Definition row (cs : list Z) (p : pat) : pat :=
  BindDst (Seq [Act assign_act p; Repeat 0 0 (Act binop_act (Seq [Char (set_of_cstr (cs ++ [0])); p]))]).
Definition muldiv : pat := row (txt "*/") primary.
Definition addsub : pat := row (txt "+-") muldiv.
Definition math_env : nat -> option pat := fun id => match id with O => Some addsub | _ => None end.
(** apply_skipper(expr, lit(' ')), main.cpp:58. *)
Definition space : pat := lc " ".
Definition math : pat := WithSkipper expr_ space.

Example math_1 : exists w, parse math_env 200 int32 (VNum 0) math (txt " 7 - 2*( 3+-1) - 8/3") = Done (SUCCESS, w) /\ w_cells w = [VNum 1].
Proof. eexists. split; [vm_compute; reflexivity|reflexivity]. Qed.
