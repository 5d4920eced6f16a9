(** The theorems on the number of steps. *)
From Coq Require Import String List ZArith Bool Arith.
From Verif Require Import Base CharSet Source Dst Pattern Parser Session SpecTerm SpecSteps StepsThms StepsRec Demo.
Import ListNotations.
Local Open Scope string_scope.
Local Open Scope list_scope.

(** ** C69 *)

(** Counting the steps changes nothing. *)
Theorem C69_counting_only_counts :
  forall env n t v p inp,
  match parse env n t v p inp with
  | Done (r, _) => exists k, parse_counted env n t v p inp = Done (r, k)
  | Err e => parse_counted env n t v p inp = Err e
  end.
Proof. exact parse_counted_parse. Qed.
Print Assumptions C69_counting_only_counts.

(** Without recursion, and when what is repeated always reads something: the number of steps
    is at most a power of the length of the text; the exponent is how deep the loops of the
    pattern are nested.  The constant is that of the pattern: it does not depend on the
    text, the destination or what is in it. *)
Theorem C69_steps_by_nesting :
  forall rank p, plain p = true -> guarded (fun _ => false) rank None p = true ->
  within (depth 0 p) (fun inp k => exists env n t v r, parse_counted env n t v p inp = Done (r, k)).
Proof. exact parse_depth. Qed.
Print Assumptions C69_steps_by_nesting.

(** Closer: loops inside loops cost nothing extra when what they read is kept. *)
Theorem C69_steps_by_order :
  forall rank p, plain p = true -> guarded (fun _ => false) rank None p = true ->
  within (order p) (fun inp k => exists env n t v r, parse_counted env n t v p inp = Done (r, k)) /\
  order p <= depth 0 p.
Proof. exact (fun rank p Hp Hg => conj (parse_order rank p Hp Hg) (order_below p)). Qed.
Print Assumptions C69_steps_by_order.

(** The exponent is needed: [*(+lit('a') >> lit('b') | lit('a'))], of order 2, takes exactly
    n(n+3)/2 steps over n letters 'a'. *)
Theorem C69_linear_refuted :
  exists p, plain p = true /\ guarded (fun _ => false) (fun _ => 0) None p = true /\ order p = 2 /\
  (forall env n v, exists m k, parse_counted env m TNil v p (repeat 97%Z n) = Done (SUCCESS, k) /\ 2 * k = n * (n + 3)) /\
  (forall env, ~ within 1 (fun inp k => exists n t v r, parse_counted env n t v p inp = Done (r, k))).
Proof. exact (ex_intro _ square (conj eq_refl (conj eq_refl (conj eq_refl (conj square_parse square_not_linear))))). Qed.
Print Assumptions C69_linear_refuted.

(** With recursion there is no such bound: p = '(' >> p >> ')' | '(' >> p >> ']' | 'x' fails
    on n opening parentheses after 2^(n+1) - 2 steps. *)
Theorem C69_recursion_refuted :
  exists env p, all_guarded (fun _ => true) (fun _ => 1) env /\ guarded (fun _ => true) (fun _ => 1) None p = true /\
  (forall n v, exists m k, parse_counted env m TNil v p (repeat 40%Z n) = Done (FAILURE, k) /\ k + 2 = 2 ^ (n + 1)) /\
  (forall d, ~ within d (fun inp k => exists n t v r, parse_counted env n t v p inp = Done (r, k))).
Proof. exact (ex_intro _ twice (ex_intro _ (Recur 0 true) (conj (proj2 twice_guarded) (conj (proj1 twice_guarded) (conj twice_parse twice_not_within))))). Qed.
Print Assumptions C69_recursion_refuted.

(** The pattern of the README: the skipping in front of every part is a loop of its own; the
    blank in front of the bracket is read twice. *)
Example C69_readme :
  plain readme = true /\ guarded (fun _ => false) (fun _ => 0) None readme = true /\ order readme = 2 /\ depth 0 readme = 2 /\
  parse_counted noenv 200 (TColl int32) (VColl []) readme (txt "[ 12, 3 ,45 ] rest") = Done (SUCCESS, 14).
Proof. repeat split; vm_compute; reflexivity. Qed.

(** Lines of words: three loops nested, one pass over the text. *)
Definition C69_lines : pat := star (Seq [PList (plus (Char (CRange ct_char 97 122))) (lc " "); Lit (txt ";")]).
Example C69_lines_linear :
  plain C69_lines = true /\ guarded (fun _ => false) (fun _ => 0) None C69_lines = true /\ depth 0 C69_lines = 3 /\ order C69_lines = 1 /\
  parse_counted noenv 200 TNil VNil C69_lines (txt "ab cd;e f;;g") = Done (SUCCESS, 12).
Proof. repeat split; vm_compute; reflexivity. Qed.

(** Without a loop: a constant, whatever the text. *)
Example C69_constant :
  order (Alt [Seq [Lit (txt "abc"); UInt 10 1 3]; Except any (lc "a")]) = 0.
Proof. reflexivity. Qed.
