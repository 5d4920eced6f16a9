(** The theorems on termination. *)
From Coq Require Import String List ZArith Bool Arith.
From Verif Require Import Base CharSet Source Dst Pattern Parser Session SpecSession SpecTerm TermThms Demo MathDemo.
Import ListNotations.
Local Open Scope string_scope.
Local Open Scope list_scope.

(** ** C38 *)

(** parse() of a guarded pattern comes to an end on every input: with an answer, or where
    the pattern does not fit the destination, a number overflows, an uninitialised object is
    read or an undefined Recur is called. *)
Theorem C38_parse_ends :
  forall eager rank env, all_guarded eager rank env ->
  forall t v p inp, guarded eager rank None p = true ->
  exists o, reaches (fun n => parse env n t v p inp) o /\
  match o with
  | Done (r, _) => r = SUCCESS \/ r = FAILURE
  | Err e => e = EType \/ e = EUb UbOverflow \/ e = EUb UbUninit \/ e = EUb UbRecur
  end.
Proof. exact parse_answers_or. Qed.
Print Assumptions C38_parse_ends.

(** ... and so does every session, whatever it feeds and wherever it calls consume(). *)
Theorem C38_sessions_end :
  forall eager rank env, all_guarded eager rank env ->
  forall t v p l, guarded eager rank None p = true -> legal l = true ->
  exists o, reaches (fun n => run_session env n t v p l) o /\
  match o with
  | Done s => ended (removelast l) = true -> last l (Feed [] false) = Consume ->
              s_res s = Some SUCCESS \/ s_res s = Some FAILURE
  | Err e => e = EType \/ e = EUb UbOverflow \/ e = EUb UbUninit \/ e = EUb UbRecur
  end.
Proof. exact session_answers_or. Qed.
Print Assumptions C38_sessions_end.

(** Without the guard: [*pass] and [p = p >> 'x'] never end, on no input. *)
Theorem C38_guard_needed :
  (forall env t v n inp, parse env n t v (Repeat 0 0 Pass) inp = Err EFuel) /\
  (forall v n inp, parse (fun _ => Some (Seq [Recur 0 false; Lit [120%Z]])) n TNil v (Recur 0 false) inp = Err EFuel).
Proof. exact (conj (fun env t v n inp => star_pass_diverges env n t v inp) (fun v n inp => left_diverges n v inp)). Qed.
Print Assumptions C38_guard_needed.

(** The math example: [expr] reads something, and calls itself behind a parenthesis. *)
Example C38_math :
  all_guarded (fun _ => true) (fun _ => 0) math_env /\ guarded (fun _ => true) (fun _ => 0) None math = true.
Proof. split; [|reflexivity]. intros [|id] q [= <-]. split; reflexivity. Qed.

(** The pattern of the README. *)
Example C38_readme : guarded (fun _ => false) (fun _ => 0) None readme = true.
Proof. reflexivity. Qed.

(** Two that call each other, one of them without having read anything; a skipper with a
    Recur in it; an optional part in front of the recursive call. *)
Definition C38_env : nat -> option pat := fun id =>
  match id with
  | 0 => Some (Alt [Seq [Opt (lc "-"); Recur 1 false; lc "x"]; uint_])
  | 1 => Some (Seq [lc "("; PList (Recur 0 false) (lc ","); lc ")"])
  | 2 => Some (Seq [lc "{"; star (Alt [Recur 2 false; Except any (lc "}")]); lc "}"])
  | _ => None
  end.
Definition C38_p : pat := WithSkipper (Recur 0 false) (Alt [ws; Recur 2 false]).

Example C38_example :
  all_guarded (fun _ => true) (fun id => 1 - id) C38_env /\ guarded (fun _ => true) (fun id => 1 - id) None C38_p = true /\
  exists w, parse C38_env 200 TNil VNil C38_p (txt "{a{b}c} -(1, ({ } 2)x )x rest") = Done (SUCCESS, w) /\ sf_cur (w_src w) = txt " rest".
Proof.
  split; [|split; [reflexivity|]].
  - intros [|[|[|id]]] q [= <-]; split; reflexivity.
  - eexists. split; vm_compute; reflexivity.
Qed.
