(** The same below a skipper of single characters: each part first passes over what is to be
    skipped, and waits if there is nothing behind it yet. *)
From Coq Require Import List ZArith Bool Arith.
From Verif Require Import Base CharSet Dst Pattern SpecPeg SpecReady SpecAwait.
Import ListNotations.

Section Below.
(** [char]: the characters there are; [blank]: those that are skipped. *)
Context (env : nat -> option pat) (char : Z -> Prop) (blank : Z -> bool).
Notation ws := (chars blank).

(** Whatever follows: [p] matches up to [t] in front of it (or to somewhere else in the blanks
    there), or does not match. *)
Definition settled_below (p : pat) (s : list Z) (r : option (list Z)) : Prop :=
  forall more, Forall char more ->
  match r with
  | Some t => exists t', m env ws (One p) (s ++ more) (Some t') /\ trim ws t' = trim ws (t ++ more)
  | None => m env ws (One p) (s ++ more) None
  end.
Notation settled := settled_below.

Inductive awaits_below : goal -> list Z -> Prop :=
| ab_blank p s : trim ws s = [] -> awaits_below (One p) s
| ab_primitive p s : primitive p = true -> unsettled p (trim ws s) -> awaits_below (One p) s

| ab_seq l s : awaits_below (All l) s -> awaits_below (One (Seq l)) s
| ab_all p l s : awaits_below (One p) s -> awaits_below (All (p :: l)) s
| ab_all_next p l s s1 : settled p s (Some s1) -> awaits_below (All l) s1 -> awaits_below (All (p :: l)) s

| ab_alt l s : awaits_below (Any l) s -> awaits_below (One (Alt l)) s
| ab_any p l s : awaits_below (One p) s -> awaits_below (Any (p :: l)) s
| ab_any_next p l s : settled p s None -> awaits_below (Any l) s -> awaits_below (Any (p :: l)) s

| ab_repeat lo hi p s : awaits_below (Times lo hi 0 p) s -> awaits_below (One (Repeat lo hi p)) s
| ab_times lo hi n p s : awaits_below (One p) s -> awaits_below (Times lo hi n p) s
| ab_times_next lo hi n p s s1 :
    settled p s (Some s1) -> S n <> hi -> awaits_below (Times lo hi (S n) p) s1 -> awaits_below (Times lo hi n p) s

| ab_not p s : awaits_below (One p) s -> awaits_below (One (Not p)) s
| ab_opt p s : awaits_below (One p) s -> awaits_below (One (Opt p)) s
| ab_except p q s : awaits_below (One q) s -> awaits_below (One (Except p q)) s
| ab_except_next p q s : settled q s None -> awaits_below (One p) s -> awaits_below (One (Except p q)) s

| ab_list p sep s : awaits_below (One p) s -> awaits_below (One (PList p sep)) s
| ab_list_next p sep s s1 : settled p s (Some s1) -> awaits_below (More p sep) s1 -> awaits_below (One (PList p sep)) s
| ab_more p sep s : awaits_below (One sep) s -> awaits_below (More p sep) s
| ab_more_elem p sep s s1 : settled sep s (Some s1) -> awaits_below (One p) s1 -> awaits_below (More p sep) s
| ab_more_next p sep s s1 s2 :
    settled sep s (Some s1) -> settled p s1 (Some s2) -> awaits_below (More p sep) s2 -> awaits_below (More p sep) s

(** Nothing is skipped in there. *)
| ab_lexeme p s : awaits env char (One p) (trim ws s) -> awaits_below (One (Lexeme p)) s
| ab_discard p s : awaits_below (One p) s -> awaits_below (One (Discard p)) s
| ab_bind p s : awaits_below (One p) s -> awaits_below (One (BindDst p)) s
| ab_construct a p s : awaits_below (One p) s -> awaits_below (One (Construct a p)) s
| ab_act a p s : awaits_below (One p) s -> awaits_below (One (Act a p)) s
| ab_recur id b q s : env id = Some q -> awaits_below (One q) s -> awaits_below (One (Recur id b)) s.
End Below.
