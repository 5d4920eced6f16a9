(** When what was given so far does not settle yet what a pattern answers, by the parts of the
    pattern: all parts in front have their answer, whatever may follow, and the part that is
    read now has not. *)
From Coq Require Import List ZArith Bool Arith.
From Verif Require Import Base CharSet Dst Pattern SpecPeg SpecReady.
Import ListNotations.

Section Await.
(** [char]: the characters there are. *)
Context (env : nat -> option pat) (char : Z -> Prop).

(** Whatever follows: [p] matches up to [t] in front of it, or does not match. *)
Definition settled (p : pat) (s : list Z) (r : option (list Z)) : Prop :=
  forall more, Forall char more ->
  m env nows (One p) (s ++ more) (match r with Some t => Some (t ++ more) | None => None end).

Inductive awaits : goal -> list Z -> Prop :=
| aw_primitive p s : primitive p = true -> unsettled p s -> awaits (One p) s

| aw_seq l s : awaits (All l) s -> awaits (One (Seq l)) s
| aw_all p l s : awaits (One p) s -> awaits (All (p :: l)) s
| aw_all_next p l s s1 : settled p s (Some s1) -> awaits (All l) s1 -> awaits (All (p :: l)) s

| aw_alt l s : awaits (Any l) s -> awaits (One (Alt l)) s
| aw_any p l s : awaits (One p) s -> awaits (Any (p :: l)) s
| aw_any_next p l s : settled p s None -> awaits (Any l) s -> awaits (Any (p :: l)) s

| aw_repeat lo hi p s : awaits (Times lo hi 0 p) s -> awaits (One (Repeat lo hi p)) s
| aw_times lo hi n p s : awaits (One p) s -> awaits (Times lo hi n p) s
| aw_times_next lo hi n p s s1 :
    settled p s (Some s1) -> S n <> hi -> awaits (Times lo hi (S n) p) s1 -> awaits (Times lo hi n p) s

| aw_not p s : awaits (One p) s -> awaits (One (Not p)) s
| aw_opt p s : awaits (One p) s -> awaits (One (Opt p)) s
| aw_except p q s : awaits (One q) s -> awaits (One (Except p q)) s
| aw_except_next p q s : settled q s None -> awaits (One p) s -> awaits (One (Except p q)) s

| aw_list p sep s : awaits (One p) s -> awaits (One (PList p sep)) s
| aw_list_next p sep s s1 : settled p s (Some s1) -> awaits (More p sep) s1 -> awaits (One (PList p sep)) s
| aw_more p sep s : awaits (One sep) s -> awaits (More p sep) s
| aw_more_elem p sep s s1 : settled sep s (Some s1) -> awaits (One p) s1 -> awaits (More p sep) s
| aw_more_next p sep s s1 s2 :
    settled sep s (Some s1) -> settled p s1 (Some s2) -> awaits (More p sep) s2 -> awaits (More p sep) s

| aw_lexeme p s : awaits (One p) s -> awaits (One (Lexeme p)) s
| aw_discard p s : awaits (One p) s -> awaits (One (Discard p)) s
| aw_bind p s : awaits (One p) s -> awaits (One (BindDst p)) s
| aw_construct a p s : awaits (One p) s -> awaits (One (Construct a p)) s
| aw_act a p s : awaits (One p) s -> awaits (One (Act a p)) s
| aw_recur id b q s : env id = Some q -> awaits (One q) s -> awaits (One (Recur id b)) s.
End Await.

(** No skipper anywhere. *)
Fixpoint bare (p : pat) : bool :=
  match p with
  | Seq l | Alt l => forallb bare l
  | Repeat _ _ q | Not q | Opt q | Discard q | Lexeme q | BindDst q | Construct _ q | Act _ q => bare q
  | Except q r | PList q r => bare q && bare r
  | WithSkipper _ _ => false
  | _ => true
  end.
