(** The same for patterns with and without skipper, and with skippers of single characters
    inside: every apply_skipper and every lexeme changes what is skipped. *)
From Coq Require Import List ZArith Bool Arith.
From Verif Require Import Base CharSet Dst Pattern SpecPeg SpecReady SpecLang SpecAwaitSkip.
Import ListNotations.

(** What is skipped, if there is a skipper. *)
Definition skipping := option (Z -> bool).
Definition skipped (k : skipping) : Z -> bool := match k with Some b => b | None => fun _ => false end.

Section Opens.
(** [char]: the characters there are. *)
Context (env : nat -> option pat) (char : Z -> Prop).
Notation settled k := (settled_below env char (skipped k)).

Inductive opens : skipping -> goal -> list Z -> Prop :=
(** With a skipper everything waits for something that is not skipped. *)
| op_blank b p s : trim (chars b) s = [] -> opens (Some b) (One p) s
| op_primitive k p s : primitive p = true -> unsettled p (trim (chars (skipped k)) s) -> opens k (One p) s

| op_seq k l s : opens k (All l) s -> opens k (One (Seq l)) s
| op_all k p l s : opens k (One p) s -> opens k (All (p :: l)) s
| op_all_next k p l s s1 : settled k p s (Some s1) -> opens k (All l) s1 -> opens k (All (p :: l)) s

| op_alt k l s : opens k (Any l) s -> opens k (One (Alt l)) s
| op_any k p l s : opens k (One p) s -> opens k (Any (p :: l)) s
| op_any_next k p l s : settled k p s None -> opens k (Any l) s -> opens k (Any (p :: l)) s

| op_repeat k lo hi p s : opens k (Times lo hi 0 p) s -> opens k (One (Repeat lo hi p)) s
| op_times k lo hi n p s : opens k (One p) s -> opens k (Times lo hi n p) s
| op_times_next k lo hi n p s s1 :
    settled k p s (Some s1) -> S n <> hi -> opens k (Times lo hi (S n) p) s1 -> opens k (Times lo hi n p) s

| op_not k p s : opens k (One p) s -> opens k (One (Not p)) s
| op_opt k p s : opens k (One p) s -> opens k (One (Opt p)) s
| op_except k p q s : opens k (One q) s -> opens k (One (Except p q)) s
| op_except_next k p q s : settled k q s None -> opens k (One p) s -> opens k (One (Except p q)) s

| op_list k p sep s : opens k (One p) s -> opens k (One (PList p sep)) s
| op_list_next k p sep s s1 : settled k p s (Some s1) -> opens k (More p sep) s1 -> opens k (One (PList p sep)) s
| op_more k p sep s : opens k (One sep) s -> opens k (More p sep) s
| op_more_elem k p sep s s1 : settled k sep s (Some s1) -> opens k (One p) s1 -> opens k (More p sep) s
| op_more_next k p sep s s1 s2 :
    settled k sep s (Some s1) -> settled k p s1 (Some s2) -> opens k (More p sep) s2 -> opens k (More p sep) s

(** What is skipped in front of these is what is skipped outside. *)
| op_lexeme k p s : opens None (One p) (trim (chars (skipped k)) s) -> opens k (One (Lexeme p)) s
| op_skipper k p skp s : opens (Some (passes1 skp)) (One p) (trim (chars (skipped k)) s) -> opens k (One (WithSkipper p skp)) s
| op_discard k p s : opens k (One p) s -> opens k (One (Discard p)) s
| op_bind k p s : opens k (One p) s -> opens k (One (BindDst p)) s
| op_construct k a p s : opens k (One p) s -> opens k (One (Construct a p)) s
| op_act k a p s : opens k (One p) s -> opens k (One (Act a p)) s
| op_recur k id b q s : env id = Some q -> opens k (One q) s -> opens k (One (Recur id b)) s.
End Opens.
