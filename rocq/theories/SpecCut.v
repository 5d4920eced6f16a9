(** The same pattern with bounds where it has none: what *p, +p and numbers without a
    largest number of digits are, if one never counts further than [N]. *)
From Coq Require Import List ZArith Bool Arith.
From Verif Require Import Base CharSet Source Dst Pattern Parser Session SpecSession SpecRun.
Import ListNotations.

(** The largest number of elements, 0 for no bound: at most [N] more than the smallest one
    ([N = 0]: left as it is). *)
Definition most (N lo hi : nat) : nat := if (hi =? 0) && negb (N =? 0) then lo + N else hi.

Fixpoint cut (N : nat) (p : pat) : pat :=
  match p with
  | UInt b lo hi => UInt b lo (if (hi =? 0)%Z then Z.of_nat N else hi)
  | Int b lo hi => Int b lo (if (hi =? 0)%Z then Z.of_nat N else hi)
  | Repeat lo hi q => Repeat lo (most N lo hi) (cut N q)
  | Seq l => Seq (map (cut N) l)
  | Alt l => Alt (map (cut N) l)
  | Not q => Not (cut N q)
  | Opt q => Opt (cut N q)
  | Discard q => Discard (cut N q)
  | Lexeme q => Lexeme (cut N q)
  | WithSkipper q s => WithSkipper (cut N q) (cut N s)
  | BindDst q => BindDst (cut N q)
  | Construct args q => Construct args (cut N q)
  | Act a q => Act a (cut N q)
  | Except q neg => Except (cut N q) (cut N neg)
  | PList q sep => PList (cut N q) (cut N sep)
  | _ => p
  end.

(** ... and in the definitions of the Recur patterns. *)
Definition cut_env (N : nat) (env : nat -> option pat) : nat -> option pat :=
  fun id => option_map (cut N) (env id).

(** Nobody sees a difference: the same answer, position, destination and action calls, or
    the same way of going wrong. *)
Definition parse_alike (o1 o2 : outcome (result * world sfwd)) : Prop :=
  match o1, o2 with
  | Done (r1, w1), Done (r2, w2) => r1 = r2 /\ left_at w1 = left_at w2 /\ w_cells w1 = w_cells w2 /\ w_trace w1 = w_trace w2
  | Err e1, Err e2 => e1 = e2
  | _, _ => False
  end.
Definition session_alike (o1 o2 : outcome (session cseq)) : Prop :=
  match o1, o2 with
  | Done s1, Done s2 =>
    s_res s1 = s_res s2 /\ cs_unread (w_src (s_world s1)) = cs_unread (w_src (s_world s2)) /\
    w_cells (s_world s1) = w_cells (s_world s2) /\ w_trace (s_world s1) = w_trace (s_world s2)
  | Err e1, Err e2 => e1 = e2
  | _, _ => False
  end.
