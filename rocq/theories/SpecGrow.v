(** What a run makes of the contents a destination had before. *)
From Coq Require Import List ZArith Bool Arith.
From Verif Require Import Base CharSet Source Dst Pattern Parser Session.
Import ListNotations.

(** All the actions in a pattern are of some kind. *)
Fixpoint every_action (P : action -> Prop) (p : pat) {struct p} : Prop :=
  match p with
  | Seq l | Alt l =>
    (fix go (l : list pat) : Prop := match l with [] => True | q :: r => every_action P q /\ go r end) l
  | Repeat _ _ q | Not q | Opt q | Discard q | Lexeme q | BindDst q | Construct _ q => every_action P q
  | WithSkipper q s => every_action P q /\ every_action P s
  | Act a q => P a /\ every_action P q
  | Except q n => every_action P q /\ every_action P n
  | PList q s => every_action P q /\ every_action P s
  | _ => True
  end.
Definition every_action_in (P : action -> Prop) (env : nat -> option pat) : Prop :=
  forall id q, env id = Some q -> every_action P q.

(** A collection with [pre] in front of its elements. *)
Definition in_front (pre : list val) (v : val) : val :=
  match v with VColl l => VColl (pre ++ l) | _ => v end.

(** The callback either does not take the bound destination, or treats collections alike
    whatever they start with: push_back and the like. *)
Definition indifferent (a : action) : Prop :=
  ac_param a = true -> forall x l pre,
  ac_fun a x (VColl (pre ++ l)) =
  (fst (ac_fun a x (VColl l)), in_front pre (snd (ac_fun a x (VColl l)))).

(** The same outcome, with [pre] in front of what the destination holds. *)
Definition world_front {S} (pre : list val) (w : world S) : world S :=
  World (w_src w) (map (in_front pre) (w_cells w)) (w_trace w).
Definition parse_front (pre : list val) (o : outcome (result * world sfwd)) : outcome (result * world sfwd) :=
  match o with
  | Done (r, w) => Done (r, world_front pre w)
  | Err e => Err e
  end.
Definition session_front (pre : list val) (o : outcome (session cseq)) : outcome (session cseq) :=
  match o with
  | Done s => Done (Session_ (s_res s) (s_st s) (world_front pre (s_world s)))
  | Err e => Err e
  end.

(** The callback does not take the bound destination. *)
Definition unaware (a : action) : Prop := ac_param a = false.

(** [v'] and [w'], made of [v] and [w], either are these still or do not depend on them. *)
Definition left_or_set (v w v' w' : val) : Prop := v' = v /\ w' = w \/ v' = w'.

(** Two outcomes alike but for a destination that held [v] in one case and [w] in the other. *)
Definition parse_alike (v w : val) (o1 o2 : outcome (result * world sfwd)) : Prop :=
  match o1, o2 with
  | Done (r1, w1), Done (r2, w2) =>
    r1 = r2 /\ w_src w1 = w_src w2 /\ w_trace w1 = w_trace w2 /\
    exists v' w', w_cells w1 = [v'] /\ w_cells w2 = [w'] /\ left_or_set v w v' w'
  | Err e1, Err e2 => e1 = e2
  | _, _ => False
  end.
Definition session_alike (v w : val) (o1 o2 : outcome (session cseq)) : Prop :=
  match o1, o2 with
  | Done s1, Done s2 =>
    s_res s1 = s_res s2 /\ s_st s1 = s_st s2 /\
    w_src (s_world s1) = w_src (s_world s2) /\ w_trace (s_world s1) = w_trace (s_world s2) /\
    exists v' w', w_cells (s_world s1) = [v'] /\ w_cells (s_world s2) = [w'] /\ left_or_set v w v' w'
  | Err e1, Err e2 => e1 = e2
  | _, _ => False
  end.
