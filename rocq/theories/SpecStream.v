(** What a parser that reads a stream of items may still need of the data it was fed. *)
From Coq Require Import List ZArith Bool Arith.
From Verif Require Import Base Source Dst Pattern Parser Session SpecSource SpecSession SpecRun SpecValue SpecCollect.
Import ListNotations.

(** The buffers a schedule feeds, empty ones left out. *)
Fixpoint buffers (l : list call) : list (list Z) :=
  match l with
  | [] => []
  | Feed [] _ :: l' => buffers l'
  | Feed b _ :: l' => b :: buffers l'
  | Consume :: l' => buffers l'
  end.

(** A parser for one item of repeat<lo, hi>(q): repeat<1, 1>(q) if the number of items is
    fixed, repeat<0, 1>(q) if the repetition may end with any item. *)
Definition item_of (lo hi : nat) (q : pat) : pat :=
  if (lo =? hi) && negb (hi =? 0) then Repeat 1 1 q else Repeat 0 1 q.

(** [n] elements, each but the first behind a separator; [el] and [sp] are parsers for one
    element and for one separator. *)
Inductive elements (env : nat -> option pat) (el sp : pat) (t : ty) (v : val) (s : list Z) :
  nat -> list Z -> val -> list event -> Prop :=
| els_none : elements env el sp t v s 0 s v []
| els_first s' v' k :
    parses env el t SUCCESS s v s' v' k -> elements env el sp t v s 1 s' v' k
| els_next n s1 v1 k1 s2 v2 k2 s' v' k3 :
    elements env el sp t v s (S n) s1 v1 k1 ->
    parses env sp t SUCCESS s1 v1 s2 v2 k2 ->
    parses env el t SUCCESS s2 v2 s' v' k3 ->
    elements env el sp t v s (S (S n)) s' v' (k1 ++ k2 ++ k3).

(** The session [s] is where a session of [p] alone is that started with [v], after the calls
    [k], and was fed [b]: it waits for more, with the same object and the same calls. *)
Definition under_way (env : nat -> option pat) (p : pat) (t : ty) (v : val) (b : list Z) (k : list event) (s : session cseq) : Prop :=
  exists m s1, run_session env m t v p [Feed b false; Consume] = Done s1 /\ s_res s1 = None
  /\ w_cells (s_world s) = w_cells (s_world s1) /\ w_trace (s_world s) = w_trace (s_world s1) ++ rev k.

(** The parser for one part of a sequence that fills an object of type [t]: parts that emit
    nothing do not see the object. *)
Definition part (t : ty) (p : pat) : pat :=
  match t with TNil => p | _ => if ignores p then Discard p else p end.

(** Parts one after the other, all of which match; [U] is what is around each of them. *)
Inductive through (env : nat -> option pat) (U : pat -> pat) (t : ty) :
  list pat -> val -> list Z -> list Z -> val -> list event -> Prop :=
| thr_none v s : through env U t [] v s s v []
| thr_one p l v s s1 v1 k1 s' v' k :
    parses env (U (part t p)) t SUCCESS s v s1 v1 k1 ->
    through env U t l v1 s1 s' v' k ->
    through env U t (p :: l) v s s' v' (k1 ++ k).

(** As [under_way]; the session of [p] alone holds what reaches beyond [o]. *)
Definition waits_alone (env : nat -> option pat) (p : pat) (t : ty) (v : val) (b : list Z) (k : list event)
           (o : nat) (s : session cseq) : Prop :=
  exists m s1, run_session env m t v p [Feed b false; Consume] = Done s1 /\ s_res s1 = None
  /\ w_cells (s_world s) = w_cells (s_world s1) /\ w_trace (s_world s) = w_trace (s_world s1) ++ rev k
  /\ map snd (cs_bufs (w_src (s_world s1))) = reaching o (buffers [Feed b false]).
