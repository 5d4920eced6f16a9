(** bind_dst(p[a] >> *q[b]): actions that work on the destination, one after the other. *)
From Coq Require Import List ZArith Bool Arith.
From Verif Require Import Base CharSet Source Dst Pattern Parser Session SpecSession SpecRun SpecValue.
Import ListNotations.

(** [q] is parsed into an object of the type that the action takes, the action called with
    it.  [v], [v']: the bound destination before and after. *)
Definition performs (env : nat -> option pat) (a : action) (q : pat) (t : ty)
           (v : val) (s s' : list Z) (v' : val) (k : list event) : Prop :=
  exists l x k1, does env q (ac_land a) (default_init (ac_land a)) s SUCCESS s' l k1 /\
    conv (ac_land a) l = Done x /\ called a t v x v' /\ k = k1 ++ [Event (ac_id a) x].

Definition declines (env : nat -> option pat) (a : action) (q : pat)
           (s s' : list Z) (k : list event) : Prop :=
  exists l, does env q (ac_land a) (default_init (ac_land a)) s FAILURE s' l k.

(** As often as there is a [q]. *)
Inductive folded (env : nat -> option pat) (a : action) (q : pat) (t : ty) :
  val -> list Z -> list Z -> val -> list event -> Prop :=
| fld_end v s s1 k : declines env a q s s1 k -> folded env a q t v s s v k
| fld_more v s s1 v1 k1 s' v' k :
    performs env a q t v s s1 v1 k1 -> folded env a q t v1 s1 s' v' k ->
    folded env a q t v s s' v' (k1 ++ k).
