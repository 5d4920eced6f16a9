(** How often a resumable parser steps its data source forward, over all the calls of a
    session: every ++ is noted, whether the character is kept or given back later, and
    whichever call of consume() made it.  Feeding takes no step. *)
From Coq Require Import List ZArith Bool Arith.
From Verif Require Import Base CharSet Source Dst Pattern Parser Session SpecSteps.
Import ListNotations.

Definition counted_add {S : Type} (add : list Z -> bool -> S -> outcome S) (b : list Z) (f : bool) (s : S * nat) : outcome (S * nat) :=
  obind (add b f (fst s)) (fun x => Done (x, snd s)).

Definition session_counted (env : nat -> option pat) (n : nat) (t : ty) (v : val) (p : pat)
           (calls : list call) : outcome (session (cseq * nat)) :=
  match top_create (counted cs_ops) t p (World (cs_make, 0) [v] []) with
  | Err e => Err e
  | Done (st, w) => do_calls (counted cs_ops) (counted_add cs_add) env n t p calls (Session_ None st w)
  end.

(** The steps so far. *)
Definition steps {S} (s : session (S * nat)) : nat := snd (w_src (s_world s)).

(** The answer, if there is one, and the steps it took. *)
Definition session_bill (o : outcome (session (cseq * nat))) : outcome (option result * nat) :=
  match o with Done s => Done (s_res s, steps s) | Err e => Err e end.
