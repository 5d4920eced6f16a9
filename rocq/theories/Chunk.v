(** Running on a part of the input and going on when more is there, versus running on all
    of it: Resume.v for the resumable machine over the reference cursor. *)
From Coq Require Import List ZArith Bool Arith Lia.
From Verif Require Import Base CharSet Source Dst Pattern Parser Rel Keep Limit Safety.
From Verif Require Resume.
Import ListNotations.

Section Chunk.
Context (env : nat -> option pat) (more : list Z) (fin' : bool).

Let ops := a_ops true.
Let MM := M cursor.

(** The cursor when [more] has been added and the final flag is [fin']. *)
Definition ext_src (s : cursor) : cursor := Cursor (a_inp s ++ more) fin' (a_pos s) (a_stk s).
Definition ext (w : world cursor) : world cursor :=
  World (ext_src (w_src w)) (w_cells w) (w_trace w).

Definition nf (w : world cursor) : Prop := a_fin (w_src w) = false.

(** Computations that do not look at what more data would change. *)
Definition neu_at {A} (m : MM A) (w : world cursor) : Prop :=
  match m w with
  | Err e => m (ext w) = Err e
  | Done (a, w') => nf w' /\ m (ext w) = Done (a, ext w')
  end.
Definition neu {A} (m : MM A) : Prop := forall w, nf w -> neu_at m w.

(** [F] is a run, by fuel; [G] resumes it from the object it left. *)
Definition CHK (F : nat -> MM (result * pst)) (n : nat) (w : world cursor)
           (G : nat -> pst -> MM (result * pst)) : Prop :=
  match F n w with
  | Err e => F n (ext w) = Err e
  | Done ((PARTIAL, st), w') => nf w' /\ EQ (fun m => F m (ext w)) (fun m => G m st (ext w'))
  | Done ((r, st), w') => nf w' /\ F n (ext w) = Done ((r, st), ext w')
  end.

Lemma cursor_extends : Resume.extends ops ext_src (fun s => a_fin s = false).
Proof.
  assert (He : forall s, a_empty s = false -> a_empty (ext_src s) = false).
  { intros s. unfold a_empty. cbn. rewrite app_length, !Nat.leb_gt. lia. }
  constructor; cbn; auto.
  - intros s E. unfold a_next. cbn. unfold a_empty in E. apply Nat.leb_gt in E. now rewrite nth_error_app1 by lia.
  - intros s H E. unfold a_advance. rewrite (He s E), E. auto.
  - intros s H. unfold a_commit. cbn. destruct (a_stk s); auto.
  - intros s H. unfold a_cancel. cbn. destruct (a_stk s); auto.
Qed.

Lemma neu_create c rq d p : neu (create ops c rq d p).
Proof. exact (Resume.neu_create ops ext_src _ cursor_extends c rq d p). Qed.

Lemma chk_all n c rq d p st w :
  nf w -> CHK (fun k => consume ops env k c rq d p st) n w (fun k st => consume ops env k c rq d p st).
Proof. exact (Resume.chk_all ops ext_src _ cursor_extends env n c rq d p st w). Qed.
End Chunk.
