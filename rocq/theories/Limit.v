(** Fuel: families of runs, their limits, and monotonicity of the machine. *)
From Coq Require Import List ZArith Bool Arith Lia.
From Verif Require Import Base CharSet Source Dst Pattern Parser Rel SourceProofs.
Import ListNotations.

(** The answer a family of runs settles on. *)
Definition lim {X} (f : nat -> outcome X) (o : outcome X) : Prop :=
  o <> Err EFuel /\ exists n, f n = o.

Definition EQ {X} (f g : nat -> outcome X) : Prop := forall o, lim f o <-> lim g o.

Lemma EQ_refl {X} (f : nat -> outcome X) : EQ f f.
Proof. intros o. tauto. Qed.
Lemma EQ_sym {X} (f g : nat -> outcome X) : EQ f g -> EQ g f.
Proof. intros H o. symmetry. apply H. Qed.
Lemma EQ_trans {X} (f g h : nat -> outcome X) : EQ f g -> EQ g h -> EQ f h.
Proof. intros H1 H2 o. rewrite (H1 o). apply H2. Qed.
Lemma EQ_pt {X} (f g : nat -> outcome X) : (forall n, f n = g n) -> EQ f g.
Proof.
  intros H o. split; intros [Ho [n Hn]]; split; auto; exists n; [rewrite <- H|rewrite H]; auto.
Qed.

Definition mono {X} (f : nat -> outcome X) : Prop :=
  forall n m, n <= m -> f n = Err EFuel \/ f n = f m.

Lemma mono_lim {X} (f : nat -> outcome X) n o :
  mono f -> f n = o -> o <> Err EFuel -> forall m, n <= m -> f m = o.
Proof. intros Hm Hn Ho m Hl. destruct (Hm n m Hl); congruence. Qed.

Lemma lim_unique {X} (f : nat -> outcome X) o o' : mono f -> lim f o -> lim f o' -> o = o'.
Proof.
  intros Hm [Ho [n Hn]] [Ho' [n' Hn']].
  rewrite <- (mono_lim f n o Hm Hn Ho (max n n')) by lia.
  now rewrite <- (mono_lim f n' o' Hm Hn' Ho' (max n n')) by lia.
Qed.

Lemma EQ_shift {X} (f : nat -> outcome X) : mono f -> EQ f (fun n => f (S n)).
Proof.
  intros Hm o. split; intros [Ho [n Hn]]; split; auto.
  - exists n. apply (mono_lim f n); auto.
  - now exists (S n).
Qed.

Section Families.
Context {S : Type}.

Definition Mono {A} (F : nat -> M S A) : Prop :=
  forall n m, n <= m -> lsim eq (fun e => e = EFuel) (F n) (F m).

Lemma Rw_eq (w1 w2 : world S) : Rw eq w1 w2 <-> w1 = w2.
Proof.
  split.
  - intros (H1 & H2 & H3). destruct w1, w2. cbn in *. congruence.
  - intros ->. repeat split.
Qed.

Lemma Mono_mono {A} (F : nat -> M S A) w : Mono F -> mono (fun n => F n w).
Proof.
  intros H n m Hl. specialize (H n m Hl w w (proj2 (Rw_eq w w) eq_refl)).
  destruct (F n w) as [[a w']|e].
  - right. destruct H as (w2 & -> & Hw). apply Rw_eq in Hw. now subst.
  - destruct H as [->|H]; auto.
Qed.

Lemma Mono_pt {A} (F : nat -> M S A) : (forall w, mono (fun n => F n w)) -> Mono F.
Proof.
  intros H n m Hl w1 w2 Hw. apply Rw_eq in Hw. subst w2. destruct (H w1 n m Hl) as [-> | ->]; auto.
  destruct (F m w1) as [[a w']|e]; auto. exists w'. split; auto. now apply Rw_eq.
Qed.

Lemma lim_bind {A B} (F : nat -> M S A) (K : nat -> A -> M S B) w o :
  Mono F -> (forall a, Mono (fun n => K n a)) ->
  lim (fun n => bind (F n) (K n) w) o <->
  (exists e, o = Err e /\ lim (fun n => F n w) (Err e)) \/
  (exists a w', lim (fun n => F n w) (Done (a, w')) /\ lim (fun n => K n a w') o).
Proof.
  intros HF HK. split.
  - intros [Ho [n Hn]]. unfold bind in Hn. destruct (F n w) as [[a w']|e] eqn:E.
    + right. exists a, w'. split; split; try discriminate; eauto.
    + left. exists e. subst o. split; [reflexivity|]. split; [congruence|eauto].
  - intros [(e & -> & Ho & [n Hn]) | (a & w' & [_ [n Hn]] & Ho & [m Hm])].
    + split; [congruence|]. exists n. unfold bind. now rewrite Hn.
    + split; auto. exists (max n m). unfold bind.
      assert (mono (fun n => F n w)) as HF' by now apply Mono_mono.
      assert (mono (fun n => K n a w')) as HK' by now apply (Mono_mono (fun n => K n a)).
      rewrite (mono_lim (fun n => F n w) n _ HF' Hn) by (try discriminate; lia).
      apply (mono_lim (fun n => K n a w') m _ HK' Hm); auto. lia.
Qed.

Lemma EQ_bind {A B} (F F' : nat -> M S A) (K : nat -> A -> M S B) w w' :
  Mono F -> Mono F' -> (forall a, Mono (fun n => K n a)) ->
  EQ (fun n => F n w) (fun n => F' n w') ->
  EQ (fun n => bind (F n) (K n) w) (fun n => bind (F' n) (K n) w').
Proof.
  intros HF HF' HK H o. rewrite !lim_bind by auto. split.
  - intros [(e & -> & He) | (a & w1 & H1 & H2)].
    + left. exists e. split; auto. now apply H.
    + right. exists a, w1. split; auto. now apply H.
  - intros [(e & -> & He) | (a & w1 & H1 & H2)].
    + left. exists e. split; auto. now apply H.
    + right. exists a, w1. split; auto. now apply H.
Qed.

Lemma EQ_bind_done {A B} (F : nat -> M S A) (K : nat -> A -> M S B) w n a w' :
  Mono F -> (forall a, Mono (fun n => K n a)) -> F n w = Done (a, w') ->
  EQ (fun n => bind (F n) (K n) w) (fun n => K n a w').
Proof.
  intros HF HK E o. rewrite lim_bind by auto.
  assert (lim (fun n => F n w) (Done (a, w'))) as HL by (split; [discriminate|eauto]).
  split.
  - intros [(e & -> & He) | (b & w1 & H1 & H2)].
    + apply (lim_unique _ _ _ (Mono_mono _ _ HF) HL) in He. discriminate.
    + apply (lim_unique _ _ _ (Mono_mono _ _ HF) HL) in H1. injection H1 as <- <-. auto.
  - intros H. right. eauto.
Qed.

End Families.

(** The machine is monotone. *)
Lemma ops_rel_eq {S} (ops : source_ops S) : ops_rel ops ops eq.
Proof.
  constructor; intros a b ->; auto.
  - destruct (so_advance ops b); reflexivity.
  - destruct (so_commit ops b); reflexivity.
  - destruct (so_cancel ops b); reflexivity.
Qed.

Lemma Mono_consume {S} (ops : source_ops S) env c rq d p st :
  Mono (fun n => consume ops env n c rq d p st).
Proof.
  intros n m H. apply lsim_consume; auto using ops_rel_eq.
Qed.

Lemma Mono_const {S A} (m : M S A) : Mono (fun _ => m).
Proof. apply Mono_pt. intros w n k _. auto. Qed.

Lemma Mono_bind {S A B} (F : nat -> M S A) (K : nat -> A -> M S B) :
  Mono F -> (forall a, Mono (fun n => K n a)) -> Mono (fun n => bind (F n) (K n)).
Proof. intros HF HK n m H. apply lsim_bind; auto. intros a. now apply (HK a). Qed.

Lemma Mono_with_cell {S A} v (F : nat -> nat -> M S A) :
  (forall l, Mono (fun n => F n l)) -> Mono (fun n => with_cell v (F n)).
Proof. intros HF n m H. apply lsim_with_cell. intros l. now apply (HF l). Qed.

(** The two sources and the cursor, as the machine sees them. *)
Lemma ops_rel_cs : ops_rel cs_ops (a_ops true) R_cs.
Proof.
  constructor; cbn.
  - exact R_cs_empty.
  - intros. symmetry. destruct H as [? []]; auto.
  - exact R_cs_next.
  - exact R_cs_advance.
  - exact R_cs_prepare.
  - exact R_cs_commit.
  - exact R_cs_cancel.
Qed.

Lemma ops_rel_sf b : ops_rel sf_ops (a_ops b) R_sf.
Proof.
  constructor; cbn.
  - exact R_sf_empty.
  - intros a c [H _]. now symmetry.
  - exact R_sf_next.
  - exact R_sf_advance.
  - exact R_sf_prepare.
  - exact R_sf_commit.
  - exact R_sf_cancel.
Qed.
