(** Recur patterns at the top of parse(). *)
From Coq Require Import List ZArith Bool Arith Lia.
From Verif Require Import Base CharSet Source Dst Pattern Parser Session Rel Limit SpecSession.
From Verif Require Import SpecRun Run Blind BlindThms Local SpecValue LocalThms Unary.
Import ListNotations.

Section Recur.
Context (env : nat -> option pat).

Definition same {A} (m1 m2 : M sfwd A) : Prop := forall w, m1 w = m2 w.
Lemma same_refl {A} (m : M sfwd A) : same m m. Proof. intros w. reflexivity. Qed.
Lemma same_bind {A B} (m1 m2 : M sfwd A) (f1 f2 : A -> M sfwd B) :
  same m1 m2 -> (forall a, same (f1 a) (f2 a)) -> same (bind m1 f1) (bind m2 f2).
Proof. intros Hm Hf w. unfold bind. rewrite Hm. destruct (m2 w) as [[a w']|]; auto. apply Hf. Qed.
Lemma same_with_cell {A} v (f1 f2 : nat -> M sfwd A) : (forall l, same (f1 l) (f2 l)) -> same (with_cell v f1) (with_cell v f2).
Proof. intros H w. unfold with_cell. now rewrite H. Qed.

(** consume never asks whether it was created by a Recur pattern. *)
Lemma consume_recur n : forall c d q st, same (consume sf_ops env n c recur_req d q st) (consume sf_ops env n c default_req d q st).
Proof.
  induction n as [|n IH]; intros c d q st; [apply same_refl|].
  cbn [consume]. unfold consume_step.
  destruct st; [unfold skip_consume|unfold clean_consume|unfold atomic_consume|..].
  - destruct done; [apply same_bind; [apply IH|intro; apply same_refl]|].
    apply same_bind; [apply same_refl|]. intros [[] ?]; cbn [fst]; [|apply IH|apply same_refl].
    apply same_bind; [apply same_refl|]. intro. apply IH.
  - apply same_refl.
  - apply same_refl.
  - destruct q; apply same_refl.
  - destruct q; try apply same_refl. unfold lit_consume. destruct rest; [apply same_refl|].
    apply same_bind; [apply same_refl|]. intros []; [apply same_refl|]. apply same_bind; [apply same_refl|]. intro.
    destruct (_ =? _)%Z; [|apply same_refl]. apply same_bind; [apply same_refl|]. intro. apply IH.
  - destruct q; try apply same_refl. unfold sym_consume.
    apply same_bind; [apply same_refl|]. intros []; [apply same_refl|]. apply same_bind; [apply same_refl|]. intro.
    destruct (assoc _ _); [|apply same_refl]. apply same_bind; [apply same_refl|]. intro.
    destruct (trie_val t); [|apply IH]. apply same_bind; [apply same_refl|]. intro.
    destruct (trie_child t); [apply same_refl|]. apply same_bind; [apply same_refl|]. intro. apply IH.
  - destruct q; try apply same_refl. unfold uint_consume.
    apply same_bind; [apply same_refl|]. intros []; [apply same_refl|]. apply same_bind; [apply same_refl|]. intro.
    destruct (digit_valid _ _); [|apply same_refl]. do 3 (apply same_bind; [apply same_refl|]; intro).
    destruct (_ =? _)%Z; [apply same_refl|]. apply IH.
  - destruct q; try apply same_refl. unfold int_consume.
    apply same_bind; [apply same_refl|]. intros []; [apply same_refl|]. apply same_bind; [apply same_refl|]. intro.
    assert (forall l g, same (int_digit sf_ops (consume sf_ops env n) c recur_req d (Int base dmin dmax) base dmin dmax count l g a)
                             (int_digit sf_ops (consume sf_ops env n) c default_req d (Int base dmin dmax) base dmin dmax count l g a)) as HD.
    { intros l g. unfold int_digit. destruct (digit_valid _ _); [|apply same_refl]. do 3 (apply same_bind; [apply same_refl|]; intro).
      destruct (_ =? _)%Z; [apply same_refl|]. apply IH. }
    destruct (_ && _)%bool; [|apply HD]. destruct (_ =? _)%Z; [apply same_bind; [apply same_refl|]; intro; apply IH|].
    destruct (_ =? _)%Z; [apply same_bind; [apply same_refl|]; intro; apply IH|]. apply HD.
  - destruct q; try apply same_refl. unfold nary_enter. destruct (_ && _)%bool; [apply same_refl|].
    destruct (skipn i l) as [|q rest]; [apply same_refl|].
    assert (forall rest i q a, same (alt_from sf_ops (consume sf_ops env n) c recur_req d i q rest a)
                                    (alt_from sf_ops (consume sf_ops env n) c default_req d i q rest a)) as HA.
    { clear. induction rest as [|q' rest IHr]; intros i q a; cbn [alt_from].
      - apply same_refl.
      - apply same_bind; [apply same_refl|]. intros [[] ?]; cbn [fst]; try apply same_refl.
        apply same_bind; [apply same_refl|]. intro. apply IHr. }
    apply HA.
  - destruct q; apply same_refl.
  - destruct q; try apply same_refl. unfold list_consume. destruct i as [|[|]]; [| |apply same_refl].
    + apply same_bind; [apply same_refl|]. intros [[] ?]; cbn [fst]; try apply same_refl.
      do 3 (apply same_bind; [apply same_refl|]; intro). apply IH.
    + apply same_bind; [apply same_refl|]. intros [[] ?]; cbn [fst]; try apply same_refl.
      apply same_bind; [apply same_refl|]. intro. apply IH.
  - destruct q; try apply same_refl. unfold repeat_consume.
    apply same_bind; [apply same_refl|]. intros [[] ?]; cbn [fst]; try apply same_refl.
    destruct (_ && _)%bool; [apply same_refl|]. apply same_bind; [apply same_refl|]. intro. apply IH.
  - destruct q; apply same_refl.
  - destruct q; apply same_refl.
  - destruct q; try apply same_refl; unfold forward_consume; (apply same_bind; [apply IH|intro; apply same_refl]).
  - destruct q; apply same_refl.
  - destruct q; apply same_refl.
  - destruct q; apply same_refl.
Qed.

Lemma create_recur q : forall d, sets_skipper q = false ->
  same (create_in sf_ops None recur_req d q) (create_in sf_ops None default_req d q).
Proof.
  induction q using pat_ind'; intros d H1; try (intros w; reflexivity).
  - cbn [create_in adapt recur_req default_req r_recur r_atomic r_clean andb].
    apply same_bind; [now apply IHq|intro; apply same_refl].
  - cbn [create_in adapt recur_req default_req r_recur r_atomic r_clean andb].
    apply same_bind; [now apply IHq|intro; apply same_refl].
  - cbn [sets_skipper] in H1. apply orb_false_iff in H1 as [Hs Hq]. apply negb_false_iff in Hs.
    cbn [create_in adapt recur_req default_req r_recur r_atomic r_clean andb]. rewrite Hs.
    apply same_bind; [now apply IHq1|intro; apply same_refl].
Qed.

Theorem parse_recur n t v id b q inp : env id = Some q -> sets_skipper q = false ->
  parse env (S n) t v (Recur id b) inp = parse env n t v q inp.
Proof.
  intros He Hq. unfold parse, top_run, top_create, top_consume, create, bind, top_ctx.
  cbn [mk_skip_of is_fail c_skip create_in adapt default_req r_recur r_atomic r_clean andb ret consume consume_step].
  unfold recur_consume, bind. rewrite He. unfold create. cbn [mk_skip_of is_fail c_skip].
  rewrite create_recur by auto. fold default_req. destruct (create_in sf_ops None default_req _ q _) as [[st w]|]; [|reflexivity].
  rewrite consume_recur. destruct (consume _ _ _ _ _ _ _ _ _) as [[[? ?] ?]|]; reflexivity.
Qed.

Theorem does_recur id b q : env id = Some q -> sets_skipper q = false ->
  forall t v inp r s v' k, does env (Recur id b) t v inp r s v' k <-> does env q t v inp r s v' k.
Proof. intros He Hq. apply does_same. intros. now apply parse_recur. Qed.

(** Whatever the outcome, errors included. *)
Theorem reaches_recur id b q : env id = Some q -> sets_skipper q = false ->
  forall t v inp o, reaches (fun n => parse env n t v (Recur id b) inp) o <-> reaches (fun n => parse env n t v q inp) o.
Proof.
  intros He Hq t v inp o. split; intros [Hf [n0 H]]; split; auto.
  - exists n0. intros m Hm. rewrite <- (parse_recur m t v id b q inp He Hq). apply H. lia.
  - exists (S n0). intros [|m] Hm; [lia|]. rewrite (parse_recur m t v id b q inp He Hq). apply H. lia.
Qed.

End Recur.
