(** The first run of a new parser does not depend on whether the source can go on later: the
    dispatch on the part of a sequence or an alternative starts at the first one. *)
From Coq Require Import List ZArith Bool Arith Lia.
From Verif Require Import Base CharSet Source Dst Pattern Parser Rel.
Import ListNotations.

(** The same source, which cannot. *)
Definition unres {S} (o : source_ops S) : source_ops S :=
  SourceOps S (so_empty o) (so_final o) (so_next o) (so_advance o) (so_prepare o) (so_commit o) (so_cancel o) false.

(** Every sequence and every alternative is at its first part. *)
Fixpoint zero (st : pst) : bool :=
  match st with
  | PSkip done s a => (done || zero s) && zero a
  | PNary i a => (i =? 0) && zero a
  | PClean a | PAtomic _ a | PExcept _ a | PListSt _ a | PRepeat _ a | PNot a | POpt a | POne a | PAction _ a | PConstruct _ a
  | PRecur (Some a) => zero a
  | _ => true
  end.

Section First.
Context {S : Type} (o : source_ops S).
Notation u := (unres o).

(** ** New objects *)
Definition yields (m : M S pst) : Prop := forall w a w', m w = Done (a, w') -> zero a = true.

Lemma y_ret a : zero a = true -> yields (ret a).
Proof. intros H w b w' [= <- <-]. exact H. Qed.
Lemma y_raise e : yields (raise e).
Proof. intros w b w' H. discriminate. Qed.
Lemma y_map m f : yields m -> (forall a, zero a = true -> zero (f a) = true) -> yields (bind m (fun a => ret (f a))).
Proof. intros H Hf w b w'. unfold bind. destruct (m w) as [[a w1]|] eqn:E; [|discriminate]. intros [= <- <-]. eauto. Qed.
Lemma y_mark m f k : yields m -> (forall a, zero a = true -> zero (f a) = true) -> yields (bind m (fun a => bind (k : M S unit) (fun _ => ret (f a)))).
Proof.
  intros H Hf w b w'. unfold bind. destruct (m w) as [[a w1]|] eqn:E; [|discriminate].
  destruct (k w1) as [[[] w2]|]; [|discriminate]. intros [= <- <-]. eauto.
Qed.
Lemma y_cell v f m : (forall l, yields (m l)) -> (forall v a, zero a = true -> zero (f v a) = true) ->
  yields (bind (with_cell v m) (fun x => ret (f (snd x) (fst x)))).
Proof.
  intros H Hf w b w'. unfold bind, with_cell. destruct (m _ _) as [[a w1]|] eqn:E; [|discriminate].
  destruct (nth_error _ _); [|discriminate]. intros [= <- <-]. cbn. apply Hf. exact (H _ _ _ _ E).
Qed.
Lemma y_then {A} (m : M S A) (f : A -> M S pst) : (forall a, yields (f a)) -> yields (bind m f).
Proof. intros H w b w'. unfold bind. destruct (m w) as [[a w1]|]; [|discriminate]. apply H. Qed.

Definition y_skip (k : option (M S pst)) : Prop := match k with Some k => yields k | None => True end.

Lemma y_adapt k rq d p raw : y_skip k -> (forall rq d, yields (raw rq d)) -> yields (adapt o k rq d p raw).
Proof.
  intros Hk Hr. unfold adapt. destruct (r_recur rq); auto.
  assert (forall rq, yields (if r_atomic rq && negb (f_atomic p) then
     bind (with_cell (default_init (dst_value_ty d)) (fun lvl => raw (unatomic_req rq) (dst_cell lvl (dst_value_ty d)))) (fun x => ret (PAtomic (snd x) (fst x)))
     else raw rq d)) as HA.
  { intros rq0. destruct (_ && _); auto. apply y_cell; auto. }
  destruct k as [k|]; cbn in Hk.
  - intros w b w'. unfold bind. destruct (k w) as [[s w1]|] eqn:E; [|discriminate]. apply Hk in E.
    destruct (r_clean rq && negb (f_clean p)).
    + intros H1.
      match type of H1 with match ?x with _ => _ end = _ => destruct x as [[c w2]|] eqn:E2; [|discriminate] end.
      injection H1 as <- <-. cbn. rewrite E. cbn.
      revert E2. match goal with |- match ?x with _ => _ end = _ -> _ => destruct x as [[c' w3]|] eqn:E3; [|discriminate] end.
      cbn. intros [= <- <-]. cbn. exact (HA _ _ _ _ E3).
    + intros H1. match type of H1 with match ?x with _ => _ end = _ => destruct x as [[c w2]|] eqn:E2; [|discriminate] end.
      injection H1 as <- <-. cbn. rewrite E. cbn. exact (HA _ _ _ _ E2).
  - destruct (r_clean rq && negb (f_clean p)); [|apply HA]. apply y_mark; [apply HA|auto].
Qed.

Lemma y_create_in p : forall k rq d, y_skip k -> yields (create_in o k rq d p).
Proof.
  induction p using pat_ind'; intros k rq d Hk; cbn [create_in]; apply y_adapt; auto; intros rq' d'.
  all: try (apply y_ret; reflexivity).
  all: try (apply y_map; auto; fail).
  all: try (apply y_mark; auto; fail).
  all: try (apply y_cell; auto; fail).
  - destruct (r_consumes rq'); [apply y_raise|now apply y_ret].
  - apply y_then. intros _. now apply y_ret.
  - apply y_then. intros _. now apply y_ret.
  - destruct l as [|q l]; [apply y_raise|]. destruct (seq_dst _ _ _); [|apply y_raise]. inversion H; subst. apply y_map; auto.
  - destruct l as [|q l]; [apply y_raise|]. inversion H; subst. apply y_map; auto.
  - destruct (_ && _); [apply y_raise|]. apply y_map; auto.
  - apply y_map; auto. apply IHp. exact I.
  - apply y_map; auto. apply IHp1. destruct (is_fail p2); cbn; auto. apply IHp2. exact I.
Qed.

Lemma y_create c rq d p : yields (create o c rq d p).
Proof. apply y_create_in. unfold mk_skip_of. destruct (is_fail _); cbn; auto. apply y_create_in. exact I. Qed.

(** ** Runs *)
Definition eqm {A} (a b : M S A) : Prop := forall w, a w = b w.

Lemma e_refl {A} (a : M S A) : eqm a a. Proof. intros w. reflexivity. Qed.
Lemma e_bind {A B} (a b : M S A) (f g : A -> M S B) : eqm a b -> (forall x, eqm (f x) (g x)) -> eqm (bind a f) (bind b g).
Proof. intros H H' w. unfold bind. rewrite H. destruct (b w) as [[x w1]|]; auto. apply H'. Qed.
Lemma e_create {B} c rq d p (f g : pst -> M S B) : (forall a, zero a = true -> eqm (f a) (g a)) ->
  eqm (bind (create o c rq d p) f) (bind (create u c rq d p) g).
Proof.
  intros H w. unfold bind. change (create u c rq d p) with (create o c rq d p).
  destruct (create o c rq d p w) as [[a w1]|] eqn:E; auto. apply H. exact (y_create _ _ _ _ _ _ _ E).
Qed.
Lemma e_cell {A} v (f g : nat -> M S A) : (forall l, eqm (f l) (g l)) -> eqm (with_cell v f) (with_cell v g).
Proof. intros H w. unfold with_cell. now rewrite H. Qed.

Context (env : nat -> option pat).

Section Step.
Context (s1 s2 : @consume_ty S).
Hypothesis IH : forall c rq d p st, zero st = true -> eqm (s1 c rq d p st) (s2 c rq d p st).

Ltac go := repeat first
  [ apply e_refl
  | apply IH; cbn [zero]; auto; fail
  | apply e_create; intros ? ?
  | apply e_bind; [|intros ?]
  | apply e_cell; intros ?
  | match goal with |- eqm (match ?x with _ => _ end) _ => destruct x end
  | match goal with |- eqm (if ?x then _ else _) _ => destruct x end ].

Lemma e_seq c d l : forall rest i q a, zero a = true -> eqm (seq_from o s1 c d l i q rest a) (seq_from u s2 c d l i q rest a).
Proof.
  induction rest as [|q' rest IHr]; intros i q a Ha; cbn [seq_from]; destruct (seq_dst l i d); try apply e_refl;
    (apply e_bind; [now apply IH|]); intros [[] b]; cbn [fst snd]; try apply e_refl.
  destruct (seq_dst l (Datatypes.S i) d); [|apply e_refl]. apply e_create. intros b' Hb. now apply IHr.
Qed.
Lemma e_alt c rq d : forall rest i q a, zero a = true -> eqm (alt_from o s1 c rq d i q rest a) (alt_from u s2 c rq d i q rest a).
Proof.
  induction rest as [|q' rest IHr]; intros i q a Ha; cbn [alt_from];
    (apply e_bind; [now apply IH|]); intros [[] b]; cbn [fst snd]; try apply e_refl.
  apply e_create. intros b' Hb. now apply IHr.
Qed.

Lemma e_step c rq d p st : zero st = true -> eqm (consume_step o env s1 c rq d p st) (consume_step u env s2 c rq d p st).
Proof.
  intros Hz. destruct st; cbn [consume_step].
  - cbn [zero] in Hz. apply andb_prop in Hz as [Hz1 Hz2]. unfold skip_consume. destruct done; cbn in Hz1; [go|].
    apply e_bind; [now apply IH|]. intros [[] s]; cbn [fst snd].
    + apply e_create. intros a Ha. apply IH. cbn. now rewrite Ha, Hz2.
    + apply IH. cbn. exact Hz2.
    + apply e_refl.
  - unfold clean_consume. cbn [zero] in Hz. go.
  - unfold atomic_consume. cbn [zero] in Hz. go.
  - destruct p; apply e_refl.
  - destruct p; try apply e_refl. unfold lit_consume. destruct rest; [apply e_refl|]. go.
  - destruct p; try apply e_refl. unfold sym_consume. go.
  - destruct p; try apply e_refl. unfold uint_consume. go.
  - destruct p; try apply e_refl. unfold int_consume, int_digit. go.
  - cbn [zero] in Hz. apply andb_prop in Hz as [Hz1 Hz2]. apply Nat.eqb_eq in Hz1. subst i. destruct p; try apply e_refl.
    + unfold nary_enter. rewrite andb_false_r. cbn [Nat.eqb negb andb]. rewrite andb_false_r. cbn [skipn]. destruct l; [apply e_refl|]. now apply e_seq.
    + unfold nary_enter. rewrite andb_false_r. cbn [Nat.eqb negb andb]. rewrite andb_false_r. cbn [skipn]. destruct l; [apply e_refl|]. now apply e_alt.
  - destruct p; try apply e_refl. unfold except_consume. cbn [zero] in Hz. go.
  - destruct p; try apply e_refl. unfold list_consume. cbn [zero] in Hz. go.
  - destruct p; try apply e_refl. unfold repeat_consume. cbn [zero] in Hz. go.
  - destruct p; try apply e_refl. unfold not_consume. cbn [zero] in Hz. go.
  - destruct p; try apply e_refl. unfold opt_consume. cbn [zero] in Hz. go.
  - destruct p; try apply e_refl; unfold forward_consume; cbn [zero] in Hz; go.
  - destruct p; try apply e_refl. unfold action_consume. cbn [zero] in Hz. go.
  - destruct p; try apply e_refl. unfold construct_consume. cbn [zero] in Hz. go.
  - destruct p; try apply e_refl. unfold recur_consume. destruct (env id); [|apply e_refl]. destruct c0; cbn [zero] in Hz.
    + unfold bind at 1 3. cbn [ret]. go.
    + go.
Qed.
End Step.

Theorem first_run n : forall c rq d p st w, zero st = true -> consume o env n c rq d p st w = consume u env n c rq d p st w.
Proof.
  induction n as [|n IH]; intros c rq d p st w H; [reflexivity|]. cbn [consume]. apply e_step; auto.
  intros c' rq' d' p' st' H' w'. now apply IH.
Qed.
End First.
