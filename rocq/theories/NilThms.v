(** Validation: parsing into Nil. *)
From Coq Require Import List ZArith Bool Arith Lia.
From Verif Require Import Base CharSet Source Dst Pattern Parser Session SpecSession SpecRun SpecValue SpecTerm SpecType SpecNil.
From Verif Require Import Rel Safety SessionThms Local LocalThms Unary Pieces TermThms TypeThms.
Import ListNotations.

Section Nil.
Context (env : nat -> option pat).
Hypothesis Henv : all_wellformed env.

Definition nil_uses (id : nat) (t bt : ty) : Prop := env id <> None /\ t = TNil /\ bt = TNil.
Definition nobody_stores (_ : nat) : bool := false.
Definition no_action (_ : action) : Prop := False.

Lemma nil_typed strict calm p : forall at_ cs rc, wellformed env cs p = true ->
  typed strict calm nil_uses nobody_stores no_action at_ cs rc TNil TNil p.
Proof.
  induction p using pat_ind'; intros at_ cs rc W; cbn [typed wellformed] in *;
    repeat match goal with |- context [if ?b then value_ty TNil else TNil] => replace (if b then value_ty TNil else TNil) with TNil by (destruct b; reflexivity) end;
    (split; [discriminate|]); auto; try discriminate.
  all: try (apply andb_prop in W; destruct W as [W1 W2]).
  - now apply negb_true_iff.
  - split; [destruct l; discriminate|]. clear W1. generalize 0. revert H W2.
    induction l as [|q l IH]; intros HF W k; [exact I|]. inversion HF; subst. cbn [forallb] in W.
    apply andb_prop in W. destruct W as [Wq Wl]. split; [|now apply IH].
    exists TNil. split; [unfold part_ty; destruct (ignores q); reflexivity|]. now apply H1.
  - split; [destruct l; discriminate|]. clear W1.
    generalize (if negb rc && at_ && negb (f_atomic (Alt l)) then false else at_). revert H W2.
    induction l as [|q l IH]; intros HF W a; [exact I|]. inversion HF; subst. cbn [forallb] in W.
    apply andb_prop in W. destruct W as [Wq Wl]. split; [now apply H1|]. now apply IH.
  - apply negb_true_iff in W1. auto.
  - split; [|auto]. apply orb_prop in W1. destruct W1; auto.
  - auto.
  - auto.
  - unfold nil_uses. split; auto. destruct (env id); discriminate.
Qed.

Lemma nil_welltyped strict calm p : wellformed env false p = true ->
  welltyped strict calm nil_uses nobody_stores no_action env TNil p.
Proof.
  intros W. split; [|split; [reflexivity|now apply nil_typed]].
  intros id q E. split; [discriminate|]. intros t bt _ _ (_ & -> & ->). apply nil_typed. eauto.
Qed.
Lemma nil_defined : all_defined nil_uses env.
Proof. intros id t bt (H & _). exact H. Qed.

Lemma nil_run p n inp : wellformed env false p = true ->
  match parse env n TNil VNil p inp with
  | Err e => e = EFuel
  | Done (r, w) => w_cells w = [VNil] /\ w_trace w = []
  end.
Proof.
  intros W. pose proof (parse_typed true true _ _ _ _ _ VNil _ (nil_welltyped true true p W) ltac:(left; reflexivity) n inp) as H.
  pose proof (parse_errors env TNil VNil p n inp) as HE. destruct (parse _ _ _ _ _ _) as [[r w]|e] eqn:E.
  - destruct H as (v' & E1 & Ho & Hh & _). split; [|destruct (w_trace w); auto; inversion Hh as [|? ? (a & [] & _)]].
    rewrite E1. destruct Ho as [Ho|[Ho _]]; [|discriminate]. destruct v'; try discriminate. reflexivity.
  - destruct H as (H1 & H2 & H3 & H4). specialize (HE e eq_refl). specialize (H2 eq_refl). specialize (H3 eq_refl). specialize (H4 nil_defined).
    unfold okerr in HE. intuition congruence.
Qed.
Lemma nil_session p n l : wellformed env false p = true -> legal l = true ->
  match run_session env n TNil VNil p l with
  | Err e => e = EFuel
  | Done s => w_cells (s_world s) = [VNil] /\ w_trace (s_world s) = []
  end.
Proof.
  intros W Hl. pose proof (session_typed true true _ _ _ _ _ VNil _ (nil_welltyped true true p W) ltac:(left; reflexivity) n l) as H.
  pose proof (session_errors env TNil VNil p n l) as HE. destruct (run_session _ _ _ _ _ _) as [s|e] eqn:E.
  - destruct H as (v' & E1 & Ho & Hh & _). split; [|destruct (w_trace (s_world s)); auto; inversion Hh as [|? ? (a & [] & _)]].
    rewrite E1. destruct Ho as [Ho|[Ho _]]; [|discriminate]. destruct v'; try discriminate. reflexivity.
  - destruct H as (H1 & H2 & H3 & H4). specialize (HE e Hl eq_refl). specialize (H2 eq_refl). specialize (H3 eq_refl). specialize (H4 nil_defined).
    unfold okerr in HE. intuition congruence.
Qed.

Context (eager : nat -> bool) (rank : nat -> nat).
Hypothesis Hg : all_guarded eager rank env.

Lemma nil_total p inp : wellformed env false p = true -> guarded eager rank None p = true ->
  exists r s, (r = SUCCESS \/ r = FAILURE) /\ does env p TNil VNil inp r s VNil [].
Proof.
  intros W G. destruct (parse_total _ _ _ env TNil p eager rank (nil_welltyped true true p W) nil_defined Hg G VNil inp ltac:(left; reflexivity))
    as (r & w & Hr & _ & n & Hn).
  specialize (Hn n (le_n n)). cbn beta in Hn. exists r, (left_at w). split; auto.
  pose proof (nil_run p n inp W) as H. rewrite Hn in H. exists n, w. intuition.
Qed.
Lemma nil_delivers p l : complete l -> wellformed env false p = true -> guarded eager rank None p = true ->
  exists r, (r = SUCCESS \/ r = FAILURE) /\ delivers env p TNil VNil l r VNil [].
Proof.
  intros Hl W G. destruct (nil_total p (fed l) W G) as (r & s & Hr & H). exists r. split; auto. apply pieces; eauto.
Qed.
End Nil.
