(** The refinement of SourceProofs.v, for whole histories. *)
From Coq Require Import List ZArith Bool Arith Lia.
From Verif Require Import Base Source SpecSource SourceProofs.
Import ListNotations.

Definition agree {S} (R : S -> cursor -> Prop) (o : outcome S) (o' : outcome cursor) : Prop :=
  match o, o' with
  | Done s, Done a => R s a
  | Err e, Err e' => e = e'
  | _, _ => False
  end.

Lemma agree_cs_do o s a : R_cs s a -> agree R_cs (cs_do o s) (a_do o a).
Proof.
  intros H. destruct o; cbn.
  - now apply R_cs_add.
  - now apply R_cs_advance.
  - now apply R_cs_prepare.
  - now apply R_cs_commit.
  - now apply R_cs_cancel.
Qed.

Lemma agree_cs_run h : forall s a, R_cs s a -> agree R_cs (run_ops cs_do h s) (run_ops a_do h a).
Proof.
  induction h as [|o h IH]; intros s a H; cbn; auto.
  pose proof (agree_cs_do o s a H) as A. unfold agree in A.
  destruct (cs_do o s), (a_do o a); cbn; auto; contradiction.
Qed.

Lemma cs_history h :
  match run_ops cs_do h cs_make, run_ops a_do h cursor0 with
  | Done s, Done a => cs_empty s = a_empty a /\ cs_final s = a_fin a /\ cs_next s = a_next a
  | Err e, Err e' => e = e'
  | _, _ => False
  end.
Proof.
  pose proof (agree_cs_run h _ _ R_cs_init) as A. unfold agree in A. unfold cursor0.
  destruct (run_ops cs_do h cs_make), (run_ops a_do h _); auto.
  split; [|split]; [now apply R_cs_empty|now apply R_cs_final|now apply R_cs_next].
Qed.

Lemma sf_history h l :
  (forall b f, ~ In (OAdd b f) h) ->
  match run_ops sf_do h (sf_make l), run_ops a_do h (cursor_of l) with
  | Done s, Done a => sf_empty s = a_empty a /\ so_final sf_ops s = a_fin a /\ sf_next s = a_next a
  | Err e, Err e' => e = e'
  | _, _ => False
  end.
Proof.
  intros Hn.
  assert (A : agree R_sf (run_ops sf_do h (sf_make l)) (run_ops a_do h (cursor_of l))).
  { pose proof (R_sf_init l : R_sf _ (cursor_of l)) as H0. revert H0.
    generalize (sf_make l) (cursor_of l).
    induction h as [|o h IH]; intros s a H; [exact H|].
    assert (A : agree R_sf (sf_do o s) (a_do o a)).
    { destruct o; cbn.
      - exfalso. apply (Hn b f). now left.
      - now apply R_sf_advance.
      - now apply R_sf_prepare.
      - now apply R_sf_commit.
      - now apply R_sf_cancel. }
    unfold agree in A. cbn [run_ops]. destruct (sf_do o s), (a_do o a); cbn [run_ops obind]; auto; try contradiction.
    apply IH; auto. intros b f Hi. apply (Hn b f). now right. }
  unfold agree in A. destruct (run_ops sf_do h _), (run_ops a_do h _); auto.
  split; [|split]; [now apply R_sf_empty| |now apply R_sf_next].
  destruct A as [-> _]. reflexivity.
Qed.

(** The buffers held. *)

Lemma buf_drop_suffix c l l' : buf_drop c l = Done l' -> exists pre, l = pre ++ l'.
Proof.
  revert l'. induction l as [|[i b] l IH]; intros l' H; cbn in H.
  - destruct c; inversion H. now exists [].
  - destruct c as [id|].
    + destruct (i =? id).
      * inversion H. now exists [].
      * destruct (IH _ H) as [pre ->]. now exists ((i, b) :: pre).
    + destruct (IH _ H) as [pre ->]. now exists ((i, b) :: pre).
Qed.

Lemma cleanup_suffix s s' : cs_cleanup s = Done s' -> exists pre, cs_bufs s = pre ++ cs_bufs s'.
Proof.
  unfold cs_cleanup. destruct (cs_marks s).
  - destruct (buf_drop _ _) eqn:E; cbn; intros H; inversion H; subst; cbn.
    now apply buf_drop_suffix in E.
  - intros H; inversion H; subst. now exists [].
Qed.

Lemma cs_do_bufs o s s' :
  cs_do o s = Done s' ->
  exists pre, map snd (cs_bufs s) ++ added [o] = pre ++ map snd (cs_bufs s').
Proof.
  assert (Same : forall pre, cs_bufs s = pre ++ cs_bufs s' ->
            exists pre, map snd (cs_bufs s) ++ [] = pre ++ map snd (cs_bufs s')).
  { intros pre ->. exists (map snd pre). now rewrite app_nil_r, map_app. }
  destruct o; cbn.
  - unfold cs_add. destruct (cs_final s); [discriminate|].
    destruct b as [|x b].
    + intros H; inversion H; subst. exists []. now rewrite app_nil_r.
    + destruct (cs_empty s); intros H; inversion H; subst; exists []; cbn; now rewrite map_app.
  - unfold cs_advance. destruct (cs_cur s) as [[id off]|]; [|discriminate].
    destruct (buf_find id (cs_bufs s)); [|discriminate].
    destruct (_ <=? _); [discriminate|].
    destruct (_ =? _); intros H; inversion H; subst; cbn in *.
    + destruct (cs_releases s id).
      * destruct (cs_bufs s) as [|x t]; [now apply (Same [])|now apply (Same [x])].
      * now apply (Same []).
    + now apply (Same []).
  - intros H; inversion H; subst. apply (Same []). unfold cs_prepare.
    now destruct (cs_cur s).
  - unfold cs_commit. destruct (cs_starved s).
    + destruct (cs_marks s); [discriminate|]. intros H. apply cleanup_suffix in H as [pre E].
      now apply (Same pre).
    + intros H; inversion H; subst. now apply (Same []).
  - unfold cs_cancel. destruct (cs_starved s).
    + destruct (cs_marks s); [discriminate|]. intros H. apply cleanup_suffix in H as [pre E].
      now apply (Same pre).
    + intros H; inversion H; subst. now apply (Same []).
Qed.

Lemma added_app h h' : added (h ++ h') = added h ++ added h'.
Proof.
  induction h as [|o h IH]; auto. destruct o; cbn; auto. destruct b; cbn; auto. now rewrite IH.
Qed.

Lemma added_cons o h : added (o :: h) = added [o] ++ added h.
Proof. apply (added_app [o]). Qed.

Lemma a_do_inp o a a' : a_do o a = Done a' -> a_inp a' = a_inp a ++ concat (added [o]).
Proof.
  destruct o; cbn.
  - unfold a_add. destruct (a_fin a); [discriminate|]. intros H; inversion H; subst; cbn.
    destruct b; cbn; now rewrite ?app_nil_r.
  - unfold a_advance. destruct (a_empty a); [discriminate|]. intros H; inversion H; subst; cbn.
    now rewrite app_nil_r.
  - intros H; inversion H; subst; cbn. now rewrite app_nil_r.
  - unfold a_commit. destruct (a_stk a); [discriminate|]. intros H; inversion H; subst; cbn.
    now rewrite app_nil_r.
  - unfold a_cancel. destruct (a_stk a); [discriminate|]. intros H; inversion H; subst; cbn.
    now rewrite app_nil_r.
Qed.

(** [l]: the buffers so far. *)
Definition held_inv (l : list (list Z)) (s : cseq) (a : cursor) : Prop :=
  exists D, l = D ++ map snd (cs_bufs s) /\ Rc (concat D) s a.

Lemma held_step l o s a s' a' :
  held_inv l s a -> cs_do o s = Done s' -> a_do o a = Done a' -> held_inv (l ++ added [o]) s' a'.
Proof.
  intros (D & El & H) Es Ea.
  pose proof (agree_cs_do o s a (ex_intro _ _ H)) as A. unfold agree in A. rewrite Es, Ea in A.
  destruct A as [d A]. destruct (cs_do_bufs _ _ _ Es) as [pre E].
  exists (D ++ pre). split.
  - rewrite El, <- !app_assoc. f_equal. exact E.
  - replace (concat (D ++ pre)) with d; auto.
    pose proof (rc_inp _ _ _ A) as I'. pose proof (rc_inp _ _ _ H) as I.
    rewrite (a_do_inp _ _ _ Ea), I in I'. unfold contents in I'.
    rewrite <- app_assoc, <- concat_app, E, concat_app, app_assoc, <- concat_app in I'.
    now apply app_inv_tail in I'.
Qed.

Lemma last_cons_rev {A} (l : list A) d x y : rev l = x :: y -> last l d = x.
Proof.
  intros E. rewrite <- (rev_involutive l), E. cbn. apply last_last.
Qed.

Lemma Forall2_rev' {A B} (P : A -> B -> Prop) l l' : Forall2 P l l' -> Forall2 P (rev l) (rev l').
Proof.
  induction 1; cbn; auto. apply Forall2_app; auto.
Qed.

Lemma reaching_app D q l : length (concat D) <= q ->
  reaching q (D ++ l) = reaching (q - length (concat D)) l.
Proof.
  revert q. induction D as [|b D IH]; intros q H; cbn in *.
  - now rewrite Nat.sub_0_r.
  - rewrite app_length in *. rewrite (proj2 (Nat.leb_le _ _)) by lia. rewrite IH by lia.
    f_equal. lia.
Qed.

Lemma held_reaching l s a : held_inv l s a -> map snd (cs_bufs s) = reaching (oldest a) l.
Proof.
  intros (D & -> & H). pose proof (rc_held _ _ _ H) as Hh.
  assert (Front : forall m q, hd_id (cs_bufs s) = Some (fst m) ->
            loc (length (concat D)) (cs_bufs s) m = Some q ->
            map snd (cs_bufs s) = reaching q (D ++ map snd (cs_bufs s))).
  { intros [id off] q Hi Hl. destruct (cs_bufs s) as [|[i b] t]; [discriminate|].
    cbn in Hi. inversion Hi; subst i. cbn [loc fst snd] in Hl. rewrite Nat.eqb_refl in Hl.
    destruct (off <? length b) eqn:L; [|discriminate]. apply Nat.ltb_lt in L.
    inversion Hl; subst q. rewrite reaching_app by lia. cbn.
    replace (length (concat D) + off - length (concat D)) with off by lia.
    now rewrite (proj2 (Nat.leb_gt _ _)) by lia. }
  destruct (rc_stk _ _ _ H) as (ps & Hps & Est). unfold oldest. rewrite Est.
  destruct (rev (cs_marks s)) as [|m ms] eqn:Er.
  - assert (cs_marks s = []) as Em by (rewrite <- (rev_involutive (cs_marks s)), Er; reflexivity).
    rewrite Em in Hps. inversion Hps; subst ps. rewrite app_nil_r.
    pose proof (rc_cur _ _ _ H) as Hc.
    destruct (cs_cur s) as [m|] eqn:Ec.
    + assert (cs_starved s = 0) as E0 by (eapply starved0; [apply (rc_starved _ _ _ H)|eassumption]).
      rewrite E0. cbn. now apply (Front m).
    + cbn in Hh. destruct (cs_bufs s) as [|x t] eqn:Eb; [|discriminate].
      pose proof (rc_inp _ _ _ H) as Hi. rewrite Eb in Hi. cbn in Hi. rewrite app_nil_r in Hi.
      cbn. rewrite app_nil_r.
      assert (last (repeat (length (a_inp a)) (cs_starved s)) (a_pos a) = length (concat D)) as ->.
      { rewrite Hc, Hi. generalize (cs_starved s) as k. induction k as [|k IH]; auto.
        cbn. destruct k; auto. }
      rewrite <- (app_nil_r D) at 2. now rewrite reaching_app.
  - pose proof (Forall2_rev' _ _ _ Hps) as Hr. rewrite Er in Hr.
    inversion Hr as [|? q ? ps' Hl Hr' E1 E2]; subst.
    rewrite <- (last_cons_rev ps q q ps') in Hl by auto.
    rewrite (Front m _ Hh Hl) at 1. f_equal.
    symmetry. rewrite (last_cons_rev ps q q ps') by auto.
    apply last_cons_rev with (y := ps' ++ rev (repeat (length (a_inp a)) (cs_starved s))).
    rewrite rev_app_distr, <- E2. reflexivity.
Qed.

Lemma cs_history_held h s :
  run_ops cs_do h cs_make = Done s ->
  exists a, run_ops a_do h cursor0 = Done a /\ map snd (cs_bufs s) = reaching (oldest a) (added h).
Proof.
  assert (G : forall h l s a s', held_inv l s a -> run_ops cs_do h s = Done s' ->
            exists a', run_ops a_do h a = Done a' /\ held_inv (l ++ added h) s' a').
  { clear. induction h as [|o h IH]; intros l s a s' H E; cbn in E.
    - inversion E; subst. exists a. cbn. now rewrite app_nil_r.
    - destruct (cs_do o s) as [s1|] eqn:E1; [|discriminate]. cbn in E.
      destruct (H) as (D & _ & HR).
      pose proof (agree_cs_do o s a (ex_intro _ _ HR)) as A. unfold agree in A. rewrite E1 in A.
      destruct (a_do o a) as [a1|] eqn:E2; [|contradiction].
      pose proof (held_step _ _ _ _ _ _ H E1 E2) as H1.
      destruct (IH _ _ _ _ H1 E) as (a' & Ea & H').
      exists a'. cbn [run_ops]. rewrite E2. split; [exact Ea|].
      rewrite added_cons, app_assoc. exact H'. }
  intros E. destruct (G h [] cs_make cursor0 s) as (a & Ea & H); auto.
  - exists []. split; auto. destruct R_cs_init as [d H]. pose proof (rc_inp _ _ _ H) as I.
    cbn in I. symmetry in I. apply app_eq_nil in I as [-> _]. exact H.
  - exists a. split; auto. now apply held_reaching.
Qed.
