(** What blindness to the destination gives for parse(). *)
From Coq Require Import List ZArith Bool Arith Lia.
From Verif Require Import Base CharSet Source Dst Pattern Parser Session Rel Safety Limit SpecSession SessionThms.
From Verif Require Import SpecRun Run Blind.
Import ListNotations.

Section Thms.
Context (env : nat -> option pat).

(** ** One pattern, two destinations *)

Definition part (n : nat) (d : dst) (b : dst) (p : pat) : M sfwd (result * pst) :=
  st <- create sf_ops (Ctx Fail b) default_req d p ;; consume sf_ops env n (Ctx Fail b) default_req d p st.

Lemma bsim_part base n d1 d2 b1 b2 p : bsim base ans (part n d1 b1 p) (part n d2 b2 p).
Proof.
  unfold part. eapply bsim_bind with (RA := alike); [now apply bsim_create|].
  intros. apply bsim_consume; auto.
Qed.

Lemma parse_part n t v p inp :
  parse env n t v p inp =
  match part n (top_dst t) (top_dst t) p (World (sf_make inp) [v] []) with
  | Done ((r, _), w) => Done (r, w)
  | Err e => Err e
  end.
Proof. reflexivity. Qed.

(** A run of a part somewhere, and the parse() of that part. *)
Lemma part_parse base n t v d b p w2 :
  sf_stack (w_src w2) = base ->
  match parse env n t v p (left_at w2), part n d b p w2 with
  | Done (r, w), Done ((r', _), w') => r = r' /\ left_at w = left_at w'
  | Err EFuel, Err EFuel => True
  | Err e, Err e' => e <> EFuel \/ e' <> EFuel
  | Err e, _ => e <> EFuel
  | _, Err e => e <> EFuel
  end.
Proof.
  intros Hs. rewrite parse_part.
  pose proof (bsim_part base n (top_dst t) d (top_dst t) b p (World (sf_make (left_at w2)) [v] []) w2) as H.
  destruct H as [H|[H|H]].
  - split; [reflexivity|]. cbn. auto.
  - unfold excused in H. destruct (part n (top_dst t) _ p _) as [[[? ?] ?]|[]]; try contradiction;
      destruct (part n d b p w2) as [[[? ?] ?]|[]]; cbn; intuition congruence.
  - unfold excused in H. destruct (part n d b p w2) as [[[? ?] ?]|[]]; try contradiction;
      destruct (part n (top_dst t) _ p _) as [[[? ?] ?]|[]]; cbn; intuition congruence.
  - destruct (part n (top_dst t) _ p _) as [[[r st] w]|e1], (part n d b p w2) as [[[r' st'] w']|e2]; try contradiction.
    + destruct H as [[Hr _] [Hw _]]. auto.
    + destruct e1; contradiction.
    + destruct e1, e2; try contradiction. exact I.
Qed.

(** The answer does not depend on the destination. *)
Theorem same_answer n t v p inp r w : parse env n t v p inp = Done (r, w) ->
  forall t' v', exists o, reaches (fun k => parse env k t' v' p inp) o /\
  match o with
  | Done (r', w') => r' = r /\ left_at w' = left_at w
  | Err e => dst_error e
  end.
Proof.
  intros H t' v'.
  pose proof (part_parse [] n t v (top_dst t') (top_dst t') p (World (sf_make inp) [v'] []) eq_refl) as Hp.
  change (left_at (World (sf_make inp) [v'] [])) with inp in Hp. rewrite H in Hp.
  exists (parse env n t' v' p inp). split.
  - split.
    + rewrite parse_part. destruct (part n (top_dst t') _ p _) as [[[? ?] ?]|]; congruence.
    + exists n. intros k Hk. apply (mono_lim (fun n => parse env n t' v' p inp) n); auto; [apply mono_parse|].
      rewrite parse_part. destruct (part n (top_dst t') _ p _) as [[[? ?] ?]|]; congruence.
  - destruct (parse env n t' v' p inp) as [[r' w']|e] eqn:E; rewrite parse_part in E;
      destruct (part n (top_dst t') _ p _) as [[[r'' ?] w'']|e'] eqn:E'; try discriminate.
    + injection E as <- <-. destruct Hp; split; congruence.
    + injection E as <-. eapply parse_dst_error; [|exact Hp]. rewrite parse_part, E'. reflexivity.
Qed.

Lemma says_obeys p inp r : says env p inp r -> obeys env p inp r.
Proof.
  intros (t & v & n & w & H) t' v'. destruct r as [s|].
  - destruct H as [H Hl]. destruct (same_answer _ _ _ _ _ _ _ H t' v') as (o & Ho & Hm).
    exists o. split; auto. destruct o as [[r' w']|]; auto. destruct Hm; split; congruence.
  - destruct (same_answer _ _ _ _ _ _ _ H t' v') as (o & Ho & Hm).
    exists o. split; auto. destruct o as [[r' w']|]; auto. tauto.
Qed.

(** ** Sequences *)

Definition fits {A} (r : option (list Z)) (o : outcome (result * A * world sfwd)) : Prop :=
  match o with
  | Done ((a, _), w) => match r with Some s => a = SUCCESS /\ left_at w = s | None => a = FAILURE end
  | Err e => e <> EFuel
  end.

Lemma says_part p inp r : says env p inp r -> exists n0, forall n, n0 <= n -> forall d b w,
  left_at w = inp -> fits r (part n d b p w).
Proof.
  intros (t & v & n0 & w0 & H). exists n0. intros n Hn d b w Hw.
  assert (forall o, parse env n0 t v p inp = o -> o <> Err EFuel -> parse env n t v p inp = o) as Hm.
  { intros o Ho Hf. rewrite <- Ho. apply (mono_lim (fun n => parse env n t v p inp) n0); auto; [apply mono_parse|congruence]. }
  pose proof (part_parse _ n t v d b p w eq_refl) as Hp. rewrite Hw in Hp. unfold fits.
  destruct r as [s|].
  - destruct H as [H Hs]. rewrite (Hm _ H) in Hp by discriminate.
    destruct (part n d b p w) as [[[? ?] ?]|]; auto. destruct Hp; split; congruence.
  - rewrite (Hm _ H) in Hp by discriminate.
    destruct (part n d b p w) as [[[? ?] ?]|]; auto. destruct Hp; congruence.
Qed.

(** The parts from the i-th one on, to be created and run. *)
Definition go_on (n : nat) (b d : dst) (l : list pat) (i : nat) (q : pat) (rest : list pat) : M sfwd (result * pst) :=
  match seq_dst l i d with
  | Err e => raise e
  | Done di =>
    a <- create sf_ops (Ctx Fail b) seq_req di q ;;
    seq_from sf_ops (consume sf_ops env n) (Ctx Fail b) d l i q rest a
  end.

Lemma go_on_eq n b d l i q rest w :
  go_on n b d l i q rest w =
  match seq_dst l i d with
  | Err e => Err e
  | Done di =>
    match part n di b q w with
    | Err e => Err e
    | Done ((SUCCESS, a), w') =>
      match rest with
      | [] => Done ((SUCCESS, PNary i a), w')
      | q' :: rest' => go_on n b d l (S i) q' rest' w'
      end
    | Done ((r, a), w') => Done ((r, PNary i a), w')
    end
  end.
Proof.
  unfold go_on, part, bind. change seq_req with default_req.
  destruct (seq_dst l i d) as [di|] eqn:E; [|reflexivity].
  destruct (create sf_ops _ _ _ _ w) as [[a w']|]; [|reflexivity].
  destruct rest as [|q' rest]; cbn [seq_from]; rewrite E; unfold bind; change seq_req with default_req;
    destruct (consume _ _ _ _ _ _ _ _ w') as [[[[] a'] w'']|]; try reflexivity.
Qed.

Lemma parse_seq n t v q rest inp :
  parse env (S n) t v (Seq (q :: rest)) inp =
  match go_on n (top_dst t) (top_dst t) (q :: rest) 0 q rest (World (sf_make inp) [v] []) with
  | Done ((r, _), w) => Done (r, w)
  | Err e => Err e
  end.
Proof.
  unfold parse, top_run, top_create, top_consume, create, go_on. change (top_ctx t) with (Ctx Fail (top_dst t)).
  cbn [mk_skip_of is_fail c_skip create_in adapt default_req r_recur r_atomic r_clean andb].
  unfold bind. destruct (seq_dst _ 0 _) as [di|]; [|reflexivity].
  unfold create. cbn [mk_skip_of is_fail c_skip].
  destruct (create_in sf_ops None seq_req di q _) as [[a w]|]; reflexivity.
Qed.

Lemma seq_forward l inp r : through (says env) l inp r ->
  match l with
  | [] => True
  | q :: rest => exists n0, forall n, n0 <= n -> forall b d full i w, left_at w = inp ->
      fits r (go_on n b d full i q rest w)
  end.
Proof.
  induction 1 as [s|p l s H|p l s s1 r H Ht IH]; [exact I| |].
  - destruct (says_part _ _ _ H) as [n0 H0]. exists n0. intros n Hn b d full i w Hw. rewrite go_on_eq.
    pose proof (Blind.dry_seq_dst full i d). destruct (seq_dst full i d) as [di|]; [|cbn; congruence].
    specialize (H0 n Hn di b w Hw). destruct (part n di b p w) as [[[a st] w']|]; [|exact H0].
    cbn in H0. subst a. reflexivity.
  - destruct (says_part _ _ _ H) as [n0 H0].
    destruct l as [|q rest].
    + inversion Ht; subst. exists n0. intros n Hn b d full i w Hw. rewrite go_on_eq.
      pose proof (Blind.dry_seq_dst full i d). destruct (seq_dst full i d) as [di|]; [|cbn; congruence].
      specialize (H0 n Hn di b w Hw). destruct (part n di b p w) as [[[a st] w']|]; [|exact H0].
      cbn in H0. destruct H0 as [-> H0]. cbn. auto.
    + destruct IH as [n1 H1]. exists (Nat.max n0 n1). intros n Hn b d full i w Hw. rewrite go_on_eq.
      pose proof (Blind.dry_seq_dst full i d). destruct (seq_dst full i d) as [di|]; [|cbn; congruence].
      specialize (H0 n ltac:(lia) di b w Hw). destruct (part n di b p w) as [[[a st] w']|]; [|exact H0].
      cbn in H0. destruct H0 as [-> H0]. apply H1; [lia|auto].
Qed.

Theorem seq_parts l inp r : through (says env) l inp r -> obeys env (Seq l) inp r.
Proof.
  intros H t v. destruct l as [|q rest].
  - exists (Err EType). split; [|left; reflexivity]. split; [discriminate|]. exists 0. reflexivity.
  - destruct (seq_forward _ _ _ H) as [n0 H0].
    specialize (fun n Hn => H0 n Hn (top_dst t) (top_dst t) (q :: rest) 0 (World (sf_make inp) [v] []) eq_refl).
    exists (parse env (S n0) t v (Seq (q :: rest)) inp).
    assert (parse env (S n0) t v (Seq (q :: rest)) inp <> Err EFuel /\
            match parse env (S n0) t v (Seq (q :: rest)) inp with
            | Done (a, w) => match r with Some s => a = SUCCESS /\ left_at w = s | None => a = FAILURE end
            | Err e => dst_error e
            end) as [Hf Hm].
    { specialize (H0 n0 (Nat.le_refl _)).
      destruct (parse env (S n0) t v (Seq (q :: rest)) inp) as [[a w]|e] eqn:E.
      - split; [discriminate|]. rewrite parse_seq in E.
        destruct (go_on _ _ _ _ _ _ _ _) as [[[a' st] w']|]; [|discriminate]. injection E as -> ->. exact H0.
      - assert (e <> EFuel). { rewrite parse_seq in E. destruct (go_on _ _ _ _ _ _ _ _) as [[[a' st] w']|]; [discriminate|]. injection E as ->. exact H0. }
        split; [congruence|]. eapply parse_dst_error; eauto. }
    split; auto. split; auto. exists (S n0). intros k Hk.
    apply (mono_lim (fun n => parse env n t v (Seq (q :: rest)) inp) (S n0)); auto. apply mono_parse.
Qed.

(** And back: the parts of a sequence that gave an answer give theirs. *)
Lemma part_obeys n d b p w r a st w' :
  part n d b p w = Done ((a, st), w') ->
  (match r with Some s => a = SUCCESS /\ left_at w' = s | None => a = FAILURE end) ->
  obeys env p (left_at w) r.
Proof.
  intros H Hr t v. pose proof (part_parse _ n t v d b p w eq_refl) as Hp. rewrite H in Hp.
  assert (parse env n t v p (left_at w) <> Err EFuel) as Hf.
  { destruct (parse env n t v p (left_at w)) as [|[]]; congruence. }
  exists (parse env n t v p (left_at w)). split.
  - split; auto. exists n. intros k Hk. apply (mono_lim (fun n => parse env n t v p (left_at w)) n); auto. apply mono_parse.
  - destruct (parse env n t v p (left_at w)) as [[a' w0]|e] eqn:E.
    + destruct Hp as [-> Hl]. destruct r; [destruct Hr; split; congruence|auto].
    + eapply parse_dst_error; eauto. congruence.
Qed.

Lemma seq_backward n b d full : forall rest i q w a st w' r,
  go_on n b d full i q rest w = Done ((a, st), w') -> 
  (match r with Some s => a = SUCCESS /\ left_at w' = s | None => a = FAILURE end) ->
  through (obeys env) (q :: rest) (left_at w) r.
Proof.
  induction rest as [|q' rest IH]; intros i q w a st w' r H Hr; rewrite go_on_eq in H;
    destruct (seq_dst full i d) as [di|]; try discriminate;
    destruct (part n di b q w) as [[[a1 st1] w1]|] eqn:E; try discriminate; destruct a1.
  - injection H as <- <- <-. destruct r; [|discriminate]. destruct Hr as [_ <-].
    eapply thr_next; [|apply thr_end]. eapply part_obeys; eauto.
  - injection H as <- <- <-. destruct r; [destruct Hr; discriminate|]. apply thr_no. eapply part_obeys; eauto.
  - injection H as <- <- <-. destruct r; [destruct Hr; discriminate|discriminate].
  - eapply thr_next; [eapply (part_obeys _ _ _ _ _ (Some (left_at w1))); eauto|]. eapply IH; eauto.
  - injection H as <- <- <-. destruct r; [destruct Hr; discriminate|]. apply thr_no. eapply part_obeys; eauto.
  - injection H as <- <- <-. destruct r; [destruct Hr; discriminate|discriminate].
Qed.

Theorem parts_seq l inp r : says env (Seq l) inp r -> through (obeys env) l inp r.
Proof.
  intros (t & v & n & w & H). destruct l as [|q rest].
  - destruct r; [destruct H|]; discriminate.
  - assert (exists a, parse env n t v (Seq (q :: rest)) inp = Done (a, w) /\
      match r with Some s => a = SUCCESS /\ left_at w = s | None => a = FAILURE end) as (a & Hp & Hr).
    { destruct r as [s|]; [destruct H|]; eauto. }
    destruct n as [|n].
    + unfold parse, top_run, bind in Hp. destruct (top_create _ _ _ _) as [[? ?]|]; discriminate.
    + rewrite parse_seq in Hp. destruct (go_on _ _ _ _ _ _ _ _) as [[[a' st] w']|] eqn:E; [|discriminate].
      injection Hp as -> ->. exact (seq_backward _ _ _ _ _ _ _ (World (sf_make inp) [v] []) _ _ _ _ E Hr).
Qed.

End Thms.
