(** Patterns that fit: parse() and sessions. *)
From Coq Require Import List ZArith Bool Arith Lia.
From Verif Require Import Base CharSet Source Dst Pattern Parser Session SpecSession Safety SessionThms.
From Verif Require Import SpecType TypeMem TypeInv SpecTerm TermThms.
Import ListNotations.

(** ** Errors of the sources *)

Definition source_err (e : err) : Prop :=
  match e with EUb UbRead | EUb UbAdvance | EUb UbMark | EUb UbRelease | EUb UbFinal => True | _ => False end.

Definition source_errs {S} (ops : source_ops S) : Prop :=
  (forall s e, so_next ops s = Err e -> source_err e) /\ (forall s e, so_advance ops s = Err e -> source_err e) /\
  (forall s e, so_commit ops s = Err e -> source_err e) /\ (forall s e, so_cancel ops s = Err e -> source_err e).

Lemma sf_errs : source_errs sf_ops.
Proof.
  repeat split; intros [[|] [|]] e; cbn; unfold sf_next, sf_advance, sf_commit, sf_cancel; cbn; try discriminate;
    intros [= <-]; exact Logic.I.
Qed.

Lemma cleanup_err s e : cs_cleanup s = Err e -> source_err e.
Proof.
  unfold cs_cleanup. destruct (cs_marks s); [|discriminate].
  destruct (buf_drop _ _) as [l|e'] eqn:E; cbn; [discriminate|]. intros [= <-].
  revert E. generalize (option_map fst (cs_cur s)). generalize (cs_bufs s). clear.
  induction l as [|[i b] l IH]; intros [j|]; cbn; try discriminate.
  - now intros [= <-].
  - destruct (i =? j); [discriminate|]. apply IH.
  - apply IH.
Qed.

Lemma cs_errs : source_errs cs_ops.
Proof.
  repeat split; intros s e; cbn; unfold cs_next, cs_advance, cs_commit, cs_cancel.
  - destruct (cs_cur s) as [[id off]|]; [|now intros [= <-]]. destruct (buf_find _ _); [|now intros [= <-]].
    destruct (nth_error _ _); cbn; [discriminate|now intros [= <-]].
  - destruct (cs_cur s) as [[id off]|]; [|now intros [= <-]]. destruct (buf_find _ _); [|now intros [= <-]].
    destruct (_ <=? _); [now intros [= <-]|]. destruct (_ =? _); discriminate.
  - destruct (cs_starved s); [|discriminate]. destruct (cs_marks s); [now intros [= <-]|]. apply cleanup_err.
  - destruct (cs_starved s); [|discriminate]. destruct (cs_marks s); [now intros [= <-]|]. apply cleanup_err.
Qed.

Lemma source_fine env strict calm uses e : source_err e -> fine env strict calm uses e.
Proof. intros H. repeat split; intros; intros ->; exact H. Qed.

Section Thms.
Context (strict calm : bool) (uses : nat -> ty -> ty -> Prop) (stores : nat -> bool) (known : action -> Prop).
Context (env : nat -> option pat) (t : ty) (v : val) (p : pat).
Hypothesis HW : welltyped strict calm uses stores known env t p.
Hypothesis Hv : object t v.

Notation fine := (fine env strict calm uses).
Notation obj := (obj env strict calm uses stores known).
Notation I := (I known).

Lemma top_dref : dref [t] (top_dst t) t.
Proof. apply (dref_cell [] t). Qed.

Section Src.
Context {S : Type} (ops : source_ops S) (He : source_errs ops).

Lemma create_top s :
  match top_create ops t p (World s [v] []) with
  | Err e => fine e
  | Done (st, w) => I [t] (w_cells w) (w_trace w) /\ obj default_req (detb (w_cells w) (top_dst t)) (detb (w_cells w) (top_dst t)) Fail t t p st
  end.
Proof.
  destruct HW as (HE & W & HT). destruct He as (H1 & H2 & H3 & H4).
  assert (I [t] [v] []) as HI by (split; [constructor; auto; constructor|constructor]).
  pose proof (create_c ops env strict calm uses stores known (top_ctx t) default_req (top_dst t) t t p [t] [v] []
    (fail_typed _ _ _ _ _ _ _ _ _ _) HI top_dref W HT s) as H.
  unfold top_create. destruct (create _ _ _ _ _ _) as [[st w]|e]; auto. destruct H as [[HN _] Ho]. split; auto.
  eapply obj_mono; eauto. discriminate.
Qed.

Lemma consume_top n st s cs tr : I [t] cs tr -> obj default_req (detb cs (top_dst t)) (detb cs (top_dst t)) Fail t t p st ->
  match top_consume ops env n t p st (World s cs tr) with
  | Err e => fine e
  | Done ((r, st'), w) => I [t] (w_cells w) (w_trace w) /\
      (r = PARTIAL -> obj default_req (detb (w_cells w) (top_dst t)) (detb (w_cells w) (top_dst t)) Fail t t p st') /\
      (r = SUCCESS -> strict = true -> is_num t = true -> sets stores p || binds p = true -> detb (w_cells w) (top_dst t) = true)
  end.
Proof.
  intros HI Ho. destruct HW as (HE & W & HT). destruct He as (H1 & H2 & H3 & H4).
  assert (Run env strict calm uses stores known (consume ops env n)) as HR.
  { apply run_all; auto; intros s' e E; apply source_fine; eauto. }
  pose proof (HR (top_ctx t) default_req (top_dst t) p st [t] t t cs tr HI top_dref top_dref W W (fail_typed _ _ _ _ _ _ _ _ _ _) Ho s) as H.
  unfold top_consume. destruct (consume _ _ _ _ _ _ _ _ _) as [[[r st'] w]|e]; auto. destruct H as ([HN _] & H5 & H6 & H7).
  split; [exact HN|]. split; [exact H5|]. intros Hr Hs Hn Hb. apply orb_prop in Hb. destruct Hb; auto.
Qed.
End Src.

Lemma one_cell cs tr : I [t] cs tr -> exists v', cs = [v'] /\ object t v' /\ handed known tr.
Proof.
  intros [HM HT]. inversion HM as [|? v' ? cs' Ho HM']; subst. inversion HM'; subst. exists v'. auto.
Qed.

Lemma det_has v' : object t v' -> (is_num t = true -> detb [v'] (top_dst t) = true) -> has_ty t v' = true.
Proof.
  intros [H|[Hn ->]] Hd; auto. specialize (Hd Hn). destruct t; discriminate.
Qed.

(** What a run does to the destination and hands to the actions. *)
Definition kept (r : option result) (cs : list val) (tr : list event) : Prop :=
  exists v', cs = [v'] /\ object t v' /\ handed known tr /\
  (r = Some SUCCESS -> strict = true -> sets stores p || binds p = true -> has_ty t v' = true).

Theorem parse_typed n inp :
  match parse env n t v p inp with
  | Err e => fine e
  | Done (r, w) => kept (Some r) (w_cells w) (w_trace w)
  end.
Proof.
  unfold parse, top_run, bind. pose proof (create_top sf_ops sf_errs (sf_make inp)) as H.
  destruct (top_create _ _ _ _) as [[st [s cs tr]]|e]; auto. cbn [w_cells w_trace] in H. destruct H as [HI Ho].
  pose proof (consume_top sf_ops sf_errs n st s cs tr HI Ho) as H.
  destruct (top_consume _ _ _ _ _ _ _) as [[[r st'] w]|e]; auto. destruct H as (HI' & _ & HS).
  destruct (one_cell _ _ HI') as (v' & E & Ho' & Hh). exists v'. repeat split; auto. intros [= ->] Hs Hset.
  apply det_has; auto. rewrite <- E. auto.
Qed.

Definition sess_ok (s : session cseq) : Prop :=
  I [t] (w_cells (s_world s)) (w_trace (s_world s)) /\
  (s_res s = None -> obj default_req (detb (w_cells (s_world s)) (top_dst t)) (detb (w_cells (s_world s)) (top_dst t)) Fail t t p (s_st s)) /\
  (s_res s = Some SUCCESS -> strict = true -> is_num t = true -> sets stores p || binds p = true ->
   detb (w_cells (s_world s)) (top_dst t) = true).

Lemma calls_typed n l : forall s, sess_ok s ->
  match do_calls cs_ops cs_add env n t p l s with Err e => fine e | Done s' => sess_ok s' end.
Proof.
  induction l as [|k l IH]; intros s Hs; cbn [do_calls]; auto.
  assert (match do_call cs_ops cs_add env n t p k s with Err e => fine e | Done s' => sess_ok s' end) as H1.
  { unfold do_call. destruct (s_res s) eqn:Er; auto. destruct Hs as (HI & Ho & _). specialize (Ho Er).
    destruct k as [b f|].
    - unfold cs_add. destruct (cs_final _); [apply source_fine; exact Logic.I|].
      destruct b; [cbn [obind]; split; cbn; auto; split; auto; discriminate|].
      destruct (cs_empty _); cbn [obind]; (split; cbn; auto; split; auto; discriminate).
    - destruct (s_world s) as [src cs tr]. cbn [w_cells w_trace] in *.
      pose proof (consume_top cs_ops cs_errs n (s_st s) src cs tr HI Ho) as H.
      destruct (top_consume _ _ _ _ _ _ _) as [[[r st'] w]|e]; auto. destruct H as (HI' & HP & HS).
      destruct r; (split; [exact HI'|]); cbn; (split; [try discriminate; auto|try discriminate; auto]). }
  destruct (do_call _ _ _ _ _ _ _ _) as [s1|e]; cbn [obind]; [apply IH; exact H1|exact H1].
Qed.

Theorem session_typed n l :
  match run_session env n t v p l with
  | Err e => fine e
  | Done s => kept (s_res s) (w_cells (s_world s)) (w_trace (s_world s))
  end.
Proof.
  unfold run_session. pose proof (create_top cs_ops cs_errs cs_make) as H.
  destruct (top_create _ _ _ _) as [[st w]|e]; auto. destruct H as [HI Ho].
  assert (sess_ok (Session_ None st w)) as Hs by (split; auto; split; cbn; auto; discriminate).
  pose proof (calls_typed n l _ Hs) as H. destruct (do_calls _ _ _ _ _ _ _ _) as [s|e]; auto.
  destruct H as (HI' & _ & HS). destruct (one_cell _ _ HI') as (v' & E & Ho' & Hh). exists v'. repeat split; auto. intros Hr Hst Hset.
  apply det_has; auto. rewrite <- E. auto.
Qed.
End Thms.

(** ** What follows *)

Definition keeps (known : action -> Prop) (t : ty) (cs : list val) (tr : list event) : Prop :=
  exists v', cs = [v'] /\ object t v' /\ handed known tr.

Theorem parse_keeps uses stores known env t p : welltyped false false uses stores known env t p ->
  forall v n inp, object t v ->
  match parse env n t v p inp with
  | Err e => e <> EType /\ e <> EShape
  | Done (_, w) => keeps known t (w_cells w) (w_trace w)
  end.
Proof.
  intros HW v n inp Hv. pose proof (parse_typed _ _ _ _ _ _ _ _ _ HW Hv n inp) as H.
  pose proof (parse_errors env t v p n inp) as HE. destruct (parse _ _ _ _ _ _) as [[r w]|e].
  - destruct H as (v' & H1 & H2 & H3 & _). exists v'. auto.
  - split; [apply H|]. specialize (HE e eq_refl). unfold okerr in HE. intuition congruence.
Qed.

Theorem session_keeps uses stores known env t p : welltyped false false uses stores known env t p ->
  forall v n l, object t v -> legal l = true ->
  match run_session env n t v p l with
  | Err e => e <> EType /\ e <> EShape
  | Done s => keeps known t (w_cells (s_world s)) (w_trace (s_world s))
  end.
Proof.
  intros HW v n l Hv Hl. pose proof (session_typed _ _ _ _ _ _ _ _ _ HW Hv n l) as H.
  pose proof (session_errors env t v p n l) as HE. destruct (run_session _ _ _ _ _ _) as [s|e].
  - destruct H as (v' & H1 & H2 & H3 & _). exists v'. auto.
  - split; [apply H|]. specialize (HE e Hl eq_refl). unfold okerr in HE. intuition congruence.
Qed.

(** Where every buffer is sure to be filled. *)
Definition filled (stores : nat -> bool) (known : action -> Prop) (t : ty) (p : pat) (r : option result)
  (cs : list val) (tr : list event) : Prop :=
  handed known tr /\
  (r = Some SUCCESS -> sets stores p || binds p = true -> exists v', cs = [v'] /\ has_ty t v' = true).

Theorem parse_filled uses stores known env t p : welltyped true false uses stores known env t p ->
  forall v n inp, object t v ->
  match parse env n t v p inp with
  | Err e => e <> EUb UbUninit
  | Done (r, w) => filled stores known t p (Some r) (w_cells w) (w_trace w)
  end.
Proof.
  intros HW v n inp Hv. pose proof (parse_typed _ _ _ _ _ _ _ _ _ HW Hv n inp) as H.
  destruct (parse _ _ _ _ _ _) as [[r w]|e].
  - destruct H as (v' & H1 & H2 & H3 & H4). split; auto. intros Hr Hs. exists v'. auto.
  - now apply H.
Qed.

Theorem session_filled uses stores known env t p : welltyped true false uses stores known env t p ->
  forall v n l, object t v ->
  match run_session env n t v p l with
  | Err e => e <> EUb UbUninit
  | Done s => filled stores known t p (s_res s) (w_cells (s_world s)) (w_trace (s_world s))
  end.
Proof.
  intros HW v n l Hv. pose proof (session_typed _ _ _ _ _ _ _ _ _ HW Hv n l) as H.
  destruct (run_session _ _ _ _ _ _) as [s|e].
  - destruct H as (v' & H1 & H2 & H3 & H4). split; auto. intros Hr Hs. exists v'. auto.
  - now apply H.
Qed.

(** Nothing at all can go wrong. *)
Theorem parse_total uses stores known env t p eager rank :
  welltyped true true uses stores known env t p -> all_defined uses env ->
  all_guarded eager rank env -> guarded eager rank None p = true ->
  forall v inp, object t v -> exists r w, (r = SUCCESS \/ r = FAILURE) /\
    reaches (fun n => parse env n t v p inp) (Done (r, w)).
Proof.
  intros HW HD HG Hp v inp Hv. destruct (parse_answers_or eager rank env HG t v p inp Hp) as (o & HR & Ho).
  destruct o as [[r w]|e]; [exists r, w; auto|]. exfalso. destruct HR as [_ (n0 & HR)]. specialize (HR n0 (le_n _)). cbn beta in HR.
  pose proof (parse_typed _ _ _ _ _ _ _ _ _ HW Hv n0 inp) as H. rewrite HR in H. destruct H as (H1 & H2 & H3 & H4).
  specialize (H2 eq_refl). specialize (H3 eq_refl). specialize (H4 HD). intuition congruence.
Qed.

Theorem session_total uses stores known env t p eager rank :
  welltyped true true uses stores known env t p -> all_defined uses env ->
  all_guarded eager rank env -> guarded eager rank None p = true ->
  forall v l, object t v -> legal l = true -> exists s, reaches (fun n => run_session env n t v p l) (Done s) /\
    (ended (removelast l) = true -> last l (Feed [] false) = Consume -> s_res s = Some SUCCESS \/ s_res s = Some FAILURE).
Proof.
  intros HW HD HG Hp v l Hv Hl. destruct (session_answers_or eager rank env HG t v p l Hp Hl) as (o & HR & Ho).
  destruct o as [s|e]; [exists s; auto|]. exfalso. destruct HR as [_ (n0 & HR)]. specialize (HR n0 (le_n _)). cbn beta in HR.
  pose proof (session_typed _ _ _ _ _ _ _ _ _ HW Hv n0 l) as H. rewrite HR in H. destruct H as (H1 & H2 & H3 & H4).
  specialize (H2 eq_refl). specialize (H3 eq_refl). specialize (H4 HD). intuition congruence.
Qed.
