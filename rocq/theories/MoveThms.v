(** Moving a parser. *)
From Coq Require Import List ZArith Bool Arith Lia.
From Verif Require Import Base CharSet Source SourceProofs Dst Pattern Parser Session SpecSession Rel Limit SessionProofs Program SpecProgram ProgramThms Move.
Import ListNotations.

(** The data goes to the original, the new one is asked. *)
Definition through_original (c : call) : mcall :=
  match c with Feed b f => FeedOriginal b f | Consume => Ask end.
(** What one sees of the new one: its answer, its parser, the data, the object and the callbacks. *)
Definition sees (m : moved) : option result * pst * world cseq := (mv_res m, mv_st m, mv_world m).
Definition shows (s : session cseq) : option result * pst * world cseq := (s_res s, s_st s, s_world s).
(** None of the buffers is held. *)
Definition holds_nothing (s : session cseq) : Prop := cs_bufs (w_src (s_world s)) = [].

Section Thms.
Context (env : nat -> option pat) (n : nat) (t : ty) (p : pat).
Notation calls := (do_calls cs_ops cs_add env n t p).

Lemma nothing_there s a : R_cs s a -> cs_bufs s = [] -> cs_cur s = None /\ cs_marks s = [] /\ left_source s = s.
Proof.
  intros (D & H) Hb. destruct H. rewrite Hb in *. destruct s as [bufs f cur marks k fr]. cbn in *. subst bufs.
  destruct cur as [m|]; [discriminate|]. destruct rc_stk as (ps & Hp & _).
  destruct marks as [|m marks]; [auto|]. inversion Hp; discriminate.
Qed.

Lemma move_whole v before s : run_session env n t v p before = Done s -> holds_nothing s ->
  sees (move s) = shows s /\ mv_unread (move s) = false /\ mv_alive (move s) = true.
Proof.
  intros E Hn. pose proof (session_sim env t v p n before) as HS. rewrite E in HS.
  destruct (a_session _ _ _ _ _ _) as [a|]; [|contradiction]. destruct HS as (_ & _ & HR & _).
  destruct (nothing_there _ _ HR Hn) as (H1 & _ & H3). unfold move, sees, shows. cbn [mv_res mv_st mv_world mv_unread mv_alive].
  rewrite H3. unfold cs_empty. rewrite H1. destruct s as [r st [x y z]]. auto.
Qed.

Lemma goes_on l : forall s m, sees m = shows s -> mv_unread m = false -> mv_alive m = true ->
  (forall a b, l = a ++ b -> b <> [] -> exists s', calls a s = Done s' /\ s_res s' = None) ->
  match calls l s, do_all_moved env n t p (map through_original l) m with
  | Done s', Done m' => sees m' = shows s'
  | Err e, Err e' => e = e'
  | _, _ => False
  end.
Proof.
  induction l as [|c l IH]; intros s m E Hu Ha H; [exact E|].
  destruct (H [] (c :: l) eq_refl) as (s0 & E0 & Hr); [discriminate|]. injection E0 as <-.
  cbn [do_calls map do_all_moved].
  assert (match do_call cs_ops cs_add env n t p c s, do_moved env n t p (through_original c) m with
          | Done s', Done m' => sees m' = shows s' /\ mv_unread m' = false /\ mv_alive m' = true
          | Err e, Err e' => e = e'
          | _, _ => False
          end) as H1.
  { unfold do_call. rewrite Hr. destruct s as [rs st wd], m as [r1 t1 f1 u1 a1 w1].
    cbn in E, Hr, Hu, Ha. injection E as -> -> ->. subst rs u1 a1. destruct c as [b f|]; cbn -[cs_add top_consume].
    - rewrite andb_false_r. cbn -[cs_add]. destruct (cs_add b f (w_src wd)); cbn; auto.
    - destruct (top_consume cs_ops env n t p st wd) as [[[[] st'] w']|]; cbn; auto. }
  destruct (do_call cs_ops cs_add env n t p c s) as [s'|e] eqn:Ec,
           (do_moved env n t p (through_original c) m) as [m'|e']; try contradiction; [|exact H1].
  destruct H1 as (H1 & H2 & H3). cbn [obind]. apply IH; auto. intros a b -> Hb.
  destruct (H (c :: a) b eq_refl Hb) as (s2 & E2 & H4). exists s2. cbn in E2. rewrite Ec in E2. auto.
Qed.

Theorem moved_in_place v before l s0 : run_session env n t v p before = Done s0 -> holds_nothing s0 ->
  (forall a b, l = a ++ b -> b <> [] ->
     exists s, run_session env n t v p (before ++ a) = Done s /\ s_res s = None) ->
  match run_session env n t v p (before ++ l), run_moved env n t p v before (map through_original l) with
  | Done s, Done m => sees m = shows s
  | Err e, Err e' => e = e'
  | _, _ => False
  end.
Proof.
  intros E Hn H. destruct (move_whole v before s0 E Hn) as (H1 & H2 & H3).
  unfold run_moved. rewrite run_session_app, E. cbn [obind]. apply goes_on; auto.
  intros a b El Hb. destruct (H a b El Hb) as (s' & E1 & E2). rewrite run_session_app, E in E1. eauto.
Qed.

(** A parser that was given nothing yet holds nothing. *)
Definition bare_source (a b : cseq) : Prop := a = b /\ cs_bufs a = [] /\ cs_cur a = None /\ cs_marks a = [].
Lemma bare_ops : ops_rel cs_ops cs_ops bare_source.
Proof.
  constructor; cbn; intros [bufs f cur marks k fr] b (<- & H1 & H2 & H3); cbn in *; subst; auto.
  - reflexivity.
  - repeat split.
  - unfold cs_commit. cbn. destruct k; cbn; auto. repeat split.
  - unfold cs_cancel. cbn. destruct k; cbn; auto. repeat split.
Qed.
Lemma new_holds_nothing v s : run_session env n t v p [] = Done s -> holds_nothing s.
Proof.
  unfold run_session, top_create.
  pose proof (lsim_create cs_ops cs_ops bare_source never bare_ops (top_ctx t) default_req (top_dst t) p
     (World cs_make [v] []) (World cs_make [v] [])) as HL.
  destruct (create cs_ops _ _ _ _ _) as [[st w]|e]; [|discriminate].
  destruct HL as (w' & [= <-] & (_ & Hb & _) & _); [repeat split|]. cbn [do_calls]. intros [= <-]. exact Hb.
Qed.

Theorem moved_before_use v l :
  (forall a b, l = a ++ b -> b <> [] -> exists s, run_session env n t v p a = Done s /\ s_res s = None) ->
  match run_session env n t v p l, run_moved env n t p v [] (map through_original l) with
  | Done s, Done m => sees m = shows s
  | Err e, Err e' => e = e'
  | _, _ => False
  end.
Proof.
  intros H. destruct (run_session env n t v p []) as [s0|e] eqn:E.
  - exact (moved_in_place v [] l s0 E (new_holds_nothing v s0 E) H).
  - unfold run_moved. change l with ([] ++ l) at 1. rewrite run_session_app, E. reflexivity.
Qed.
End Thms.
