(** A parser that is moved while it holds buffers. *)
From Coq Require Import List ZArith Bool Arith Lia.
From Verif Require Import Base CharSet Source SourceProofs Dst Pattern Parser Session SpecSession Rel Safety Shift Limit SessionProofs SessionThms Program SpecProgram ProgramThms Move MoveThms Await.
Import ListNotations.

(** The second cursor has read [D] before, and has further marks below. *)
Definition lost (D : list Z) (ps : list nat) (a b : cursor) : Prop :=
  a_inp b = D ++ a_inp a /\ a_fin a = a_fin b /\ a_pos b = length D + a_pos a /\ a_stk b = map (plus (length D)) (a_stk a) ++ ps.
Definition no_mark (e : err) : Prop := e = EUb UbMark \/ e = EFuel.

Lemma lost_ops D ps : ops_rel_or no_mark (a_ops true) (a_ops true) (lost D ps).
Proof.
  constructor; cbn; intros a b (H1 & H2 & H3 & H4).
  - unfold a_empty. rewrite H1, H3, app_length. destruct (length (a_inp a) <=? a_pos a) eqn:E; symmetry.
    + apply Nat.leb_le in E. apply Nat.leb_le. lia.
    + apply Nat.leb_gt in E. apply Nat.leb_gt. lia.
  - exact H2.
  - unfold a_next. rewrite H1, H3, nth_error_app2 by lia. now replace (length D + a_pos a - length D) with (a_pos a) by lia.
  - unfold a_advance, a_empty. rewrite H1, H3, app_length.
    destruct (length (a_inp a) <=? a_pos a) eqn:E.
    + apply Nat.leb_le in E. assert (length D + length (a_inp a) <=? length D + a_pos a = true) as -> by (apply Nat.leb_le; lia). cbn. auto.
    + apply Nat.leb_gt in E. assert (length D + length (a_inp a) <=? length D + a_pos a = false) as -> by (apply Nat.leb_gt; lia).
      cbn. repeat split; cbn; auto.
  - repeat split; cbn; auto. now rewrite H4, H3.
  - unfold a_commit. rewrite H4. destruct (a_stk a) as [|m st]; cbn.
    + destruct ps; cbn; unfold no_mark; auto.
    + repeat split; cbn; auto.
  - unfold a_cancel. rewrite H4. destruct (a_stk a) as [|m st]; cbn.
    + destruct ps; cbn; unfold no_mark; auto.
    + repeat split; cbn; auto.
Qed.

Definition both {A B C} (R : A -> B -> Prop) (Q : B -> C -> Prop) (a : A) (c : C) : Prop := exists b, R a b /\ Q b c.
Lemma both_ops {A B C} bad o1 o2 o3 (R : A -> B -> Prop) (Q : B -> C -> Prop) :
  ops_rel o1 o2 R -> ops_rel_or bad o2 o3 Q -> ops_rel_or bad o1 o3 (both R Q).
Proof.
  assert (forall x y z, rel_out R x y -> rel_out_or bad Q y z -> rel_out_or bad (both R Q) x z) as HT.
  { unfold rel_out, rel_out_or, both. intros [a|e] [b|e'] [c|e'']; try contradiction; eauto; intros ->; auto. }
  intros [] []. constructor; intros a c (b & H1 & H2).
  - now rewrite (or_empty _ _ H1), (oo_empty _ _ H2).
  - now rewrite (or_final _ _ H1), (oo_final _ _ H2).
  - now rewrite (or_next _ _ H1), (oo_next _ _ H2).
  - eauto.
  - exists (so_prepare o2 b). auto.
  - eauto.
  - eauto.
Qed.

Section Loss.
Context (env : nat -> option pat) (n : nat) (t : ty) (v : val) (p : pat).
Hypothesis Henv : forall id q, env id = Some q -> optfree q = true.
Hypothesis Hp : optfree p = true.

(** With text unread it cannot even be asked. *)
Lemma unread_stays l : forall m m', mv_unread m = true -> mv_res m = None ->
  do_all_moved env n t p l m = Done m' -> mv_res m' = None.
Proof.
  induction l as [|k l IH]; intros m m' Hu Hr E; [injection E as <-; exact Hr|]. cbn [do_all_moved] in E.
  destruct (do_moved env n t p k m) as [m1|] eqn:E1; [|discriminate]. cbn [obind] in E.
  assert (mv_unread m1 = true /\ mv_res m1 = None) as [H1 H2]; [|eauto].
  destruct k; cbn [do_moved] in E1.
  - destruct (negb (mv_alive m)); [discriminate|]. destruct (_ && _ && _); [discriminate|].
    destruct (cs_add _ _ _); [|discriminate]. injection E1 as <-. auto.
  - destruct (mv_final m); [discriminate|]. rewrite Hu in E1. destruct b; injection E1 as <-; auto.
  - rewrite Hr, Hu, orb_true_r in E1. discriminate.
  - injection E1 as <-. auto.
Qed.

Lemma lost_stays D ps l : ps <> [] -> forall before m m' s,
  mv_unread m = false -> mv_res m = None -> s_res s = None -> mv_st m = s_st s ->
  a_session env t v p n before = Done s -> gRw (both R_cs (lost D ps)) eq (mv_world m) (s_world s) ->
  do_all_moved env n t p l m = Done m' -> mv_res m' = None.
Proof.
  intros Hps. induction l as [|k l IH]; intros before m m' s Hu Hr Hr' Hst Hs Hw E; [injection E as <-; exact Hr|].
  cbn [do_all_moved] in E. destruct (do_moved env n t p k m) as [m1|] eqn:E1; [|discriminate]. cbn [obind] in E.
  destruct k; cbn [do_moved] in E1.
  - destruct (negb (mv_alive m)); [discriminate|]. destruct (_ && _ && _); [discriminate|].
    destruct (cs_add b f (w_src (mv_world m))) as [src|] eqn:Ea; [|discriminate]. injection E1 as <-.
    destruct Hw as ((a1 & HR & HL) & Hc & Ht). pose proof (R_cs_add b f _ _ HR) as HA. rewrite Ea in HA.
    destruct (a_add b f a1) as [a2|] eqn:E2; [|contradiction]. unfold a_add in E2. destruct (a_fin a1) eqn:Ef; [discriminate|]. injection E2 as <-.
    destruct HL as (L1 & L2 & L3 & L4).
    assert (a_add b f (w_src (s_world s)) = Done (Cursor (a_inp (w_src (s_world s)) ++ b) f (a_pos (w_src (s_world s))) (a_stk (w_src (s_world s))))) as Eb
      by (unfold a_add; now rewrite <- L2, Ef).
    assert (exists s1, a_session env t v p n (before ++ [Feed b f]) = Done s1 /\ s_res s1 = None /\ s_st s1 = s_st s /\
      s_world s1 = World (Cursor (a_inp (w_src (s_world s)) ++ b) f (a_pos (w_src (s_world s))) (a_stk (w_src (s_world s)))) (w_cells (s_world s)) (w_trace (s_world s)))
      as (s1 & G1 & G2 & G3 & G4).
    { eexists. split; [rewrite a_session_app, Hs; cbn [obind]; rewrite a_calls_one; unfold do_call; rewrite Hr', Eb; reflexivity|]. auto. }
    eapply (IH (before ++ [Feed b f]) _ m' s1); [| | | | | |exact E]; auto.
    + cbn. congruence.
    + rewrite G4. split; [|split; [exact Hc|exact Ht]]. cbn [w_src mv_world]. eexists. split; [exact HA|].
      repeat split; cbn; auto. now rewrite L1, app_assoc.
  - destruct (mv_final m); [discriminate|]. rewrite Hu in E1. destruct b; [|discriminate]. injection E1 as <-. eapply (IH before _ m' s); [| | | | | |exact E]; auto.
  - rewrite Hr, Hu, orb_false_r in E1. destruct (negb (mv_alive m)); [discriminate|]. unfold top_consume in E1.
    pose proof (glsim_consume_same cs_ops (a_ops true) _ eq no_mark ltac:(intros; congruence) (both_ops _ _ _ _ _ _ ops_rel_cs (lost_ops D ps)) (or_introl eq_refl) env n
      (top_ctx t) default_req (top_dst t) p (mv_st m) _ _ Hw) as HG.
    destruct (consume cs_ops env n _ _ _ _ _ _) as [[[r st] w]|]; [|discriminate]. injection E1 as <-.
    destruct HG as (w2 & HG & Hw2). rewrite Hst in HG.
    assert (forall o, o = match r with PARTIAL => None | _ => Some r end ->
      a_session env t v p n (before ++ [Consume]) = Done (Session_ o st w2)) as HA.
    { intros o ->. rewrite a_session_app, Hs. cbn [obind]. rewrite a_calls_one. unfold do_call, top_consume. rewrite Hr', HG. now destruct r. }
    assert (r = PARTIAL) as ->.
    { assert (forall x, match r with PARTIAL => None | _ => Some r end = Some x -> False) as HX; [|destruct r; auto; exfalso; eauto].
      intros x Ex. specialize (HA _ eq_refl). rewrite Ex in HA.
      pose proof (session_sim env t v p n (before ++ [Consume])) as HS. rewrite HA in HS.
      destruct (run_session env n t v p (before ++ [Consume])) as [s1|] eqn:E1; [|contradiction].
      destruct HS as (S1 & _ & (D1 & HD) & _). cbn in S1.
      destruct (proj2 (no_mark_left env t v p Henv Hp) n _ s1 x E1 S1) as (M1 & M2 & _).
      destruct HD. destruct rc_stk as (qs & Q1 & Q2). rewrite M1, M2 in *. inversion Q1; subst qs. cbn in Q2.
      destruct Hw2 as ((a1 & _ & _ & _ & _ & L4) & _). cbn [s_world] in Q2. rewrite Q2 in L4. symmetry in L4. apply app_eq_nil in L4. tauto. }
    eapply (IH (before ++ [Consume]) _ m' (Session_ None st w2)); [| | | | | |exact E]; auto.
  - injection E1 as <-. eapply (IH before _ m' s); [| | | | | |exact E]; auto.
Qed.

Theorem moved_while_holding before l s0 m : run_session env n t v p before = Done s0 -> s_res s0 = None -> ~ holds_nothing s0 ->
  run_moved env n t p v before l = Done m -> mv_res m = None.
Proof.
  intros E Hr Hh H. unfold run_moved in H. rewrite E in H. cbn [obind] in H.
  destruct (cs_cur (w_src (s_world s0))) as [c|] eqn:Ec.
  - eapply unread_stays; [| |exact H]; [|exact Hr]. cbn. unfold cs_empty. now rewrite Ec.
  - pose proof (session_sim env t v p n before) as HS. rewrite E in HS.
    destruct (a_session env t v p n before) as [a|] eqn:Ea; [|contradiction]. destruct HS as (H1 & H2 & (D & HD) & H4 & H5).
    assert (HD' := HD). destruct HD'. rewrite Ec in *. destruct rc_stk as (ps & Hps & Hstk).
    assert (ps <> []) as Hne.
    { intros ->. inversion Hps as [Hm|]. rewrite <- Hm in rc_held. cbn in rc_held. apply Hh. unfold holds_nothing, hd_id in *.
      destruct (cs_bufs (w_src (s_world s0))); [reflexivity|discriminate]. }
    eapply (lost_stays (a_inp (w_src (s_world a))) ps l Hne before (move s0) m a); auto.
    + cbn. unfold cs_empty. now rewrite Ec.
    + congruence.
    + split; [|split; [exact H4|exact H5]]. cbn [mv_world move w_src].
      exists (Cursor [] (cs_final (w_src (s_world s0))) 0 (repeat 0 (cs_starved (w_src (s_world s0))))). split.
      * exists []. constructor; cbn; auto; try constructor.
        -- now rewrite Ec.
        -- exists []. split; [constructor|now rewrite app_nil_r].
        -- now rewrite Ec.
      * repeat split; cbn; auto.
        -- now rewrite app_nil_r.
        -- lia.
        -- rewrite Hstk. f_equal. rewrite map_repeat_. now rewrite Nat.add_0_r.
Qed.
End Loss.
