(** A parser without skipper waits exactly while the part that is read now is open. *)
From Coq Require Import List ZArith Bool Arith Lia.
From Verif Require Import Base CharSet Source Dst Pattern Parser Session SpecSession SpecPeg SpecReady SpecAwait.
From Verif Require Import Comb Rel Safety Keep Limit SessionProofs WaitThms Leaf Ready Open Big BigMk BigLeaf BigSound PegSound PegTerm FirstRun.
From Verif Require Resume.
Import ListNotations.

Section Await.
Context (env : nat -> option pat) (T : char_ty).
Hypothesis HT : ct_ok T.
Hypothesis Hmok : forall id q, env id = Some q -> mok true recur_req q = true.
Hypothesis Hpeg : forall id q, env id = Some q -> peg_ok T true recur_req q = true.
Hypothesis Hbare : forall id q, env id = Some q -> bare q = true.
Notation run := (consume o_ops env).
Notation settled := (settled env (tok T)).
Notation awaits := (awaits env (tok T)).

Lemma map_nil_app (k : list (list Z)) : map (fun x => x ++ []) k = k.
Proof. induction k as [|a k IH]; cbn; auto. now rewrite app_nil_r, IH. Qed.
Lemma map_repeat_ {A B} (f : A -> B) x n : map f (repeat x n) = repeat (f x) n.
Proof. induction n; cbn; congruence. Qed.

(** Creating. *)
Lemma o_create c rq d p s stk cs tr a w : cok c = true -> skips_ok p = true ->
  create o_ops c rq d p (O s stk cs tr) = Done (a, w) ->
  exists cs1, mk c rq d p cs = Done (a, cs1) /\ w = O s (repeat s (owed a) ++ stk) cs1 tr.
Proof.
  intros Hc Hp E.
  pose proof (Resume.neu_create o_ops (oext []) _ (o_extends []) c rq d p (O s stk cs tr) eq_refl) as HN.
  unfold Resume.neu_at in HN. rewrite E in HN. destruct HN as [H1 H2].
  pose proof (lsim_create o_ops sf_ops closed (fun _ => False) closed_ops c rq d p
    (Resume.ext (oext []) (O s stk cs tr)) (W (s ++ []) (map (fun x => x ++ []) stk) cs tr)) as HL.
  rewrite H2 in HL. destruct HL as (w2 & HL & HR); [repeat split|].
  rewrite map_nil_app, app_nil_r in HL. rewrite create_mk in HL by auto.
  destruct (mk c rq d p cs) as [[a1 cs1]|]; [|discriminate]. injection HL as <- <-.
  exists cs1. split; auto. destruct HR as (R1 & R2 & R3). destruct w as [[[s' k'] f] c' t']. unfold Resume.nf in H1. cbn in *. subst f.
  unfold closed, oext in R1. cbn in R1. rewrite map_nil_app, app_nil_r in R1. injection R1 as -> ->. subst. reflexivity.
Qed.

Lemma zero_mk c rq d p cs a cs1 : cok c = true -> skips_ok p = true -> mk c rq d p cs = Done (a, cs1) -> zero a = true.
Proof.
  intros Hc Hp H. pose proof (create_mk c rq d p [] [] cs [] Hc Hp) as E. rewrite H in E. exact (y_create sf_ops _ _ _ _ _ _ _ E).
Qed.

Lemma closed_first : ops_rel (unres o_ops) sf_ops closed.
Proof. destruct closed_ops. constructor; assumption. Qed.

(** A part that answers. *)
Definition answered (h : bool) (rq : req) (p : pat) (base : list (list Z)) (s : list Z) (r : result) (w' : world (sfwd * bool)) : Prop :=
  exists s' cs' tr' lk, w' = O s' (lk ++ base) cs' tr' /\ (h = true -> lk = []) /\ Forall (tok T) s' /\
  ((r = SUCCESS /\ settled p s (Some s')) \/ (r = FAILURE /\ settled p s None /\ (r_clean rq = true -> s' = s))).

Lemma answer h c rq d p a cs0 cs1 base s tr r a' w' n : r <> PARTIAL ->
  is_fail (c_skip c) = true -> mok h rq p = true -> spok T false GRun rq p -> Forall (tok T) s ->
  mk c rq d p cs0 = Done (a, cs1) ->
  run n c rq d p a (O s (repeat s (owed a) ++ base) cs1 tr) = Done ((r, a'), w') ->
  answered h rq p base s r w'.
Proof.
  intros Hr Hf Hm Hp Hs Hk E.
  assert (cok c = true) as Hc by (unfold cok; now rewrite Hf).
  assert (forall more, Forall (tok T) more -> exists b s1 cs' tr' lk, r = res b /\
     Resume.ext (oext more) w' = World (Sfwd s1 (lk ++ map (fun x => x ++ more) base), true) cs' tr' /\ (h = true -> lk = []) /\
     snd (w_src w') = false /\ ev env GRun c rq d p (s ++ more) (SW (s ++ more) cs0 tr) b (SW s1 cs' tr')) as H.
  { intros more Hmore.
    pose proof (Resume.chk_all o_ops (oext more) _ (o_extends more) env n c rq d p a (O s (repeat s (owed a) ++ base) cs1 tr) eq_refl) as HC.
    unfold Resume.CHK in HC. rewrite E in HC.
    assert (Resume.nf (fun x => snd x = false) w' /\ run n c rq d p a (Resume.ext (oext more) (O s (repeat s (owed a) ++ base) cs1 tr))
       = Done ((r, a'), Resume.ext (oext more) w')) as [H1 H2].
    { destruct r; auto. congruence. }
    rewrite first_run in H2 by (apply (zero_mk c rq d p cs0 a cs1); auto; now apply mok_skips in Hm).
    pose proof (lsim_consume_same (unres o_ops) sf_ops closed (fun e => e = EFuel) closed_first (or_introl eq_refl) env n c rq d p a (Resume.ext (oext more) (O s (repeat s (owed a) ++ base) cs1 tr))
      (W (s ++ more) (map (fun x => x ++ more) (repeat s (owed a) ++ base)) cs1 tr)) as HL'.
    rewrite H2 in HL'. destruct HL' as (w2 & E2 & R1 & R2 & R3); [repeat split|].
    rewrite map_app, map_repeat_ in E2.
    destruct (sound env Hmok n h c rq d p a (s ++ more) cs0 cs1 _ _ _ _ _ _ Hc Hm Hk E2) as (b & s1 & cs' & tr' & lk & -> & -> & Hlk & Hev).
    exists b, s1, cs', tr', lk. split; auto. split; [|auto].
    destruct w' as [[x f] c' t']. cbn in *. unfold closed in R1. subst c' t'. unfold Resume.ext. cbn [w_src w_cells w_trace]. now rewrite R1. }
  destruct w' as [[[s' k'] f] c' t'].
  destruct (H [] (Forall_nil _)) as (b & s1 & cs' & tr' & lk & -> & E1 & Hlk & Hff & Hev). cbn in Hff. subst f.
  unfold Resume.ext, oext in E1. cbn in E1. rewrite !map_nil_app, app_nil_r in E1. injection E1 as -> -> -> ->.
  rewrite !app_nil_r in Hev.
  exists s1, cs', tr', lk. split; [reflexivity|]. split; auto.
  assert (Forall (tok T) s1) as Hs1.
  { exact (ev_suffix env (Forall (tok T)) (suffix_toks T) _ _ _ _ _ _ _ _ _ Hev Hs Hs Hs). }
  split; auto.
  assert (forall more, Forall (tok T) more -> exists r0, m env nows (One p) (s ++ more) r0 /\
     match r0 with Some t => b = true /\ t = s1 ++ more | None => b = false end) as HM.
  { intros more Hmore. destruct (H more Hmore) as (b1 & s2 & cs2 & tr2 & lk2 & Eb & E2 & _ & _ & Hev2).
    assert (b1 = b) as -> by (destruct b, b1; auto; discriminate).
    unfold Resume.ext, oext in E2. cbn in E2. injection E2 as <- _ _ _.
    assert (Forall (tok T) (s ++ more)) as Hsm by (apply Forall_app; auto).
    destruct (sound_all env T HT Hpeg _ _ _ _ _ _ _ _ _ Hev2 nows false (s ++ more) (s ++ more)) as [(r0 & HJ & HR) _]; auto.
    - unfold skips. now rewrite Hf.
    - right. reflexivity.
    - intros _. apply trim_nows.
    - reflexivity.
    - reflexivity.
    - exists r0. split; [exact HJ|]. destruct r0 as [t|], b; cbn in HR; try contradiction; auto.
      apply eqt_nows in HR. auto. }
  destruct b; [left|right]; (split; [reflexivity|]).
  - intros more Hmore. destruct (HM more Hmore) as ([t|] & H1 & H2); [destruct H2 as [_ ->]; exact H1|discriminate].
  - split.
    + intros more Hmore. destruct (HM more Hmore) as ([t|] & H1 & H2); [destruct H2; discriminate|exact H1].
    + intros Hcl. destruct (sound_all env T HT Hpeg _ _ _ _ _ _ _ _ _ Hev nows false s s) as [_ HC]; auto.
      * unfold skips. now rewrite Hf.
      * right. reflexivity.
      * intros _. apply trim_nows.
      * reflexivity.
      * reflexivity.
      * specialize (HC eq_refl Hcl). now apply eqt_nows in HC.
Qed.

Lemma settled_det p s r1 r2 : settled p s r1 -> settled p s r2 -> r1 = r2.
Proof.
  intros H1 H2. specialize (H1 [] (Forall_nil _)). specialize (H2 [] (Forall_nil _)).
  pose proof (m_det _ _ _ _ _ H1 _ H2) as E. destruct r1, r2; try discriminate; auto. rewrite !app_nil_r in E. exact E.
Qed.

Definition gw (g : stage) (p : pat) (s : list Z) : Prop :=
  match g with
  | GRep k => match p with Repeat lo hi q => awaits (Times lo hi k q) s | _ => False end
  | GElem _ => match p with
               | PList q sep => awaits (One q) s \/ exists s1, settled q s (Some s1) /\ awaits (More q sep) s1
               | _ => False
               end
  | GSep _ => match p with PList q sep => awaits (More q sep) s | _ => False end
  | _ => awaits (One p) s
  end.

(** Without skipper no [GSkip]; the loops of sequences and alternatives are done below. *)
Definition Aw (n : nat) (g : stage) : Prop :=
  match g with GSkip | GSeq _ | GAlt _ => True | _ =>
  forall h c rq d p st cs0 cs1 base s tr r st' w',
    is_fail (c_skip c) = true -> gok h g rq p = true -> spok T false g rq p -> bare p = true -> Forall (tok T) s ->
    mkg g c rq d p cs0 = Done (st, cs1) ->
    run n c rq d p st (O s (gstk g s st base) cs1 tr) = Done ((r, st'), w') ->
    (r = PARTIAL <-> gw g p s)
  end.

Lemma cells_kept_o n c rq d p st w r st' w' :
  run n c rq d p st w = Done ((r, st'), w') -> length (w_cells w') = length (w_cells w).
Proof. intros H. eapply (keeps_consume o_ops (fun _ _ => True)) in H; auto. tauto. Qed.

Lemma cell_inv_o n c rq t p a v1 w0 cs1 r a' v' w' : w_cells w0 = cs1 ->
  with_cell v1 (fun lvl => run n c rq (dst_cell lvl t) p a) w0 = Done (((r, a'), v'), w') ->
  exists w1, run n c rq (dst_cell (length cs1) t) p a (World (w_src w0) (cs1 ++ [v1]) (w_trace w0)) = Done ((r, a'), w1).
Proof.
  intros <-. unfold with_cell. destruct (run n c rq _ p a _) as [[[r0 a0] w1]|] eqn:E; [|discriminate].
  destruct (nth_error _ _); [|discriminate]. intros [= <- <- <- <-]. eauto.
Qed.

Ltac inv H := inversion H; subst; clear H.
Ltac bi H := let E := fresh "E" in let a := fresh "a" in let w := fresh "w" in
  apply bind_inv in H; destruct H as (a & w & E & H).
(** Which constructor can it be? *)
Ltac no := match goal with E : ?r = PARTIAL <-> awaits (One ?p) ?s, H : awaits (One ?p) ?s |- _ => exfalso; apply E in H; first [discriminate H|contradiction] end.
Ltac same := match goal with
  | H1 : settled ?p ?s (Some ?a), H2 : settled ?p ?s (Some ?b) |- _ => pose proof (settled_det _ _ _ _ H1 H2) as [= <-]; clear H2
  | H1 : settled ?p ?s (Some ?a), H2 : settled ?p ?s None |- _ => exfalso; pose proof (settled_det _ _ _ _ H1 H2); discriminate
  end.
Ltac aw H := inversion H; subst; clear H; try discriminate; try no; try same; try (match goal with H : awaits (All []) _ |- _ => inversion H | H : awaits (Any []) _ |- _ => inversion H end).

Section Step.
Context (n : nat).
Hypothesis IH : forall g m, m <= n -> Aw m g.

Lemma kid h c rq d p a cs0 cs1 base s tr r st' w' k : k <= n ->
  is_fail (c_skip c) = true -> mok h rq p = true -> spok T false GRun rq p -> bare p = true -> Forall (tok T) s ->
  mk c rq d p cs0 = Done (a, cs1) ->
  run k c rq d p a (O s (repeat s (owed a) ++ base) cs1 tr) = Done ((r, st'), w') ->
  (r = PARTIAL <-> awaits (One p) s) /\ (r = PARTIAL \/ (r <> PARTIAL /\ answered h rq p base s r w')).
Proof.
  intros Hk Hf Hm Hp Hb Hs Hmk E. split.
  - exact (IH GRun k Hk h c rq d p a cs0 cs1 base s tr r st' w' Hf Hm Hp Hb Hs Hmk E).
  - destruct r; auto; right; (split; [discriminate|]); eapply answer; eauto; discriminate.
Qed.

Lemma new_kid h c rq d p a base cs0 s tr r st' w w' k : k <= n ->
  is_fail (c_skip c) = true -> mok h rq p = true -> spok T false GRun rq p -> bare p = true -> Forall (tok T) s ->
  create o_ops c rq d p (O s base cs0 tr) = Done (a, w) ->
  run k c rq d p a w = Done ((r, st'), w') ->
  (r = PARTIAL <-> awaits (One p) s) /\ (r = PARTIAL \/ (r <> PARTIAL /\ answered h rq p base s r w')).
Proof.
  intros Hk Hf Hm Hp Hb Hs Hc. apply o_create in Hc; [|unfold cok; now rewrite Hf|now apply mok_skips in Hm].
  destruct Hc as (cs1 & Hc & ->). eapply kid; eauto.
Qed.

Ltac parts := repeat match goal with H : _ && _ = true |- _ => apply andb_prop in H; destruct H end.

Lemma seq_aw h c d l : forall rest i q a cs0 cs1 base s tr r st' w',
  is_fail (c_skip c) = true -> forallb (mok h seq_req) l = true -> forallb (peg_ok T false seq_req) l = true -> forallb bare l = true ->
  Forall (tok T) s -> skipn i l = q :: rest ->
  forall di, seq_dst l i d = Done di -> mk c seq_req di q cs0 = Done (a, cs1) ->
  seq_from o_ops (run n) c d l i q rest a (O s (repeat s (owed a) ++ base) cs1 tr) = Done ((r, st'), w') ->
  (r = PARTIAL <-> awaits (All (q :: rest)) s).
Proof.
  induction rest as [|q' rest IHr]; intros i q a cs0 cs1 base s tr r st' w' Hf Hm Hp Hb Hs Hi di Hd Hk H;
    (assert (In q l) as Hq by (apply skipn_nth in Hi; now apply nth_error_In in Hi));
    assert (Hm1 := Hm); assert (Hp1 := Hp); assert (Hb1 := Hb); rewrite forallb_forall in Hm1, Hp1, Hb1;
    cbn [seq_from] in H; rewrite Hd in H; bi H; destruct a0 as [r0 a'];
    (eapply kid in E; eauto; [|split; [auto|discriminate]]); destruct E as [E1 E2]; cbn [fst snd] in H.
  - destruct E2 as [->|(N & s' & cs' & tr' & lk & -> & _ & Hs' & [[-> HS]|(-> & HS & _)])]; inv H.
    + split; [|auto]. intros _. apply aw_all. now apply E1.
    + split; [discriminate|]. intros H. aw H.
    + split; [discriminate|]. intros H. aw H.
  - assert (skipn (S i) l = q' :: rest) as Hi'.
    { clear - Hi. revert l Hi. induction i as [|i IHi]; intros [|y l] Hi; try discriminate; cbn in Hi |- *.
      - injection Hi as _ ->. reflexivity.
      - now apply IHi in Hi. }
    assert (In q' l) as Hq' by (apply skipn_nth in Hi'; now apply nth_error_In in Hi').
    destruct E2 as [->|(N & s' & cs' & tr' & lk & -> & _ & Hs' & [[-> HS]|(-> & HS & _)])].
    + inv H. split; [|auto]. intros _. apply aw_all. now apply E1.
    + destruct (seq_dst l (S i) d) as [di'|] eqn:Hd'; [|discriminate]. bi H.
      apply o_create in E; [|unfold cok; now rewrite Hf|eapply mok_skips; eauto]. destruct E as (cs2 & Hk2 & ->).
      eapply IHr in H; eauto. rewrite H. split; intros HA.
      * eapply aw_all_next; eauto.
      * aw HA. auto.
    + inv H. split; [discriminate|]. intros H. aw H.
Qed.

Lemma alt_aw h c rq d l : forall rest i q a cs0 cs1 base s tr r st' w',
  is_fail (c_skip c) = true -> forallb (mok h (alt_req rq)) l = true -> forallb (peg_ok T false (alt_req rq)) l = true -> forallb bare l = true ->
  Forall (tok T) s -> skipn i l = q :: rest -> mk c (alt_req rq) d q cs0 = Done (a, cs1) ->
  alt_from o_ops (run n) c rq d i q rest a (O s (repeat s (owed a) ++ base) cs1 tr) = Done ((r, st'), w') ->
  (r = PARTIAL <-> awaits (Any (q :: rest)) s).
Proof.
  induction rest as [|q' rest IHr]; intros i q a cs0 cs1 base s tr r st' w' Hf Hm Hp Hb Hs Hi Hk H;
    (assert (In q l) as Hq by (apply skipn_nth in Hi; now apply nth_error_In in Hi));
    assert (Hm1 := Hm); assert (Hp1 := Hp); assert (Hb1 := Hb); rewrite forallb_forall in Hm1, Hp1, Hb1;
    cbn [alt_from] in H; bi H; destruct a0 as [r0 a'];
    (eapply kid in E; eauto; [|split; [auto|discriminate]]); destruct E as [E1 E2]; cbn [fst snd] in H.
  - destruct E2 as [->|(N & s' & cs' & tr' & lk & -> & _ & Hs' & [[-> HS]|(-> & HS & _)])]; inv H.
    + split; [|auto]. intros _. apply aw_any. now apply E1.
    + split; [discriminate|]. intros H. aw H.
    + split; [discriminate|]. intros H. aw H.
  - assert (skipn (S i) l = q' :: rest) as Hi'.
    { clear - Hi. revert l Hi. induction i as [|i IHi]; intros [|y l] Hi; try discriminate; cbn in Hi |- *.
      - injection Hi as _ ->. reflexivity.
      - now apply IHi in Hi. }
    assert (In q' l) as Hq' by (apply skipn_nth in Hi'; now apply nth_error_In in Hi').
    destruct E2 as [->|(N & s' & cs' & tr' & lk & -> & _ & Hs' & [[-> HS]|(-> & HS & HC)])].
    + inv H. split; [|auto]. intros _. apply aw_any. now apply E1.
    + inv H. split; [discriminate|]. intros H. aw H.
    + rewrite (HC eq_refl) in *. bi H.
      apply o_create in E; [|unfold cok; now rewrite Hf|eapply mok_skips; eauto]. destruct E as (cs2 & Hk2 & ->).
      eapply IHr in H; eauto. rewrite H. split; intros HA.
      * eapply aw_any_next; eauto.
      * aw HA. auto.
Qed.

Lemma rep_aw k : Aw (S n) (GRep k).
Proof.
  intros h c rq d p st cs0 cs1 base s tr r st' w' Hf Hg Hp Hb Hs Hk H.
  destruct p; try discriminate. cbn [mkg gok mokr bare] in Hk, Hg, Hb. apply mk_map_inv in Hk. destruct Hk as (a & -> & Hk).
  assert (Hp0 := Hp). destruct Hp as [Hp _]. cbn [pokr] in Hp. apply andb_prop in Hp as [Hlh Hp].
  cbn [Parser.consume consume_step gstk owed gw] in H |- *. unfold repeat_consume in H. bi H. destruct a0 as [r0 a'].
  eapply kid in E; eauto; [|split; [auto|discriminate]]. destruct E as [E1 E2]. cbn [fst snd] in H.
  destruct E2 as [->|(N & s' & cs' & tr' & lk & -> & _ & Hs' & [[-> HS]|(-> & HS & _)])].
  - inv H. split; [|auto]. intros _. apply aw_times. now apply E1.
  - destruct (negb (rmax =? 0) && (S k =? rmax)) eqn:Ef.
    + inv H. split; [discriminate|]. apply andb_prop in Ef as [_ Ef]. apply Nat.eqb_eq in Ef.
      intros H. aw H. lia.
    + bi H. apply o_create in E; [|unfold cok; now rewrite Hf|now apply mok_skips in Hg]. destruct E as (cs2 & Hk2 & ->).
      eapply (IH (GRep (S k)) n (le_n _) h c rq d (Repeat rmin rmax p) (PRepeat (S k) a0) cs' cs2) in H; try exact Hp0; try (cbn [gok mokr bare]; apply andb_true_intro; split; assumption); auto.
      2:{ cbn [mkg]. unfold mk_map. now rewrite Hk2. }
      cbn [gw] in H. rewrite H. assert (S k <> rmax) as Hn.
      { intros <-. rewrite Nat.eqb_refl in Ef. discriminate. }
      split; intros HA.
      * eapply aw_times_next; eauto.
      * aw HA. auto.
  - inv H. split; [destruct (rmin <=? k); discriminate|]. intros H. aw H.
Qed.

Lemma elem_aw m0 : Aw (S n) (GElem m0).
Proof.
  intros h c rq d p st cs0 cs1 base s tr r st' w' Hf Hg Hp Hb Hs Hk H.
  destruct p; try discriminate. cbn [mkg gok mokr bare] in Hk, Hg, Hb. apply mk_map_inv in Hk. destruct Hk as (a & -> & Hk).
  assert (Hg0 := Hg). assert (Hb0 := Hb). assert (Hp0 := Hp). destruct Hp as [Hp _]. cbn [pokr] in Hp. parts.
  cbn [Parser.consume consume_step gstk gw] in H |- *. unfold list_consume in H. bi H. destruct a0 as [r0 a'].
  eapply kid in E; eauto; [|split; [auto|discriminate]]. destruct E as [E1 E2]. cbn [fst snd] in H.
  destruct E2 as [->|(N & s' & cs' & tr' & lk & -> & Hlk & Hs' & [[-> HS]|(-> & HS & _)])].
  - inv H. split; [|auto]. intros _. left. now apply E1.
  - rewrite (Hlk eq_refl) in H. cbn [app] in H. unfold bind at 1 2 in H. cbn in H. bi H. apply o_create in E; [|unfold cok; now rewrite Hf|eapply mok_skips; eauto].
    destruct E as (cs2 & Hk2 & ->).
    eapply (IH (GSep s') n (le_n _) h c rq d (PList p1 p2) (PListSt 1 a0) cs' cs2) in H; try exact Hp0; try (cbn [gok mokr bare]; apply andb_true_intro; split; assumption); auto.
    2:{ cbn [mkg]. unfold mk_map. now rewrite Hk2. }
    cbn [gw sf_cur] in H. rewrite H. split.
    + intros HA. right. eauto.
    + intros [HA|(s1 & HA & HB)]; [no|]. same. auto.
  - bi H. inv H. split; [discriminate|]. intros [HA|(s1 & HA & HB)]; [no|]. same.
Qed.

Lemma sep_aw m0 : Aw (S n) (GSep m0).
Proof.
  intros h c rq d p st cs0 cs1 base s tr r st' w' Hf Hg Hp Hb Hs Hk H.
  destruct p; try discriminate. cbn [mkg gok mokr bare] in Hk, Hg, Hb. apply mk_map_inv in Hk. destruct Hk as (a & -> & Hk).
  assert (Hg0 := Hg). assert (Hb0 := Hb). assert (Hp0 := Hp). destruct Hp as [Hp _]. cbn [pokr] in Hp. parts.
  cbn [Parser.consume consume_step gstk gw] in H |- *. unfold list_consume in H. bi H. destruct a0 as [r0 a'].
  eapply kid in E; eauto; [|split; [auto|discriminate]]. destruct E as [E1 E2]. cbn [fst snd] in H.
  destruct E2 as [->|(N & s' & cs' & tr' & lk & -> & Hlk & Hs' & [[-> HS]|(-> & HS & _)])].
  - inv H. split; [|auto]. intros _. apply aw_more. now apply E1.
  - rewrite (Hlk eq_refl) in H. cbn [app] in H. bi H. apply o_create in E; [|unfold cok; now rewrite Hf|eapply mok_skips; eauto].
    destruct E as (cs2 & Hk2 & ->).
    eapply (IH (GElem m0) n (le_n _) h c rq d (PList p1 p2) (PListSt 0 a0) cs' cs2) in H; try exact Hp0; try (cbn [gok mokr bare]; apply andb_true_intro; split; assumption); auto.
    2:{ cbn [mkg]. unfold mk_map. now rewrite Hk2. }
    cbn [gw sf_cur] in H. rewrite H. split.
    + intros [HA|(s1 & HA & HB)]; [eapply aw_more_elem; eauto|eapply aw_more_next; eauto].
    + intros HA. aw HA; eauto.
  - bi H. inv H. split; [discriminate|]. intros HA. aw HA.
Qed.

Ltac thru := match goal with
  | H : context [match ?r0 with SUCCESS => _ | FAILURE => _ | PARTIAL => _ end], E : ?r0 = PARTIAL <-> _ |- _ =>
    destruct r0; cbn [fst snd] in H; repeat (let X := fresh in apply bind_inv in H; destruct H as (? & ? & X & H)); inv H
  end.
Ltac eqv := match goal with E1 : ?r0 = PARTIAL <-> awaits (One ?p) ?s |- ?r = PARTIAL <-> awaits (One ?q) ?s =>
  transitivity (awaits (One p) s); [rewrite <- E1; split; congruence|split; intros HA; [now constructor|aw HA; auto]] end.

Lemma raw_aw : Aw (S n) GRaw.
Proof.
  intros h c rq d p st cs0 cs1 base s tr r st' w' Hf Hg Hp Hb Hs Hk H.
  cbn [gok mkg gw] in *.
  assert (gstk GRaw s st base = repeat s (owed st) ++ base) as HS by reflexivity. rewrite HS in H. clear HS.
  destruct Hp as [Hp Hrec].
  assert (forall X, primitive p = true -> (r = PARTIAL <-> X) -> (X <-> unsettled p s) -> (r = PARTIAL <-> awaits (One p) s)) as HP.
  { intros X H1 H2 H3. rewrite H2, H3. split; [now apply aw_primitive|]. intros HA. destruct p; try discriminate H1; aw HA; auto. }
  destruct p; cbn [mokr mk_raw bare pokr] in *; parts.
  - (* Char *)
    inv Hk. eapply HP; [reflexivity|eapply o_char_ready; eauto|reflexivity].
  - discriminate.
  - (* Eoi *)
    inv Hk. eapply HP; [reflexivity|eapply o_eoi_ready; eauto|reflexivity].
  - (* Pass *)
    destruct (r_consumes rq) eqn:Er; inv Hk. inv H. eapply (HP False); [reflexivity|split; [discriminate|tauto]|reflexivity].
  - (* Fail *)
    inv Hk. inv H. eapply (HP False); [reflexivity|split; [discriminate|tauto]|reflexivity].
  - (* Lit *)
    inv Hk. eapply HP; [reflexivity|eapply o_lit_ready; eauto|reflexivity].
  - (* Symbol *)
    inv Hk. eapply HP; [reflexivity|eapply o_sym_ready; eauto; apply lush_build|]. rewrite longer_build. reflexivity.
  - (* UInt *)
    destruct (num_zero cs0 d) as [c0|] eqn:Ez; inv Hk. apply num_fits_ok in Hp. destruct Hp as (HTc & Hb1 & Hlh). rewrite HTc in Hs.
    eapply HP; [|eapply (o_uint_ready env c rq d base0 dmin dmax Hb1); eauto; lia|reflexivity].
    cbn. apply andb_true_intro. split; apply Z.leb_le; lia.
  - (* Int *)
    destruct (num_zero cs0 d) as [c0|] eqn:Ez; inv Hk.
    match goal with X : num_fits _ _ _ _ = true |- _ => apply num_fits_ok in X; destruct X as (HTc & Hb1 & Hlh) end. rewrite HTc in Hs.
    eapply HP; [|eapply (o_int_ready env c rq d base0 dmin dmax Hb1); eauto|reflexivity].
    cbn. apply andb_true_intro. split; apply Z.leb_le; lia.
  - (* Seq *)
    destruct l as [|q l]; [discriminate|]. destruct (seq_dst (q :: l) 0 d) as [di|] eqn:Ed; [|discriminate].
    apply mk_map_inv in Hk. destruct Hk as (a & -> & Hk).
    cbn [Parser.consume consume_step] in H. unfold nary_enter in H.
    cbn [so_resumable o_ops negb Nat.eqb andb skipn owed] in H.
    eapply (seq_aw h c d (q :: l) l 0 q) in H; eauto.
    rewrite H. split; intros HA; [now apply aw_seq|aw HA; auto].
  - (* Alt *)
    destruct l as [|q l]; [discriminate|].
    apply mk_map_inv in Hk. destruct Hk as (a & -> & Hk).
    cbn [Parser.consume consume_step] in H. unfold nary_enter in H.
    cbn [so_resumable o_ops negb Nat.eqb andb skipn owed] in H.
    eapply (alt_aw h c rq d (q :: l) l 0 q) in H; eauto.
    rewrite H. split; intros HA; [now apply aw_alt|aw HA; auto].
  - (* Repeat *)
    destruct (r_consumes rq && (rmin =? 0)) eqn:Er; [discriminate|].
    apply mk_map_inv in Hk. destruct Hk as (a & -> & Hk).
    eapply (rep_aw 0 h c rq d (Repeat rmin rmax p) (PRepeat 0 a) cs0 cs1) in H; auto.
    2:{ split; auto. cbn [pokr]. now apply andb_true_intro. }
    2:{ cbn [mkg]. unfold mk_map, mk. now rewrite Hk. }
    cbn [gw] in H. rewrite H. split; intros HA; [now apply aw_repeat|aw HA; auto].
  - (* Not *)
    apply mk_map_inv in Hk. destruct Hk as (a & -> & Hk).
    cbn [Parser.consume consume_step owed] in H. unfold not_consume in H. bi H. destruct a0 as [r0 a'].
    cbn [repeat app] in E. rewrite repeat_mid in E.
    eapply kid in E; eauto; [|split; [auto|discriminate]]. destruct E as [E1 _].
    cbn [fst snd] in H. thru; eqv.
  - (* Opt *)
    apply mk_map_inv in Hk. destruct Hk as (a & -> & Hk).
    cbn [Parser.consume consume_step owed] in H. unfold opt_consume in H. bi H. destruct a0 as [r0 a'].
    cbn [repeat app] in E. rewrite repeat_mid in E.
    eapply kid in E; eauto; [|split; [auto|discriminate]]. destruct E as [E1 _].
    cbn [fst snd] in H. thru; eqv.
  - (* Discard *)
    apply mk_map_inv in Hk. destruct Hk as (a & -> & Hk).
    cbn [Parser.consume consume_step owed] in H. unfold forward_consume in H. bi H. destruct a0 as [r0 a'].
    eapply kid in E; eauto; [|split; auto]. destruct E as [E1 _]. inv H. cbn [fst]. eqv.
  - (* Lexeme *)
    apply mk_map_inv in Hk. destruct Hk as (a & -> & Hk).
    cbn [Parser.consume consume_step owed] in H. unfold forward_consume in H. bi H. destruct a0 as [r0 a'].
    eapply kid in E; eauto; [|split; auto]. destruct E as [E1 _]. inv H. cbn [fst]. eqv.
  - (* WithSkipper *) discriminate.
  - (* BindDst *)
    apply mk_map_inv in Hk. destruct Hk as (a & -> & Hk).
    cbn [Parser.consume consume_step owed] in H. unfold forward_consume in H. bi H. destruct a0 as [r0 a'].
    eapply kid in E; eauto; [|split; auto; intros R; cbn in R; first [discriminate R | now rewrite (Hrec R)]]. destruct E as [E1 _]. inv H. cbn [fst]. eqv.
  - (* Construct *)
    apply mk_cell_inv in Hk; [|intros; apply lenp_in]. destruct Hk as (a & v1 & -> & Hk & HL).
    cbn [Parser.consume consume_step owed] in H. unfold construct_consume in H. bi H. destruct a0 as [[r0 a'] v'].
    eapply cell_inv_o in E; [|reflexivity]. destruct E as (w1 & E). cbn [w_src w_cells w_trace O] in E. rewrite HL in E.
    eapply kid in E; eauto; [|split; auto; intros R; cbn in R; first [discriminate R | now rewrite (Hrec R)]]. destruct E as [E1 _]. cbn [fst snd] in H.
    destruct r0; [destruct (make_from (dst_ty d) v'); [|discriminate]; bi H| |]; inv H; eqv.
  - (* Act *)
    apply mk_cell_inv in Hk; [|intros; apply lenp_in]. destruct Hk as (a0 & v1 & -> & Hk & HL).
    cbn [Parser.consume consume_step owed] in H. unfold action_consume in H. bi H. destruct a1 as [[r0 a'] v'].
    eapply cell_inv_o in E; [|reflexivity]. destruct E as (w1 & E). cbn [w_src w_cells w_trace O] in E. rewrite HL in E.
    eapply kid in E; eauto; [|split; auto; intros R; cbn in R; first [discriminate R | now rewrite (Hrec R)]]. destruct E as [E1 _]. cbn [fst snd] in H.
    thru; eqv.
  - (* Except *)
    apply mk_map_inv in Hk. destruct Hk as (a & -> & Hk).
    cbn [Parser.consume consume_step owed] in H. unfold except_consume in H. bi H. destruct a0 as [r0 a'].
    eapply kid in E; eauto; [|split; [auto|discriminate]]. destruct E as [E1 E2].
    cbn [fst snd] in H. destruct E2 as [->|(N & s' & cs' & tr' & lk & -> & Hlk & Hs' & [[-> HS]|(-> & HS & HC)])].
    + inv H. split; [|auto]. intros _. apply aw_except. now apply E1.
    + inv H. split; [discriminate|]. intros HA. aw HA.
    + rewrite (HC eq_refl) in *. bi H. bi H. destruct a1 as [r1 a1]. inv H. cbn [fst].
      eapply new_kid in E0; eauto; [|split; [auto|discriminate]]. destruct E0 as [E3 _]. rewrite E3.
      split; intros HA; [now apply aw_except_next|aw HA; auto].
  - (* PList *)
    apply mk_map_inv in Hk. destruct Hk as (a & -> & Hk).
    cbn [owed repeat app] in H. rewrite repeat_mid in H.
    eapply (elem_aw s h c rq d (PList p1 p2) (PListSt 0 a) cs0 cs1) in H; auto.
    2:{ cbn [gok mokr]. now apply andb_true_intro. }
    2:{ split; auto. cbn [pokr]. now apply andb_true_intro. }
    2:{ cbn [bare]. now apply andb_true_intro. }
    2:{ cbn [mkg]. unfold mk_map, mk. now rewrite Hk. }
    cbn [gw sf_cur] in H. rewrite H. split.
    + intros [HA|(s1 & HA & HB)]; [now apply aw_list|eapply aw_list_next; eauto].
    + intros HA. aw HA; eauto.
  - (* Recur *)
    inv Hk. cbn [Parser.consume consume_step owed repeat app] in H. unfold recur_consume in H.
    destruct (env id) as [q|] eqn:Eq; [|discriminate]. bi H. bi H. destruct a0 as [r0 a'].
    eapply (new_kid true) in E; eauto; [|split; [apply peg_ok_mono; eauto|auto]]. destruct E as [E1 _]. inv H. cbn [fst].
    rewrite E1. split; intros HA; [eapply aw_recur; eauto|aw HA]. congruence.
Qed.

Lemma atm_aw : Aw (S n) GAtm.
Proof.
  intros h c rq d p st cs0 cs1 base s tr r st' w' Hf Hg Hp Hb Hs Hk H.
  cbn [mkg gok spok] in *. unfold mk_atm, mk_atm_of, atm_req, areq in *. destruct Hp as [Hp Hr]. destruct (wants_atomic rq p) eqn:Ew.
  - apply mk_cell_inv in Hk; [|intros; apply lenp_raw]. destruct Hk as (a & v1 & -> & Hk & HL).
    cbn [Parser.consume consume_step gstk owed] in H. unfold atomic_consume in H.
    bi H. destruct a0 as [[r0 a'] v'].
    eapply cell_inv_o in E; [|reflexivity]. destruct E as (w1 & E). cbn [w_src w_cells w_trace O] in E. rewrite HL in E.
    eapply (IH GRaw n (le_n _) h c (unatomic_req rq)) in E; eauto; [|split; auto; cbn; congruence].
    cbn [gw fst snd] in *. thru; rewrite <- E; split; congruence.
  - eapply raw_aw in H; eauto. split; auto. congruence.
Qed.

Lemma cln_aw : Aw (S n) GCln.
Proof.
  intros h c rq d p st cs0 cs1 base s tr r st' w' Hf Hg Hp Hb Hs Hk H.
  cbn [mkg gok spok] in *. apply andb_prop in Hg. destruct Hg as [Hr Hg]. destruct Hp as [Hp _].
  rewrite mok_eq in Hg. rewrite peg_ok_eq in Hp. unfold raw_req in Hg, Hp. apply negb_true_iff in Hr. rewrite Hr in Hg, Hp. cbn [negb andb] in Hg.
  unfold mk_cln, mk_cln_of in *. destruct (wants_clean rq p) eqn:Ew.
  - rewrite orb_true_r in Hg. apply mk_map_inv in Hk. destruct Hk as (a & -> & Hk).
    cbn [Parser.consume consume_step gstk owed repeat app] in H. unfold clean_consume in H.
    rewrite repeat_mid in H. bi H. destruct a0 as [r0 a'].
    eapply (IH GAtm n (le_n _) true c (unclean_req rq) d p a cs0 cs1) in E; eauto; [|split; auto].
    cbn [gw fst snd] in *. thru; rewrite <- E; split; congruence.
  - rewrite orb_false_r in Hg. eapply atm_aw in H; eauto. split; auto.
Qed.

Lemma run_aw : Aw (S n) GRun.
Proof.
  intros h c rq d p st cs0 cs1 base s tr r st' w' Hf Hg Hp Hb Hs Hk H.
  cbn [mkg gok spok] in *. unfold mk in Hk. rewrite mk_in_eq in Hk. unfold mk_adapt in Hk. destruct Hp as [Hp Hrec].
  destruct (r_recur rq) eqn:Er.
  - assert (gok h GRaw rq p = true) as Hg1.
    { cbn [gok]. rewrite mok_eq in Hg. unfold raw_req in Hg. rewrite Er in Hg. cbn in Hg. now rewrite orb_false_r in Hg. }
    eapply (raw_aw h c rq d p st cs0 cs1) in H; auto.
    split; auto. rewrite peg_ok_eq in Hp. unfold raw_req in Hp. now rewrite Er in Hp.
  - assert (gok h GCln rq p = true) as Hg1.
    { cbn [gok]. now rewrite Er, Hg. }
    unfold sk_of in Hk. rewrite Hf in Hk.
    eapply (cln_aw h c rq d p st cs0 cs1) in H; auto.
    + split; auto.
    + cbn [mkg]. unfold mk_cln, sk_of. rewrite Hf. exact Hk.
Qed.

End Step.

Lemma aw_all_stages n : forall g k, k <= n -> Aw k g.
Proof.
  induction n as [|n IH]; intros g k Hk.
  - replace k with 0 by lia. destruct g; try exact I; intros h c rq d p st cs0 cs1 base s tr r st' w' _ _ _ _ _ _ H; discriminate H.
  - destruct (le_lt_dec k n) as [Hl|Hl]; [now apply IH|]. replace k with (S n) by lia.
    destruct g; try exact I; [apply run_aw|apply cln_aw|apply atm_aw|apply raw_aw|apply rep_aw|apply elem_aw|apply sep_aw]; exact IH.
Qed.

(** ** A call *)
Theorem run_waits t v p n inp r st w : inclass T false p = true -> bare p = true -> Forall (tok T) inp ->
  a_run env t v p n inp false = Done ((r, st), w) -> (r = PARTIAL <-> awaits (One p) inp).
Proof.
  intros Hc Hb Hi H. unfold inclass in Hc. apply andb_prop in Hc. destruct Hc as [Hm Hp].
  unfold a_run, top_run in H. bi H. unfold top_create in E. unfold top_consume in H.
  pose proof (lsim_create (a_ops true) o_ops viewed (fun _ => False) viewed_ops (top_ctx t) default_req (top_dst t) p
    (World (Cursor inp false 0 []) [v] []) (O inp [] [v] [])) as HL.
  rewrite E in HL. destruct HL as (w2 & HL & HR); [repeat split|].
  apply o_create in HL; [|reflexivity|now apply mok_skips in Hm]. destruct HL as (cs1 & Hk & ->).
  pose proof (lsim_consume_same (a_ops true) o_ops viewed (fun _ => False) viewed_ops (or_introl eq_refl) env n (top_ctx t) default_req (top_dst t) p a _ _ HR) as HL.
  rewrite H in HL. destruct HL as (w3 & HL & _).
  pose proof (aw_all_stages n GRun n (le_n _)) as HW. cbn [Aw gw] in HW.
  apply (HW false (top_ctx t) default_req (top_dst t) p a [v] cs1 [] inp [] r st w3); auto.
  split; [exact Hp|]. intros X. discriminate X.
Qed.

Theorem waits t v p n l s : inclass T false p = true -> bare p = true -> Forall (tok T) (fed l) -> ended l = false ->
  run_session env n t v p (l ++ [Consume]) = Done s -> (s_res s = None <-> awaits (One p) (fed l)).
Proof.
  intros Hc Hb Hi He E. pose proof (session_shows_a env t v p n (l ++ [Consume])) as HA. rewrite E in HA. cbn in HA.
  destruct (a_session env t v p n (l ++ [Consume])) as [a|] eqn:Ea; [|discriminate].
  destruct (shown_run env t v p n l _ (open_legal l He) Ea ltac:(discriminate)) as (o' & [_ [k Hk]] & HS).
  rewrite He in Hk. rewrite <- HS in HA. destruct o' as [[[r st] w]|]; [|discriminate]. cbn in HA. injection HA as HA _ _.
  rewrite HA, <- (run_waits t v p k (fed l) r st w Hc Hb Hi Hk). destruct r; split; congruence.
Qed.

(** What it answers then holds whatever follows. *)
Lemma run_settles t v p n inp r st w : inclass T false p = true -> Forall (tok T) inp -> r <> PARTIAL ->
  a_run env t v p n inp false = Done ((r, st), w) ->
  match r with SUCCESS => exists rest, settled p inp (Some rest) | _ => settled p inp None end.
Proof.
  intros Hc Hi Hr H. unfold inclass in Hc. apply andb_prop in Hc. destruct Hc as [Hm Hp].
  unfold a_run, top_run in H. bi H. unfold top_create in E. unfold top_consume in H.
  pose proof (lsim_create (a_ops true) o_ops viewed (fun _ => False) viewed_ops (top_ctx t) default_req (top_dst t) p
    (World (Cursor inp false 0 []) [v] []) (O inp [] [v] [])) as HL.
  rewrite E in HL. destruct HL as (w2 & HL & HR); [repeat split|].
  apply o_create in HL; [|reflexivity|now apply mok_skips in Hm]. destruct HL as (cs1 & Hk & ->).
  pose proof (lsim_consume_same (a_ops true) o_ops viewed (fun _ => False) viewed_ops (or_introl eq_refl) env n (top_ctx t) default_req (top_dst t) p a _ _ HR) as HL.
  rewrite H in HL. destruct HL as (w3 & HL & _).
  pose proof (fun HP => answer false (top_ctx t) default_req (top_dst t) p a [v] cs1 [] inp [] r st w3 n Hr eq_refl Hm HP Hi Hk HL) as HA.
  destruct HA as (s' & cs' & tr' & lk & _ & _ & _ & [[-> HS]|(-> & HS & _)]); eauto.
  split; [exact Hp|]. intros X. discriminate X.
Qed.

Theorem settles t v p n l s r : inclass T false p = true -> Forall (tok T) (fed l) -> ended l = false ->
  run_session env n t v p (l ++ [Consume]) = Done s -> s_res s = Some r ->
  match r with SUCCESS => exists rest, settled p (fed l) (Some rest) | _ => settled p (fed l) None end.
Proof.
  intros Hc Hi He E Hr. pose proof (session_shows_a env t v p n (l ++ [Consume])) as HA. rewrite E in HA. cbn in HA.
  destruct (a_session env t v p n (l ++ [Consume])) as [a|] eqn:Ea; [|discriminate].
  destruct (shown_run env t v p n l _ (open_legal l He) Ea ltac:(discriminate)) as (o' & [_ [k Hk]] & HS).
  rewrite He in Hk. rewrite <- HS in HA. destruct o' as [[[r1 st] w]|]; [|discriminate]. cbn in HA. injection HA as HA _ _.
  rewrite HA in Hr. assert (r1 = r /\ r1 <> PARTIAL) as [<- Hn] by (destruct r1; split; congruence).
  exact (run_settles t v p k (fed l) r1 st w Hc Hi Hn Hk).
Qed.
End Await.
