(** A repetition between two items is a parser for one item, started on the rest of the data. *)
From Coq Require Import List ZArith Bool Arith Lia.
From Verif Require Import Base CharSet Source Dst Pattern Parser Session SourceProofs SourceHist SpecSource.
From Verif Require Import SpecSession SpecRun SpecValue SpecCollect SpecStream Rel Shift Safety Keep Limit Chunk SessionProofs.
Import ListNotations.

(** ** The buffers held during a session *)
Section Held.
Context (env : nat -> option pat) (t : ty) (v : val) (p : pat).

Lemma held_R l s a : held_inv l s a -> R_cs s a.
Proof. intros (D & _ & H). now exists (concat D). Qed.

Lemma held_ops l : ops_rel cs_ops (a_ops true) (held_inv l).
Proof.
  assert (H : forall o s a, added [o] = [] -> held_inv l s a -> rel_out (held_inv l) (cs_do o s) (a_do o a)).
  { intros o s a Ho H. pose proof (agree_cs_do o s a (held_R _ _ _ H)) as A. unfold agree in A.
    destruct (cs_do o s) as [s'|] eqn:E1, (a_do o a) as [a'|] eqn:E2; cbn; try contradiction; auto.
    pose proof (held_step _ _ _ _ _ _ H E1 E2) as K. now rewrite Ho, app_nil_r in K. }
  split; intros s a Hs; try apply ops_rel_cs, (held_R _ _ _ Hs).
  - exact (H OAdvance s a eq_refl Hs).
  - exact (H OPrepare s a eq_refl Hs).
  - exact (H OCommit s a eq_refl Hs).
  - exact (H OCancel s a eq_refl Hs).
Qed.

Lemma held_init : held_inv [] cs_make cursor0.
Proof.
  exists []. split; auto. destruct R_cs_init as [d H]. pose proof (rc_inp _ _ _ H) as I.
  cbn in I. symmetry in I. apply app_eq_nil in I as [-> _]. exact H.
Qed.

Definition Hs (l : list (list Z)) (s : session cseq) (s' : session cursor) : Prop :=
  s_res s = s_res s' /\ s_st s = s_st s' /\ Rw (held_inv l) (s_world s) (s_world s').

Lemma held_calls n l : forall L s s' z, Hs L s s' ->
  do_calls cs_ops cs_add env n t p l s = Done z -> s_res z = None ->
  exists z', do_calls (a_ops true) a_add env n t p l s' = Done z' /\ Hs (L ++ buffers l) z z'.
Proof.
  induction l as [|k l IH]; intros L s s' z (H1 & H2 & H3) E Hz; cbn [do_calls buffers] in *.
  - inversion E; subst. exists s'. rewrite app_nil_r. split; [reflexivity|repeat split; auto; apply H3].
  - destruct (do_call cs_ops cs_add env n t p k s) as [s1|] eqn:E1; [|discriminate]. cbn in E.
    unfold do_call in E1 |- *. rewrite H1 in E1. destruct (s_res s') as [r|] eqn:Er.
    + inversion E1; subst s1. exfalso. clear -H1 E Hz. revert E.
      induction l as [|k l IH]; cbn; intros E; [inversion E; congruence|].
      unfold do_call in E at 1. rewrite H1 in E. auto.
    + destruct k as [b f|].
      * destruct H3 as (Hr & Hc & Ht).
        pose proof (agree_cs_do (OAdd b f) _ _ (held_R _ _ _ Hr)) as A. unfold agree in A. cbn in A.
        destruct (cs_add b f (w_src (s_world s))) as [x|] eqn:Ex; [|discriminate].
        destruct (a_add b f (w_src (s_world s'))) as [y|] eqn:Ey; [|contradiction].
        pose proof (held_step _ (OAdd b f) _ _ _ _ Hr Ex Ey) as K. cbn in E1 |- *. inversion E1; subst s1.
        edestruct (IH (L ++ added [OAdd b f])) as (z' & K1 & K2); [|exact E|exact Hz|].
        2: { exists z'. split; [exact K1|]. replace (L ++ match b with [] => buffers l | _ :: _ => b :: buffers l end) with ((L ++ added [OAdd b f]) ++ buffers l); [exact K2|].
             rewrite <- app_assoc. destruct b; reflexivity. }
        repeat split; auto.
      * unfold top_consume in *. rewrite H2 in E1.
        pose proof (lsim_consume_same cs_ops (a_ops true) (held_inv L) never (held_ops L) (or_introl eq_refl) env n
                    (top_ctx t) default_req (top_dst t) p (s_st s') _ _ H3) as HL.
        destruct (consume cs_ops env n _ _ _ _ _ _) as [[[r st] w]|e]; [|discriminate].
        destruct HL as (w' & -> & Hw).
        destruct r; inversion E1; subst s1; cbn [obind]; eapply IH; eauto; repeat split; auto; apply Hw.
Qed.

Lemma held_session n l s : run_session env n t v p l = Done s -> s_res s = None ->
  exists a, a_session env t v p n l = Done a /\ Hs (buffers l) s a.
Proof.
  unfold run_session, a_session, a_session0, a_calls, top_create. intros E Hn.
  pose proof (lsim_create cs_ops (a_ops true) (held_inv []) never (held_ops []) (top_ctx t) default_req (top_dst t) p
     (World cs_make [v] []) (World cursor0 [v] [])) as HL.
  destruct (create cs_ops _ _ _ _ _) as [[st w]|e]; [|discriminate].
  destruct HL as (w' & -> & Hw); [repeat split; apply held_init|]. cbn [obind].
  apply (held_calls n l [] (Session_ None st w) (Session_ None st w') s); auto. repeat split; apply Hw.
Qed.
End Held.

(** ** Positions stay within the data *)
Definition inside (a b : cursor) : Prop := a = b /\ a_pos a <= length (a_inp a) /\ Forall (fun q => q <= length (a_inp a)) (a_stk a).

Lemma inside_ops : ops_rel (a_ops true) (a_ops true) inside.
Proof.
  split; intros a b (<- & H1 & H2); try reflexivity; cbn.
  - unfold a_advance. destruct (a_empty a) eqn:E; cbn; auto. unfold a_empty in E. apply Nat.leb_gt in E. repeat split; cbn; auto.
  - repeat split; cbn; auto.
  - unfold a_commit. destruct (a_stk a) eqn:E; cbn; auto. inversion H2; subst. repeat split; cbn; auto.
  - unfold a_cancel. destruct (a_stk a) eqn:E; cbn; auto. inversion H2; subst. repeat split; cbn; auto.
Qed.

Definition inw (w : world cursor) : Prop := inside (w_src w) (w_src w).

Lemma inw_lsim {A} (f : M cursor A) a w w' : lsim inside never f f -> inw w -> f w = Done (a, w') -> inw w'.
Proof.
  intros H Hw E. specialize (H w w). rewrite E in H. destruct H as (w2 & E2 & Hr & _); [repeat split; apply Hw|].
  inversion E2; subst. exact Hr.
Qed.

(** ** The same machine further down in the data *)
Definition behind (A : list Z) (a b : cursor) : Prop :=
  a_inp a = A ++ a_inp b /\ a_fin a = a_fin b /\ a_pos a = length A + a_pos b /\ a_stk a = map (plus (length A)) (a_stk b).

Lemma behind_ops A : ops_rel (a_ops true) (a_ops true) (behind A).
Proof.
  assert (He : forall a b, behind A a b -> a_empty a = a_empty b).
  { intros a b (H1 & H2 & H3 & H4). unfold a_empty. rewrite H1, H3, app_length.
    destruct (length (a_inp b) <=? a_pos b) eqn:E.
    - apply Nat.leb_le in E. apply Nat.leb_le. lia.
    - apply Nat.leb_gt in E. apply Nat.leb_gt. lia. }
  split; intros a b Hb; pose proof Hb as (H1 & H2 & H3 & H4); cbn.
  - auto.
  - auto.
  - unfold a_next. rewrite H1, H3, nth_error_app2 by lia. do 2 f_equal. lia.
  - unfold a_advance. rewrite (He a b Hb). destruct (a_empty b); cbn; auto. repeat split; cbn; auto. lia.
  - repeat split; cbn; auto. now rewrite H3, H4.
  - unfold a_commit. rewrite H4. destruct (a_stk b); cbn; auto. repeat split; cbn; auto.
  - unfold a_cancel. rewrite H4. destruct (a_stk b); cbn; auto. repeat split; cbn; auto.
Qed.

(** ** Runs without the adapter in front *)
Definition raw_create (sk : pat) (t : ty) (p : pat) : M cursor pst :=
  match p with
  | Repeat lo hi q => bind (create (a_ops true) (Ctx sk (top_dst t)) (repeat_req lo hi default_req) (top_dst t) q) (fun a => ret (PRepeat 0 a))
  | PList q _ => bind (create (a_ops true) (Ctx sk (top_dst t)) list_req (top_dst t) q) (fun a => bind (m_prepare (a_ops true)) (fun _ => ret (PListSt 0 a)))
  | Discard q => bind (create (a_ops true) (Ctx sk (top_dst t)) sep_req DNil q) (fun a => ret (POne a))
  | _ => raise EType
  end.
Definition headed (p : pat) : Prop := match p with Repeat _ _ _ | PList _ _ | Discard _ => True | _ => False end.
Definition raw_run (sk : pat) (env : nat -> option pat) (t : ty) (v : val) (p : pat) (m : nat) (F : list Z) : outcome ((result * pst) * world cursor) :=
  bind (raw_create sk t p) (fun st => consume (a_ops true) env m (Ctx sk (top_dst t)) default_req (top_dst t) p st)
    (World (Cursor F false 0 []) [v] []).

(** [U p] runs as [p] does in a context with this skipper. *)
Definition runs_as (env : nat -> option pat) (t : ty) (sk : pat) (U : pat -> pat) : Prop :=
  forall p v F r w', headed p ->
  (exists m st, a_run env t v (U p) m F false = Done ((r, st), w')) <-> (exists m st, raw_run sk env t v p m F = Done ((r, st), w')).

Lemma runs_plain env t : runs_as env t Fail (fun p => p).
Proof. intros p v F r w' H. destruct p; try contradiction; reflexivity. Qed.

Lemma consume_more {S} (ops : source_ops S) env n m c rq d p st w x :
  consume ops env n c rq d p st w = Done x -> n <= m -> consume ops env m c rq d p st w = Done x.
Proof.
  intros E H. refine (mono_lim _ n _ (Mono_mono _ w (Mono_consume ops env c rq d p st)) E _ m H). discriminate.
Qed.

(** ** The loop *)
Section Loop.
Context (env : nat -> option pat) (sk : pat) (t : ty) (lo hi : nat) (q : pat) (F : list Z).
Hypothesis Henv : forall id q, env id = Some q -> optfree q = true.
Hypothesis Hsk : optfree sk = true.
Hypothesis Hq : optfree q = true.
Notation ops := (a_ops true).
Notation C := (Ctx sk (top_dst t)).
Notation D := (top_dst t).
Notation RQ := (repeat_req lo hi default_req).
Notation ST := (St false F false 1 [] 0).

Definition fresh (m : nat) (w : world cursor) : outcome ((result * pst) * world cursor) :=
  bind (create ops C RQ D q) (fun a => consume ops env m C RQ D q a) w.

Lemma item_safe m a w0 w r a1 w2 : ST w0 -> inw w0 -> create ops C RQ D q w0 = Done (a, w) ->
  consume ops env m C RQ D q a w = Done ((r, a1), w2) -> inw w2 /\ (r = SUCCESS -> ST w2).
Proof.
  intros HS HI Ec E.
  assert (inw w) as HI1.
  { eapply inw_lsim; [|exact HI|exact Ec]. apply lsim_create. apply inside_ops. }
  split.
  { eapply inw_lsim; [|exact HI1|exact E]. apply lsim_consume_same; [apply inside_ops|now left]. }
  pose proof (create_ok true false env F false C RQ D q 1 [] 0 w0 (created true false env F false 1 [] 0 (c_skip C) q)) as HC.
  unfold wp in HC. rewrite Ec in HC. destruct HC as [K1 K2]; auto. { apply dst_cell_ok; lia. }
  pose proof (consume_safe true false env F false (or_introl eq_refl) (fun id q H => or_intror (Henv id q H)) m C RQ D q a 1 [] 0 w
    (fun x w' => Post true false env F false 1 [] 0 sk q (fst x) (snd x) w')) as HP.
  unfold wp in HP. rewrite E in HP. intros ->. apply HP; auto.
  repeat split; auto; try (apply dst_cell_ok; lia); right; auto.
Qed.

Lemma loop m : forall cnt a w0 w st w', ST w0 -> inw w0 -> create ops C RQ D q w0 = Done (a, w) ->
  consume ops env m C default_req D (Repeat lo hi q) (PRepeat cnt a) w = Done ((PARTIAL, st), w') ->
  exists n w1 a' m', ST w1 /\ inw w1 /\ cnt <= n /\ fresh m' w1 = Done ((PARTIAL, a'), w')
   /\ (n = cnt -> w1 = w0)
   /\ (cnt < n -> forall lo', repeat_req lo' n default_req = RQ ->
       exists m2 st2, consume ops env m2 C default_req D (Repeat lo' n q) (PRepeat cnt a) w = Done ((SUCCESS, st2), w1)).
Proof.
  induction m as [|m IH]; intros cnt a w0 w st w' HS HI Ec E; [discriminate|].
  cbn [consume consume_step] in E. unfold repeat_consume, bind in E.
  destruct (consume ops env m C RQ D q a w) as [[[r a1] w2]|] eqn:E1; [|discriminate]. cbn [fst snd] in E.
  destruct (item_safe _ _ _ _ _ _ _ HS HI Ec E1) as [HI2 HS2].
  destruct r.
  - destruct (negb (hi =? 0) && (S cnt =? hi)) eqn:Eh; [discriminate|].
    destruct (create ops C RQ D q w2) as [[a' w3]|] eqn:E3; [|discriminate].
    destruct (IH (S cnt) a' w2 w3 st w' (HS2 eq_refl) HI2 E3 E) as (n & w1 & b & m' & K1 & K2 & K3 & K5 & K6 & K7).
    exists n, w1, b, m'. split; auto. split; auto. split; [lia|]. split; auto. split; [lia|].
    intros _ lo' Hlo. destruct (Nat.eq_dec n (S cnt)) as [En|Hn].
    + exists (S m), (PRepeat (S cnt) a1). cbn [consume consume_step]. unfold repeat_consume, bind. rewrite Hlo, E1. cbn [fst snd].
      rewrite En, Nat.eqb_refl. cbn. now rewrite (K6 En).
    + destruct (K7 ltac:(lia) lo' Hlo) as (m2 & st2 & K8). exists (S (max m m2)), st2.
      cbn [consume consume_step]. unfold repeat_consume, bind. rewrite Hlo.
      rewrite (consume_more _ _ _ (max m m2) _ _ _ _ _ _ _ E1 ltac:(lia)). cbn [fst snd].
      replace (negb (n =? 0) && (S cnt =? n)) with false.
      * rewrite E3. apply (consume_more _ _ _ _ _ _ _ _ _ _ _ K8). lia.
      * symmetry. apply andb_false_intro2, Nat.eqb_neq. lia.
  - exfalso. unfold ret in E. destruct (lo <=? cnt); discriminate.
  - inversion E; subst. exists cnt, w0, a1, m. split; auto. split; auto. split; auto.
    split; [unfold fresh, bind; now rewrite Ec|]. split; auto. lia.
Qed.

Lemma fresh_shift m w1 a' w' v1 tr x : w1 = World (Cursor F false x []) [v1] tr -> x <= length F ->
  fresh m w1 = Done ((PARTIAL, a'), w') ->
  exists w2, fresh m (World (Cursor (skipn x F) false 0 []) [v1] []) = Done ((PARTIAL, a'), w2)
   /\ behind (firstn x F) (w_src w') (w_src w2) /\ w_cells w' = w_cells w2 /\ w_trace w' = w_trace w2 ++ tr.
Proof.
  intros -> Hx E. unfold fresh in *.
  pose proof (tlsim_bind (behind (firstn x F)) tr never (create ops C RQ D q) (create ops C RQ D q)
     (fun a => consume ops env m C RQ D q a) (fun a => consume ops env m C RQ D q a)
     (tlsim_create _ _ _ _ _ (behind_ops _) _ _ _ _)
     (fun a => tlsim_consume_same _ _ _ _ _ (behind_ops _) (or_introl eq_refl) env m _ _ _ _ a)) as HL.
  specialize (HL (World (Cursor F false x []) [v1] tr) (World (Cursor (skipn x F) false 0 []) [v1] [])).
  rewrite E in HL. destruct HL as (w2 & E2 & K1 & K2 & K3).
  - repeat split; cbn; auto. + symmetry. apply firstn_skipn. + rewrite firstn_length. lia.
  - exists w2. auto.
Qed.

Context (U : pat -> pat).
Hypothesis HU : runs_as env t sk U.

(** The run of a repetition that ends up waiting for more. *)
Lemma waiting v m st w' : a_run env t v (U (Repeat lo hi q)) m F false = Done ((PARTIAL, st), w') ->
  exists n w1 a' m', ST w1 /\ inw w1 /\ fresh m' w1 = Done ((PARTIAL, a'), w')
   /\ (n = 0 -> w1 = World (Cursor F false 0 []) [v] [])
   /\ (0 < n -> forall lo', repeat_req lo' n default_req = RQ ->
       exists m2 st2, a_run env t v (U (Repeat lo' n q)) m2 F false = Done ((SUCCESS, st2), w1)).
Proof.
  intros E0. destruct (proj1 (HU (Repeat lo hi q) v F PARTIAL w' I)) as (m0 & st0 & E); [eauto|]. clear E0.
  revert E. unfold raw_run. cbn [raw_create]. unfold bind, ret.
  destruct (create ops C RQ D q _) as [[a w]|] eqn:Ec; [|discriminate]. intros E.
  edestruct loop as (n & w1 & a' & m' & K1 & K2 & K3 & K5 & K6 & K7); [| |exact Ec|exact E|].
  - apply St_init.
  - repeat split; cbn; auto. lia.
  - exists n, w1, a', m'. repeat (split; auto). intros Hn lo' Hlo. destruct (K7 Hn lo' Hlo) as (m2 & st2 & K8).
    apply (proj2 (HU (Repeat lo' n q) v F SUCCESS w1 I)). exists m2, st2. unfold raw_run. cbn [raw_create]. unfold bind, ret.
    rewrite Hlo, Ec. exact K8.
Qed.

Lemma item_run v1 m G a' w2 lo1 : repeat_req lo1 1 default_req = RQ ->
  fresh m (World (Cursor G false 0 []) [v1] []) = Done ((PARTIAL, a'), w2) ->
  exists m' st, a_run env t v1 (U (Repeat lo1 1 q)) m' G false = Done ((PARTIAL, st), w2).
Proof.
  intros Hl E. apply (proj2 (HU (Repeat lo1 1 q) v1 G PARTIAL w2 I)). exists (S m), (PRepeat 0 a'). revert E.
  unfold fresh, raw_run. cbn [raw_create]. rewrite Hl. unfold bind, ret.
  destruct (create ops C RQ D q _) as [[a w]|]; [|discriminate].
  intros E. cbn [consume consume_step]. unfold repeat_consume, bind. rewrite Hl, E. reflexivity.
Qed.
End Loop.

(** ** From sessions to runs and back *)
Section Back.
Context (env : nat -> option pat) (t : ty) (v : val) (p : pat).

Lemma ext_none w : a_fin (w_src w) = false -> ext [] false w = w.
Proof.
  intros H. destruct w as [[i f x k] c tr]. cbn in *. unfold ext, ext_src. cbn. now rewrite app_nil_r, H.
Qed.

Lemma session_waits n l s : a_session env t v p n (l ++ [Consume]) = Done s -> s_res s = None ->
  exists m, a_run env t v p m (fed l) false = Done ((PARTIAL, s_st s), s_world s).
Proof.
  intros E Hn. pose proof E as E'. rewrite a_session_app in E.
  destruct (a_session env t v p n l) as [a0|] eqn:A0; [|discriminate]. cbn [obind] in E.
  destruct (SI_session env t v p true (fun _ q _ => fits_leak q) (fits_leak p) n l a0 A0) as [HS HN].
  destruct (s_res a0) as [r|] eqn:R0.
  { rewrite (a_calls_some _ _ _ _ _ _ _ R0) in E. inversion E; subst. congruence. }
  destruct (HN eq_refl) as [Hi Hf]. rewrite a_calls_one in E.
  pose proof (SI_consume env t p true (fun _ q _ => fits_leak q) (fits_leak p) n a0 HS R0) as HI. rewrite E in HI.
  destruct HI as (_ & _ & _ & He). destruct (He Hn) as [_ He2].
  pose proof (CI_session _ _ _ _ _ _ _ A0) as HC. unfold CI in HC. rewrite R0 in HC.
  specialize (HC [] false). rewrite (ext_none _ He2), Hi, app_nil_r in HC.
  unfold do_call in E. rewrite R0 in E.
  destruct (top_consume _ _ _ _ _ _ _) as [[[r st] w]|] eqn:Ec; [|discriminate].
  destruct r; inversion E; subst s; try discriminate. cbn.
  destruct (HC ltac:(intros HH; congruence) (Done ((PARTIAL, st), w))) as [_ HL].
  destruct HL as [_ [m Hm]]; [split; [discriminate|eauto]|]. eauto.
Qed.

Lemma run_waits m b st w : a_run env t v p m b false = Done ((PARTIAL, st), w) ->
  exists n s, a_session env t v p n [Feed b false; Consume] = Done s /\ s_res s = None /\ s_st s = st /\ s_world s = w.
Proof.
  intros E. unfold a_session. destruct (a_session0 t v p) as [s0|e] eqn:E0.
  - pose proof (CI_init env t v p s0 E0) as HC. destruct (SI_init env t v p true s0 E0) as (_ & Hr & Hi & Hf).
    unfold CI in HC. rewrite Hr, Hi in HC. cbn [app] in HC.
    destruct (HC b false ltac:(intros HH; congruence) (Done ((PARTIAL, st), w))) as [HL _].
    destruct HL as [_ [n Hn]]; [split; [discriminate|eauto]|].
    exists n, (Session_ None st w). split; [|auto]. cbn [obind]. unfold a_calls. cbn [do_calls]. unfold do_call at 1. rewrite Hr.
    unfold a_add. rewrite Hf. cbn [obind]. unfold do_call. cbn [s_res s_st s_world].
    unfold ext, ext_src in Hn. rewrite Hn. reflexivity.
  - exfalso. unfold a_session0 in E0.
    pose proof (neu_create b false (top_ctx t) default_req (top_dst t) p (World cursor0 [v] []) eq_refl) as HN.
    unfold neu_at in HN. unfold top_create in E0.
    destruct (create _ _ _ _ _ (World cursor0 [v] [])) as [[st0 w0]|e'] eqn:Ec; inversion E0; subst; clear E0.
    unfold a_run, top_run, bind, top_create in E.
    change (World (Cursor b false 0 []) [v] []) with (ext b false (World cursor0 [v] [])) in E.
    rewrite HN in E. discriminate.
Qed.

Lemma back_cs n l a : a_session env t v p n l = Done a ->
  exists s, run_session env n t v p l = Done s /\ Rs s a.
Proof.
  intros E. pose proof (session_sim env t v p n l) as H. rewrite E in H.
  destruct (run_session _ _ _ _ _ _) as [s|]; [|destruct H]. eauto.
Qed.

(** An answer given before the end of the data is the answer of parse(), whatever follows. *)
Lemma run_answers m b st w : a_run env t v p m b false = Done ((SUCCESS, st), w) ->
  forall more, exists m' st', a_run env t v p m' (b ++ more) true = Done ((SUCCESS, st'), ext more true w).
Proof.
  intros E more. unfold a_run, top_run in *. unfold bind in *.
  pose proof (neu_create more true (top_ctx t) default_req (top_dst t) p (World (Cursor b false 0 []) [v] []) eq_refl) as HN.
  unfold neu_at in HN. unfold top_create in *. destruct (create _ _ _ _ _ _) as [[st0 w0]|] eqn:Ec; [|discriminate].
  destruct HN as [Hf HN].
  change (World (Cursor (b ++ more) true 0 []) [v] []) with (ext more true (World (Cursor b false 0 []) [v] [])). rewrite HN.
  pose proof (chk_all env more true m (top_ctx t) default_req (top_dst t) p st0 w0 Hf) as HK. unfold CHK in HK.
  unfold top_consume in *. rewrite E in HK. destruct HK as [_ HK]. exists m, st. exact HK.
Qed.
End Back.
