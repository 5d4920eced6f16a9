(** With skippers of single characters anywhere, too, a parser waits exactly while the part
    that is read now is open. *)
From Coq Require Import List ZArith Bool Arith Lia.
From Verif Require Import Base CharSet Source Dst Pattern Parser Session SpecSession SpecPeg SpecReady SpecAwaitSkip SpecAwaitAny SpecLang.
From Verif Require Import Comb Rel Safety Keep Limit SessionProofs WaitThms Leaf Ready Open Big BigMk BigLeaf BigSound PegSound PegTerm FirstRun.
From Verif Require Import Await AwaitSkip.
From Verif Require Resume.
Import ListNotations.

(** All skippers read single characters. *)
Fixpoint single (T : char_ty) (p : pat) : bool :=
  match p with
  | Seq l | Alt l => forallb (single T) l
  | Repeat _ _ q | Not q | Opt q | Discard q | Lexeme q | BindDst q | Construct _ q | Act _ q => single T q
  | Except q r | PList q r => single T q && single T r
  | WithSkipper q skp => skipper1 T skp && single T q
  | _ => true
  end.

(** No mark is taken. *)
Definition free (k : option pst) : Prop := match k with Some s => owed s = 0 | None => True end.
Lemma owed_free p : forall k rq d cs a cs1, free k -> skips_ok p = true -> mk0 rq p = true -> mk_in k rq d p cs = Done (a, cs1) -> owed a = 0.
Proof.
  assert (forall p, (forall k rq d cs a cs1, free k -> mk0r rq p = true -> mk_raw k rq d p cs = Done (a, cs1) -> owed a = 0) ->
    forall k rq d cs a cs1, free k -> mk0 rq p = true -> mk_in k rq d p cs = Done (a, cs1) -> owed a = 0) as HA.
  { clear p. intros p HR k rq d cs a cs1 Hk H0 H. rewrite mk_in_eq in H. rewrite mk0_eq in H0. apply andb_prop in H0. destruct H0 as [H1 H2].
    unfold raw_req in H2. unfold mk_adapt in H. destruct (r_recur rq); [eapply HR; eauto|]. cbn [orb] in H1. apply negb_true_iff in H1.
    rewrite H1 in H2.
    assert (forall a cs1, mk_cln_of rq d p (fun rq d => mk_raw k rq d p) cs = Done (a, cs1) -> owed a = 0) as HC.
    { clear H a cs1. intros a cs1 H. unfold mk_cln_of in H. rewrite H1 in H. unfold mk_atm_of in H. destruct (wants_atomic rq p).
      - apply mk_cell_inv in H; [|intros; apply lenp_raw]. destruct H as (b & v & -> & H & _). cbn. eapply HR; eauto.
      - eapply HR; eauto. }
    destruct k as [s|]; [|eapply HC; eauto]. apply mk_map_inv in H. destruct H as (b & -> & H). cbn [owed]. rewrite Hk. cbn. eapply HC; eauto. }
  induction p using pat_ind'; intros k0 rq0 d0 cs0 a0 cs1 Hk0 Hb H0; (eapply HA; [|exact Hk0|exact H0]); clear H0 Hk0 rq0 d0 cs0 a0 cs1 k0;
    intros k rq d cs a0 cs1 Hk H0 HK; cbn [mk0r mk_raw skips_ok] in H0, HK, Hb; try discriminate.
  all: repeat match goal with H : _ && _ = true |- _ => apply andb_prop in H; destruct H end.
  all: try (injection HK as <- <-; reflexivity).
  all: try (destruct (r_consumes rq); [discriminate|]; injection HK as <- <-; reflexivity).
  all: try (destruct (num_zero cs d); [|discriminate]; injection HK as <- <-; reflexivity).
  all: try (apply mk_map_inv in HK; destruct HK as (b & -> & HK); cbn [owed]; eauto; fail).
  all: try (apply mk_cell_inv in HK; [|intros; apply lenp_in]; destruct HK as (b & v & -> & HK & _); cbn [owed]; eauto; fail).
  - destruct l as [|q l]; [discriminate|]. destruct (seq_dst _ _ _); [|discriminate]. apply mk_map_inv in HK. destruct HK as (b & -> & HK). cbn [owed].
    inversion H; subst. cbn [forallb] in Hb. apply andb_prop in Hb as [Hb _]. eauto.
  - destruct l as [|q l]; [discriminate|]. apply mk_map_inv in HK. destruct HK as (b & -> & HK). cbn [owed].
    inversion H; subst. cbn [forallb] in Hb. apply andb_prop in Hb as [Hb _]. eauto.
  - destruct (r_consumes rq && _); [discriminate|]. apply mk_map_inv in HK. destruct HK as (b & -> & HK). cbn [owed]. eauto.
  - apply mk_map_inv in HK. destruct HK as (b & -> & HK). cbn [owed]. eapply (IHp None); [exact I|eauto..].
  - apply mk_map_inv in HK. destruct HK as (b & -> & HK). cbn [owed]. eapply (IHp1 (sk_of p2)); [|eauto..].
    unfold sk_of. destruct (is_fail p2) eqn:Ef; cbn [free]; auto. apply makes_skip. assumption.
Qed.

Section Any.
Context (env : nat -> option pat) (T : char_ty).
Hypothesis HT : ct_ok T.
Hypothesis Hmok : forall id q, env id = Some q -> mok true recur_req q = true.
Hypothesis Hpeg : forall id q, env id = Some q -> peg_ok T true recur_req q = true.
Hypothesis Hsingle : forall id q, env id = Some q -> single T q = true.
Notation run := (consume o_ops env).
Notation ws k := (chars (skipped k)).
Notation settled k := (settled_below env (tok T) (skipped k)).
Notation awaits k := (opens env (tok T) k).
Notation eqt k := (PegSound.eqt (ws k)).

(** The skipper of the context. *)
Definition under (k : skipping) (c : ctx) : Prop :=
  match k with
  | None => is_fail (c_skip c) = true
  | Some b => skipper1 T (c_skip c) = true /\ b = passes1 (c_skip c)
  end.
Definition flag (k : skipping) : bool := match k with None => false | Some _ => true end.
Lemma under_cok k c : under k c -> cok c = true.
Proof. destruct k; unfold cok; cbn; [intros [H _]; rewrite (s1_sfree T _ H); now rewrite orb_true_r|intros ->; reflexivity]. Qed.
Lemma under_skips k c : under k c -> skips T c (ws k).
Proof.
  destruct k as [b|]; cbn [under].
  - intros [H ->]. now apply (below_skips T HT (c_skip c) H).
  - intros H. unfold skips. now rewrite H.
Qed.

(** ** Only what is left after skipping matters. *)
Lemma settled_eqt K p s s2 r : settled K p s r -> eqt K s s2 -> settled K p s2 r.
Proof.
  intros H E more Hm. specialize (H more Hm). destruct r as [t|].
  - destruct H as (t' & H1 & H2). destruct (m_eqt env (ws K) _ _ _ _ H1 eq_refl (s2 ++ more)) as (r2 & A & B); [now apply eqt_app|].
    destruct r2 as [t2|]; [|contradiction]. exists t2. split; auto. unfold rel, PegSound.eqt in B. congruence.
  - destruct (m_eqt env (ws K) _ _ _ _ H eq_refl (s2 ++ more)) as (r2 & A & B); [now apply eqt_app|].
    destruct r2 as [t2|]; [contradiction|exact A].
Qed.
Lemma settled_det K p s r1 r2 : settled K p s r1 -> settled K p s r2 ->
  match r1, r2 with Some a, Some b => eqt K a b | None, None => True | _, _ => False end.
Proof.
  intros H1 H2. specialize (H1 [] (Forall_nil _)). specialize (H2 [] (Forall_nil _)).
  destruct r1 as [a|], r2 as [b|]; auto.
  - destruct H1 as (a' & H1 & E1), H2 as (b' & H2 & E2). pose proof (m_det _ _ _ _ _ H1 _ H2) as [= <-].
    rewrite !app_nil_r in *. unfold PegSound.eqt. congruence.
  - destruct H1 as (a' & H1 & E1). pose proof (m_det _ _ _ _ _ H1 _ H2). discriminate.
  - destruct H2 as (a' & H2 & E1). pose proof (m_det _ _ _ _ _ H1 _ H2). discriminate.
Qed.
Lemma awaits_eqt K g s : awaits K g s -> forall s2, eqt K s s2 -> awaits K g s2.
Proof.
  induction 1; intros s9 E; try (constructor; auto; fail).
  - apply op_blank. unfold PegSound.eqt in E. cbn [skipped] in E. congruence.
  - apply op_primitive; auto. unfold PegSound.eqt in E. now rewrite <- E.
  - eapply op_all_next; [eapply settled_eqt; eauto|auto].
  - eapply op_any_next; [eapply settled_eqt; eauto|auto].
  - eapply op_times_next; [eapply settled_eqt; eauto|auto|auto].
  - eapply op_except_next; [eapply settled_eqt; eauto|auto].
  - eapply op_list_next; [eapply settled_eqt; eauto|auto].
  - eapply op_more_elem; [eapply settled_eqt; eauto|auto].
  - eapply op_more_next; [eapply settled_eqt; eauto|eauto|auto].
  - apply op_lexeme. unfold PegSound.eqt in E. now rewrite <- E.
  - apply op_skipper. unfold PegSound.eqt in E. now rewrite <- E.
  - eapply op_recur; eauto.
Qed.
Lemma awaits_iff K g s s2 : eqt K s s2 -> (awaits K g s <-> awaits K g s2).
Proof. intros E. split; intros H; eapply awaits_eqt; eauto with eqt. Qed.

(** Nothing to skip, and with a skipper something to read. *)
Definition full (K : skipping) (s : list Z) : Prop := trim (ws K) s = s /\ (K <> None -> s <> []).
Lemma full_none s : full None s.
Proof. split; [apply trim_nows|intros H; now contradiction H]. Qed.
Lemma full_blank b s : full (Some b) s -> trim (chars b) s = [] -> False.
Proof. intros [H1 H2] H. apply H2; [discriminate|]. cbn [skipped] in H1. congruence. Qed.
Lemma full_more K s more : full K s -> trim (ws K) (s ++ more) = s ++ more.
Proof. intros [H1 H2]. destruct K as [b|]; [|apply trim_nows]. apply trim_more; auto. apply H2. discriminate. Qed.

(** A part that answers. *)
Definition answered (K : skipping) (h : bool) (rq : req) (p : pat) (base : list (list Z)) (s : list Z) (r : result) (w' : world (sfwd * bool)) : Prop :=
  exists s' cs' tr' lk, w' = O s' (lk ++ base) cs' tr' /\ (h = true -> lk = []) /\ Forall (tok T) s' /\
  ((r = SUCCESS /\ settled K p s (Some s')) \/ (r = FAILURE /\ settled K p s None /\ (r_clean rq = true -> eqt K s' s))).

Lemma answer K h c rq d p a cs0 cs1 base x s tr r a' w' n : r <> PARTIAL ->
  under K c -> mok h rq p = true -> spok T (flag K) GRun rq p -> Forall (tok T) s -> Forall (tok T) x -> eqt K x s -> (r_recur rq = true -> full K s) ->
  mk c rq d p cs0 = Done (a, cs1) ->
  run n c rq d p a (O s (repeat x (owed a) ++ base) cs1 tr) = Done ((r, a'), w') ->
  answered K h rq p base s r w'.
Proof.
  intros Hr Hf Hm Hp Hs Hx Hxs Hfull Hk E. pose proof (under_cok K c Hf) as Hc.
  assert (forall more, Forall (tok T) more -> exists b s1 cs' tr' lk, r = res b /\
     Resume.ext (oext more) w' = World (Sfwd s1 (lk ++ map (fun x => x ++ more) base), true) cs' tr' /\ (h = true -> lk = []) /\
     snd (w_src w') = false /\ ev env GRun c rq d p (x ++ more) (SW (s ++ more) cs0 tr) b (SW s1 cs' tr')) as H.
  { intros more Hmore.
    pose proof (Resume.chk_all o_ops (oext more) _ (o_extends more) env n c rq d p a (O s (repeat x (owed a) ++ base) cs1 tr) eq_refl) as HC.
    unfold Resume.CHK in HC. rewrite E in HC.
    assert (Resume.nf (fun x => snd x = false) w' /\ run n c rq d p a (Resume.ext (oext more) (O s (repeat x (owed a) ++ base) cs1 tr))
       = Done ((r, a'), Resume.ext (oext more) w')) as [H1 H2].
    { destruct r; auto. congruence. }
    rewrite first_run in H2 by (apply (zero_mk c rq d p cs0 a cs1); auto; now apply mok_skips in Hm).
    pose proof (lsim_consume_same (unres o_ops) sf_ops closed (fun e => e = EFuel) closed_first (or_introl eq_refl) env n c rq d p a (Resume.ext (oext more) (O s (repeat x (owed a) ++ base) cs1 tr))
      (W (s ++ more) (map (fun x => x ++ more) (repeat x (owed a) ++ base)) cs1 tr)) as HL'.
    rewrite H2 in HL'. destruct HL' as (w2 & E2 & R1 & R2 & R3); [repeat split|].
    rewrite map_app, map_repeat_ in E2.
    destruct (sound env Hmok n h c rq d p a (x ++ more) cs0 cs1 _ _ _ _ _ _ Hc Hm Hk E2) as (b & s1 & cs' & tr' & lk & -> & -> & Hlk & Hev).
    exists b, s1, cs', tr', lk. split; auto. split; [|auto].
    destruct w' as [[y f] c' t']. cbn in *. unfold closed in R1. subst c' t'. unfold Resume.ext. cbn [w_src w_cells w_trace]. now rewrite R1. }
  destruct w' as [[[s' k'] f] c' t'].
  destruct (H [] (Forall_nil _)) as (b & s1 & cs' & tr' & lk & -> & E1 & Hlk & Hff & Hev). cbn in Hff. subst f.
  unfold Resume.ext, oext in E1. cbn in E1. rewrite !map_nil_app, app_nil_r in E1. injection E1 as -> -> -> ->.
  rewrite !app_nil_r in Hev.
  exists s1, cs', tr', lk. split; [reflexivity|]. split; auto.
  assert (Forall (tok T) s1) as Hs1.
  { exact (ev_suffix env (Forall (tok T)) (suffix_toks T) _ _ _ _ _ _ _ _ _ Hev Hx Hs Hx). }
  split; auto.
  assert (forall more, Forall (tok T) more -> exists r0, m env (ws K) (One p) (s ++ more) r0 /\
     match r0 with Some t => b = true /\ eqt K t (s1 ++ more) | None => b = false end) as HM.
  { intros more Hmore. destruct (H more Hmore) as (b1 & s2 & cs2 & tr2 & lk2 & Eb & E2 & _ & _ & Hev2).
    assert (b1 = b) as -> by (destruct b, b1; auto; discriminate).
    unfold Resume.ext, oext in E2. cbn in E2. injection E2 as <- _ _ _.
    assert (Forall (tok T) (s ++ more)) as Hsm by (apply Forall_app; auto).
    assert (Forall (tok T) (x ++ more)) as Hxm by (apply Forall_app; auto).
    destruct (sound_all env T HT Hpeg _ _ _ _ _ _ _ _ _ Hev2 (ws K) (flag K) (s ++ more) (x ++ more)) as [(r0 & HJ & HR) _]; auto.
    - now apply under_skips.
    - destruct K; [discriminate|reflexivity].
    - right. now apply eqt_app.
    - cbn [strimmed q_s]. intros R. now apply full_more, Hfull.
    - reflexivity.
    - reflexivity.
    - exists r0. split; [exact HJ|]. destruct r0 as [t|], b; cbn in HR; try contradiction; auto. }
  destruct b; [left|right]; (split; [reflexivity|]).
  - intros more Hmore. destruct (HM more Hmore) as ([t|] & H1 & H2); [destruct H2 as [_ H2]; eauto|discriminate].
  - split.
    + intros more Hmore. destruct (HM more Hmore) as ([t|] & H1 & H2); [destruct H2; discriminate|exact H1].
    + intros Hcl. destruct (sound_all env T HT Hpeg _ _ _ _ _ _ _ _ _ Hev (ws K) (flag K) s x) as [_ HC]; auto.
      * now apply under_skips.
      * destruct K; [discriminate|reflexivity].
      * cbn [strimmed q_s]. intros R. now destruct (Hfull R).
      * reflexivity.
      * reflexivity.
Qed.

Definition gw (K : skipping) (g : stage) (p : pat) (s : list Z) : Prop :=
  match g with
  | GRep k => match p with Repeat lo hi q => awaits K (Times lo hi k q) s | _ => False end
  | GElem _ => match p with
               | PList q sep => awaits K (One q) s \/ exists s1, settled K q s (Some s1) /\ awaits K (More q sep) s1
               | _ => False
               end
  | GSep _ => match p with PList q sep => awaits K (More q sep) s | _ => False end
  | _ => awaits K (One p) s
  end.

(** Where nothing is skipped any more. *)
Definition deep (K : skipping) (g : stage) (rq : req) (s : list Z) : Prop :=
  match g with
  | GRun => r_recur rq = true -> full K s
  | GCln | GAtm | GRaw => full K s
  | GSkip => K <> None
  | _ => True
  end.

(** The loops of sequences and alternatives are done below. *)
Definition Aw (K : skipping) (n : nat) (g : stage) : Prop :=
  match g with GSeq _ | GAlt _ => True | _ =>
  forall h c rq d p st cs0 cs1 base x s tr r st' w',
    under K c -> gok h g rq p = true -> spok T (flag K) g rq p -> single T p = true -> Forall (tok T) s ->
    Forall (tok T) x -> eqt K x s -> deep K g rq s ->
    mkg g c rq d p cs0 = Done (st, cs1) ->
    run n c rq d p st (O s (gstk g x st base) cs1 tr) = Done ((r, st'), w') ->
    (r = PARTIAL <-> gw K g p s)
  end.

Ltac inv H := inversion H; subst; clear H.
Ltac bi H := let E := fresh "E" in let a := fresh "a" in let w := fresh "w" in
  apply bind_inv in H; destruct H as (a & w & E & H).
(** Which constructor can it be? *)
Ltac no := match goal with E : ?r = PARTIAL <-> awaits _ (One ?p) ?s, H : awaits _ (One ?p) ?s |- _ => exfalso; apply E in H; first [discriminate H|contradiction] end.
Ltac same := match goal with
  | H1 : settled _ ?p ?s (Some ?a), H2 : settled _ ?p ?s (Some ?b), H3 : awaits _ _ ?b |- _ =>
    let E := fresh in pose proof (settled_det _ _ _ _ _ H2 H1) as E; cbn in E; apply (awaits_eqt _ _ _ H3) in E; clear H2 H3
  | H1 : settled _ ?p ?s (Some ?a), H2 : settled _ ?p ?s (Some ?b), H3 : settled _ _ ?b _ |- _ =>
    let E := fresh in pose proof (settled_det _ _ _ _ _ H2 H1) as E; cbn in E; apply (settled_eqt _ _ _ _ _ H3) in E; clear H2 H3
  | H1 : settled _ ?p ?s (Some ?a), H2 : settled _ ?p ?s None |- _ => exfalso; exact (settled_det _ _ _ _ _ H1 H2)
  end.
Ltac aw H := inversion H; subst; clear H; try discriminate; try no; try same; try (match goal with H : full _ ?s, E : trim _ ?s = [] |- _ => exact (False_ind _ (full_blank _ _ H E)) end); try (match goal with H : awaits _ (All []) _ |- _ => inversion H | H : awaits _ (Any []) _ |- _ => inversion H end).

Section Step.
Context (n : nat).
Hypothesis IH : forall K g m, m <= n -> Aw K m g.

Lemma kid K h c rq d p a cs0 cs1 base x s tr r st' w' k : k <= n ->
  under K c -> mok h rq p = true -> spok T (flag K) GRun rq p -> single T p = true -> Forall (tok T) s ->
  Forall (tok T) x -> eqt K x s -> (r_recur rq = true -> full K s) ->
  mk c rq d p cs0 = Done (a, cs1) ->
  run k c rq d p a (O s (repeat x (owed a) ++ base) cs1 tr) = Done ((r, st'), w') ->
  (r = PARTIAL <-> awaits K (One p) s) /\ (r = PARTIAL \/ (r <> PARTIAL /\ answered K h rq p base s r w')).
Proof.
  intros Hk Hf Hm Hp Hb Hs Hx Hxs Hd Hmk E. split.
  - exact (IH K GRun k Hk h c rq d p a cs0 cs1 base x s tr r st' w' Hf Hm Hp Hb Hs Hx Hxs Hd Hmk E).
  - destruct r; auto; right; (split; [discriminate|]); eapply answer; eauto; discriminate.
Qed.

Lemma new_kid K h c rq d p a base cs0 s tr r st' w w' k : k <= n ->
  under K c -> mok h rq p = true -> spok T (flag K) GRun rq p -> single T p = true -> Forall (tok T) s -> (r_recur rq = true -> full K s) ->
  create o_ops c rq d p (O s base cs0 tr) = Done (a, w) ->
  run k c rq d p a w = Done ((r, st'), w') ->
  (r = PARTIAL <-> awaits K (One p) s) /\ (r = PARTIAL \/ (r <> PARTIAL /\ answered K h rq p base s r w')).
Proof.
  intros Hk Hf Hm Hp Hb Hs Hd Hc. apply o_create in Hc; [|now apply (under_cok K)|now apply mok_skips in Hm].
  destruct Hc as (cs1 & Hc & ->). eapply kid; eauto with eqt.
Qed.

Ltac parts := repeat match goal with H : _ && _ = true |- _ => apply andb_prop in H; destruct H end.

Lemma seq_aw K h c d l : forall rest i q a cs0 cs1 base x s tr r st' w',
  under K c -> forallb (mok h seq_req) l = true -> forallb (peg_ok T (flag K) seq_req) l = true -> forallb (single T) l = true ->
  Forall (tok T) s -> Forall (tok T) x -> eqt K x s -> skipn i l = q :: rest ->
  forall di, seq_dst l i d = Done di -> mk c seq_req di q cs0 = Done (a, cs1) ->
  seq_from o_ops (run n) c d l i q rest a (O s (repeat x (owed a) ++ base) cs1 tr) = Done ((r, st'), w') ->
  (r = PARTIAL <-> awaits K (All (q :: rest)) s).
Proof.
  induction rest as [|q' rest IHr]; intros i q a cs0 cs1 base x s tr r st' w' Hf Hm Hp Hb Hs Hx Hxs Hi di Hd Hk H;
    (assert (In q l) as Hq by (apply skipn_nth in Hi; now apply nth_error_In in Hi));
    assert (Hm1 := Hm); assert (Hp1 := Hp); assert (Hb1 := Hb); rewrite forallb_forall in Hm1, Hp1, Hb1;
    cbn [seq_from] in H; rewrite Hd in H; bi H; destruct a0 as [r0 a'];
    (eapply kid in E; eauto; try discriminate; [|split; [auto|discriminate]]); destruct E as [E1 E2]; cbn [fst snd] in H.
  - destruct E2 as [->|(N & s' & cs' & tr' & lk & -> & _ & Hs' & [[-> HS]|(-> & HS & _)])]; inv H.
    + split; [|auto]. intros _. apply op_all. now apply E1.
    + split; [discriminate|]. intros H. aw H.
    + split; [discriminate|]. intros H. aw H.
  - assert (skipn (S i) l = q' :: rest) as Hi'.
    { clear - Hi. revert l Hi. induction i as [|i IHi]; intros [|y l] Hi; try discriminate; cbn in Hi |- *.
      - injection Hi as _ ->. reflexivity.
      - now apply IHi in Hi. }
    assert (In q' l) as Hq' by (apply skipn_nth in Hi'; now apply nth_error_In in Hi').
    destruct E2 as [->|(N & s' & cs' & tr' & lk & -> & _ & Hs' & [[-> HS]|(-> & HS & _)])].
    + inv H. split; [|auto]. intros _. apply op_all. now apply E1.
    + destruct (seq_dst l (S i) d) as [di'|] eqn:Hd'; [|discriminate]. bi H.
      apply o_create in E; [|now apply (under_cok K)|eapply mok_skips; eauto]. destruct E as (cs2 & Hk2 & ->).
      eapply IHr in H; eauto with eqt. rewrite H. split; intros HA.
      * eapply op_all_next; eauto.
      * aw HA. auto.
    + inv H. split; [discriminate|]. intros H. aw H.
Qed.

Lemma alt_aw K h c rq d l : forall rest i q a cs0 cs1 base x s tr r st' w',
  under K c -> forallb (mok h (alt_req rq)) l = true -> forallb (peg_ok T (flag K) (alt_req rq)) l = true -> forallb (single T) l = true ->
  Forall (tok T) s -> Forall (tok T) x -> eqt K x s -> skipn i l = q :: rest -> mk c (alt_req rq) d q cs0 = Done (a, cs1) ->
  alt_from o_ops (run n) c rq d i q rest a (O s (repeat x (owed a) ++ base) cs1 tr) = Done ((r, st'), w') ->
  (r = PARTIAL <-> awaits K (Any (q :: rest)) s).
Proof.
  induction rest as [|q' rest IHr]; intros i q a cs0 cs1 base x s tr r st' w' Hf Hm Hp Hb Hs Hx Hxs Hi Hk H;
    (assert (In q l) as Hq by (apply skipn_nth in Hi; now apply nth_error_In in Hi));
    assert (Hm1 := Hm); assert (Hp1 := Hp); assert (Hb1 := Hb); rewrite forallb_forall in Hm1, Hp1, Hb1;
    cbn [alt_from] in H; bi H; destruct a0 as [r0 a'];
    (eapply kid in E; eauto; try discriminate; [|split; [auto|discriminate]]); destruct E as [E1 E2]; cbn [fst snd] in H.
  - destruct E2 as [->|(N & s' & cs' & tr' & lk & -> & _ & Hs' & [[-> HS]|(-> & HS & _)])]; inv H.
    + split; [|auto]. intros _. apply op_any. now apply E1.
    + split; [discriminate|]. intros H. aw H.
    + split; [discriminate|]. intros H. aw H.
  - assert (skipn (S i) l = q' :: rest) as Hi'.
    { clear - Hi. revert l Hi. induction i as [|i IHi]; intros [|y l] Hi; try discriminate; cbn in Hi |- *.
      - injection Hi as _ ->. reflexivity.
      - now apply IHi in Hi. }
    assert (In q' l) as Hq' by (apply skipn_nth in Hi'; now apply nth_error_In in Hi').
    destruct E2 as [->|(N & s' & cs' & tr' & lk & -> & _ & Hs' & [[-> HS]|(-> & HS & HC)])].
    + inv H. split; [|auto]. intros _. apply op_any. now apply E1.
    + inv H. split; [discriminate|]. intros H. aw H.
    + specialize (HC eq_refl). bi H.
      apply o_create in E; [|now apply (under_cok K)|eapply mok_skips; eauto]. destruct E as (cs2 & Hk2 & ->).
      eapply IHr in H; eauto with eqt. rewrite H, (awaits_iff _ _ _ _ HC). split; intros HA.
      * eapply op_any_next; eauto.
      * aw HA. auto.
Qed.

Lemma rep_aw K k : Aw K (S n) (GRep k).
Proof.
  intros h c rq d p st cs0 cs1 base x s tr r st' w' Hf Hg Hp Hb Hs Hx Hxs Hd Hk H.
  destruct p; try discriminate. cbn [mkg gok mokr single] in Hk, Hg, Hb. apply mk_map_inv in Hk. destruct Hk as (a & -> & Hk).
  assert (Hp0 := Hp). destruct Hp as [Hp _]. cbn [pokr] in Hp. apply andb_prop in Hp as [Hlh Hp].
  cbn [Parser.consume consume_step gstk owed gw] in H |- *. unfold repeat_consume in H. bi H. destruct a0 as [r0 a'].
  eapply kid in E; eauto; try discriminate; [|split; [auto|discriminate]]. destruct E as [E1 E2]. cbn [fst snd] in H.
  destruct E2 as [->|(N & s' & cs' & tr' & lk & -> & _ & Hs' & [[-> HS]|(-> & HS & _)])].
  - inv H. split; [|auto]. intros _. apply op_times. now apply E1.
  - destruct (negb (rmax =? 0) && (S k =? rmax)) eqn:Ef.
    + inv H. split; [discriminate|]. apply andb_prop in Ef as [_ Ef]. apply Nat.eqb_eq in Ef.
      intros H. aw H. lia.
    + bi H. apply o_create in E; [|now apply (under_cok K)|now apply mok_skips in Hg]. destruct E as (cs2 & Hk2 & ->).
      eapply (IH K (GRep (S k)) n (le_n _) h c rq d (Repeat rmin rmax p) (PRepeat (S k) a0) cs' cs2 _ s') in H; try exact Hp0; try (cbn [gok mokr single]; apply andb_true_intro; split; assumption); auto with eqt; try exact I.
      2:{ cbn [mkg]. unfold mk_map. now rewrite Hk2. }
      cbn [gw] in H. rewrite H. assert (S k <> rmax) as Hn.
      { intros <-. rewrite Nat.eqb_refl in Ef. discriminate. }
      split; intros HA.
      * eapply op_times_next; eauto.
      * aw HA. auto.
  - inv H. split; [destruct (rmin <=? k); discriminate|]. intros H. aw H.
Qed.

Lemma elem_aw K m0 : Aw K (S n) (GElem m0).
Proof.
  intros h c rq d p st cs0 cs1 base x s tr r st' w' Hf Hg Hp Hb Hs Hx Hxs Hd Hk H.
  destruct p; try discriminate. cbn [mkg gok mokr single] in Hk, Hg, Hb. apply mk_map_inv in Hk. destruct Hk as (a & -> & Hk).
  assert (Hg0 := Hg). assert (Hb0 := Hb). assert (Hp0 := Hp). destruct Hp as [Hp _]. cbn [pokr] in Hp. parts.
  cbn [Parser.consume consume_step gstk gw] in H |- *. unfold list_consume in H. bi H. destruct a0 as [r0 a'].
  eapply kid in E; eauto; try discriminate; [|split; [auto|discriminate]]. destruct E as [E1 E2]. cbn [fst snd] in H.
  destruct E2 as [->|(N & s' & cs' & tr' & lk & -> & Hlk & Hs' & [[-> HS]|(-> & HS & _)])].
  - inv H. split; [|auto]. intros _. left. now apply E1.
  - rewrite (Hlk eq_refl) in H. cbn [app] in H. unfold bind at 1 2 in H. cbn in H. bi H. apply o_create in E; [|now apply (under_cok K)|eapply mok_skips; eauto].
    destruct E as (cs2 & Hk2 & ->).
    eapply (IH K (GSep s') n (le_n _) h c rq d (PList p1 p2) (PListSt 1 a0) cs' cs2 _ s') in H; try exact Hp0; try (cbn [gok mokr single]; apply andb_true_intro; split; assumption); auto with eqt; try exact I.
    2:{ cbn [mkg]. unfold mk_map. now rewrite Hk2. }
    cbn [gw sf_cur] in H. rewrite H. split.
    + intros HA. right. eauto.
    + intros [HA|(s1 & HA & HB)]; [no|]. same. auto.
  - bi H. inv H. split; [discriminate|]. intros [HA|(s1 & HA & HB)]; [no|]. same.
Qed.

Lemma sep_aw K m0 : Aw K (S n) (GSep m0).
Proof.
  intros h c rq d p st cs0 cs1 base x s tr r st' w' Hf Hg Hp Hb Hs Hx Hxs Hd Hk H.
  destruct p; try discriminate. cbn [mkg gok mokr single] in Hk, Hg, Hb. apply mk_map_inv in Hk. destruct Hk as (a & -> & Hk).
  assert (Hg0 := Hg). assert (Hb0 := Hb). assert (Hp0 := Hp). destruct Hp as [Hp _]. cbn [pokr] in Hp. parts.
  cbn [Parser.consume consume_step gstk gw] in H |- *. unfold list_consume in H. bi H. destruct a0 as [r0 a'].
  eapply kid in E; eauto; try discriminate; [|split; [auto|discriminate]]. destruct E as [E1 E2]. cbn [fst snd] in H.
  destruct E2 as [->|(N & s' & cs' & tr' & lk & -> & Hlk & Hs' & [[-> HS]|(-> & HS & _)])].
  - inv H. split; [|auto]. intros _. apply op_more. now apply E1.
  - rewrite (Hlk eq_refl) in H. cbn [app] in H. bi H. apply o_create in E; [|now apply (under_cok K)|eapply mok_skips; eauto].
    destruct E as (cs2 & Hk2 & ->).
    eapply (IH K (GElem m0) n (le_n _) h c rq d (PList p1 p2) (PListSt 0 a0) cs' cs2 _ s') in H; try exact Hp0; try (cbn [gok mokr single]; apply andb_true_intro; split; assumption); auto with eqt; try exact I.
    2:{ cbn [mkg]. unfold mk_map. now rewrite Hk2. }
    cbn [gw sf_cur] in H. rewrite H. split.
    + intros [HA|(s1 & HA & HB)]; [eapply op_more_elem; eauto|eapply op_more_next; eauto].
    + intros HA. aw HA; eauto.
  - bi H. inv H. split; [discriminate|]. intros HA. aw HA.
Qed.

Ltac thru := match goal with
  | H : context [match ?r0 with SUCCESS => _ | FAILURE => _ | PARTIAL => _ end], E : ?r0 = PARTIAL <-> _ |- _ =>
    destruct r0; cbn [fst snd] in H; repeat (let X := fresh in apply bind_inv in H; destruct H as (? & ? & X & H)); inv H
  end.
Ltac eqv := match goal with E1 : ?r0 = PARTIAL <-> awaits ?K (One ?p) ?s |- ?r = PARTIAL <-> awaits ?K (One ?q) ?s =>
  transitivity (awaits K (One p) s); [rewrite <- E1; split; congruence|split; intros HA; [now constructor|aw HA; auto]] end.

Lemma raw_aw K : Aw K (S n) GRaw.
Proof.
  intros h c rq d p st cs0 cs1 base x s tr r st' w' Hf Hg Hp Hb Hs Hx Hxs Hd Hk H.
  cbn [gok mkg gw] in *.
  assert (gstk GRaw x st base = repeat x (owed st) ++ base) as HS by reflexivity. rewrite HS in H. clear HS.
  destruct Hp as [Hp Hrec]. destruct Hd as [Ht Hne]. assert (Hfull := conj Ht Hne : full K s).
  assert (forall X, primitive p = true -> (r = PARTIAL <-> X) -> (X <-> unsettled p s) -> (r = PARTIAL <-> awaits K (One p) s)) as HP.
  { intros X H1 H2 H3. rewrite H2, H3. split; [intros HA; apply op_primitive; auto; now rewrite Ht|].
    intros HA. destruct p; try discriminate H1; inversion HA; subst; try (rewrite Ht in *; assumption); exfalso; specialize (Hne ltac:(discriminate)); cbn [skipped] in *; congruence. }
  destruct p; cbn [mokr mk_raw single pokr] in *; parts.
  - (* Char *)
    inv Hk. eapply HP; [reflexivity|eapply o_char_ready; eauto|reflexivity].
  - discriminate.
  - (* Eoi *)
    inv Hk. eapply HP; [reflexivity|eapply o_eoi_ready; eauto|reflexivity].
  - (* Pass *)
    destruct (r_consumes rq) eqn:Er; inv Hk. inv H. eapply (HP False); [reflexivity|split; [discriminate|tauto]|reflexivity].
  - (* Fail *)
    inv Hk. inv H. eapply (HP False); [reflexivity|split; [discriminate|tauto]|reflexivity].
  - (* Lit *)
    inv Hk. eapply HP; [reflexivity|eapply o_lit_ready; eauto|reflexivity].
  - (* Symbol *)
    inv Hk. eapply HP; [reflexivity|eapply o_sym_ready; eauto; apply lush_build|]. rewrite longer_build. reflexivity.
  - (* UInt *)
    destruct (num_zero cs0 d) as [c0|] eqn:Ez; inv Hk. apply num_fits_ok in Hp. destruct Hp as (HTc & Hb1 & Hlh). rewrite HTc in Hs.
    eapply HP; [|eapply (o_uint_ready env c rq d base0 dmin dmax Hb1); eauto; lia|reflexivity].
    cbn. apply andb_true_intro. split; apply Z.leb_le; lia.
  - (* Int *)
    destruct (num_zero cs0 d) as [c0|] eqn:Ez; inv Hk.
    match goal with X : num_fits _ _ _ _ = true |- _ => apply num_fits_ok in X; destruct X as (HTc & Hb1 & Hlh) end. rewrite HTc in Hs.
    eapply HP; [|eapply (o_int_ready env c rq d base0 dmin dmax Hb1); eauto|reflexivity].
    cbn. apply andb_true_intro. split; apply Z.leb_le; lia.
  - (* Seq *)
    destruct l as [|q l]; [discriminate|]. destruct (seq_dst (q :: l) 0 d) as [di|] eqn:Ed; [|discriminate].
    apply mk_map_inv in Hk. destruct Hk as (a & -> & Hk).
    cbn [Parser.consume consume_step] in H. unfold nary_enter in H.
    cbn [so_resumable o_ops negb Nat.eqb andb skipn owed] in H.
    eapply (seq_aw K h c d (q :: l) l 0 q) in H; eauto.
    rewrite H. split; intros HA; [now apply op_seq|aw HA; auto].
  - (* Alt *)
    destruct l as [|q l]; [discriminate|].
    apply mk_map_inv in Hk. destruct Hk as (a & -> & Hk).
    cbn [Parser.consume consume_step] in H. unfold nary_enter in H.
    cbn [so_resumable o_ops negb Nat.eqb andb skipn owed] in H.
    eapply (alt_aw K h c rq d (q :: l) l 0 q) in H; eauto.
    rewrite H. split; intros HA; [now apply op_alt|aw HA; auto].
  - (* Repeat *)
    destruct (r_consumes rq && (rmin =? 0)) eqn:Er; [discriminate|].
    apply mk_map_inv in Hk. destruct Hk as (a & -> & Hk).
    eapply (rep_aw K 0 h c rq d (Repeat rmin rmax p) (PRepeat 0 a) cs0 cs1 base x) in H; auto; try exact I.
    2:{ split; auto. cbn [pokr]. now apply andb_true_intro. }
    2:{ cbn [mkg]. unfold mk_map, mk. now rewrite Hk. }
    cbn [gw] in H. rewrite H. split; intros HA; [now apply op_repeat|aw HA; auto].
  - (* Not *)
    apply mk_map_inv in Hk. destruct Hk as (a & -> & Hk).
    cbn [Parser.consume consume_step owed] in H. unfold not_consume in H. bi H. destruct a0 as [r0 a'].
    cbn [repeat app] in E. rewrite repeat_mid in E.
    eapply kid in E; eauto; try discriminate; [|split; [auto|discriminate]]. destruct E as [E1 _].
    cbn [fst snd] in H. thru; eqv.
  - (* Opt *)
    apply mk_map_inv in Hk. destruct Hk as (a & -> & Hk).
    cbn [Parser.consume consume_step owed] in H. unfold opt_consume in H. bi H. destruct a0 as [r0 a'].
    cbn [repeat app] in E. rewrite repeat_mid in E.
    eapply kid in E; eauto; try discriminate; [|split; [auto|discriminate]]. destruct E as [E1 _].
    cbn [fst snd] in H. thru; eqv.
  - (* Discard *)
    apply mk_map_inv in Hk. destruct Hk as (a & -> & Hk).
    cbn [Parser.consume consume_step owed] in H. unfold forward_consume in H. bi H. destruct a0 as [r0 a'].
    eapply kid in E; eauto; [|split; auto]. destruct E as [E1 _]. inv H. cbn [fst]. eqv.
  - (* Lexeme *)
    apply mk_map_inv in Hk. destruct Hk as (a & -> & Hk).
    cbn [Parser.consume consume_step owed] in H. unfold forward_consume in H. bi H. destruct a0 as [r0 a'].
    assert (repeat x (owed a) = repeat s (owed a)) as HR.
    { destruct K as [b|]; cbn [flag negb orb] in *.
      - now rewrite (owed_free p None rq d cs0 a cs1 I (mok_skips _ _ _ Hg)) by assumption.
      - unfold PegSound.eqt in Hxs. change (ws None) with nows in Hxs. rewrite !trim_nows in Hxs. now rewrite Hxs. }
    rewrite HR in E.
    eapply (IH None GRun n (le_n _) h (Ctx Fail (c_bound c)) rq d p a cs0 cs1 base s s) in E; auto using full_none with eqt; try reflexivity.
    2: split; auto.
    2: intros _; apply full_none.
    cbn [gw] in E. inv H. cbn [fst]. rewrite E. split; intros HA; [apply op_lexeme; now rewrite Ht|aw HA]. now rewrite Ht in *.
  - (* WithSkipper *)
    apply mk_map_inv in Hk. destruct Hk as (a & -> & Hk).
    cbn [Parser.consume consume_step owed] in H. unfold forward_consume in H. bi H. destruct a0 as [r0 a'].
    assert (repeat x (owed a) = repeat s (owed a)) as HR.
    { destruct K as [b|]; cbn [flag negb orb] in *.
      - match goal with X : skipper1 T ?k = true |- _ => pose proof (s1_sfree T _ X) as Hsf; rewrite (owed_free p1 (sk_of k) rq d cs0 a cs1) end; try assumption; try reflexivity.
        + unfold sk_of. destruct (is_fail _); cbn [free]; auto. now apply makes_skip.
        + eapply mok_skips; eauto.
      - unfold PegSound.eqt in Hxs. change (ws None) with nows in Hxs. rewrite !trim_nows in Hxs. now rewrite Hxs. }
    rewrite HR in E.
    match goal with X : skipper1 T ?k = true |- _ =>
      eapply (IH (Some (passes1 k)) GRun n (le_n _) h (Ctx k (c_bound c)) rq d p1 a cs0 cs1 base s s) in E; auto with eqt end.
    2: split; auto.
    2: split; auto; intros X; congruence.
    2: intros X; match goal with Y : negb (r_recur rq) = true |- _ => rewrite X in Y; discriminate Y end.
    cbn [gw] in E. inv H. cbn [fst]. rewrite E. split; intros HA; [apply op_skipper; now rewrite Ht|aw HA]. now rewrite Ht in *.
  - (* BindDst *)
    apply mk_map_inv in Hk. destruct Hk as (a & -> & Hk).
    cbn [Parser.consume consume_step owed] in H. unfold forward_consume in H. bi H. destruct a0 as [r0 a'].
    eapply kid in E; eauto; try discriminate; [|split; auto; intros R; cbn in R; first [discriminate R | now rewrite (Hrec R)]]. destruct E as [E1 _]. inv H. cbn [fst]. eqv.
  - (* Construct *)
    apply mk_cell_inv in Hk; [|intros; apply lenp_in]. destruct Hk as (a & v1 & -> & Hk & HL).
    cbn [Parser.consume consume_step owed] in H. unfold construct_consume in H. bi H. destruct a0 as [[r0 a'] v'].
    eapply cell_inv_o in E; [|reflexivity]. destruct E as (w1 & E). cbn [w_src w_cells w_trace O] in E. rewrite HL in E.
    eapply kid in E; eauto; try discriminate; [|split; auto; intros R; cbn in R; first [discriminate R | now rewrite (Hrec R)]]. destruct E as [E1 _]. cbn [fst snd] in H.
    destruct r0; [destruct (make_from (dst_ty d) v'); [|discriminate]; bi H| |]; inv H; eqv.
  - (* Act *)
    apply mk_cell_inv in Hk; [|intros; apply lenp_in]. destruct Hk as (a0 & v1 & -> & Hk & HL).
    cbn [Parser.consume consume_step owed] in H. unfold action_consume in H. bi H. destruct a1 as [[r0 a'] v'].
    eapply cell_inv_o in E; [|reflexivity]. destruct E as (w1 & E). cbn [w_src w_cells w_trace O] in E. rewrite HL in E.
    eapply kid in E; eauto; try discriminate; [|split; auto; intros R; cbn in R; first [discriminate R | now rewrite (Hrec R)]]. destruct E as [E1 _]. cbn [fst snd] in H.
    thru; eqv.
  - (* Except *)
    apply mk_map_inv in Hk. destruct Hk as (a & -> & Hk).
    cbn [Parser.consume consume_step owed] in H. unfold except_consume in H. bi H. destruct a0 as [r0 a'].
    eapply kid in E; eauto; try discriminate; [|split; [auto|discriminate]]. destruct E as [E1 E2].
    cbn [fst snd] in H. destruct E2 as [->|(N & s' & cs' & tr' & lk & -> & Hlk & Hs' & [[-> HS]|(-> & HS & HC)])].
    + inv H. split; [|auto]. intros _. apply op_except. now apply E1.
    + inv H. split; [discriminate|]. intros HA. aw HA.
    + specialize (HC eq_refl). bi H. bi H. destruct a1 as [r1 a1]. inv H. cbn [fst].
      eapply new_kid in E0; eauto; try discriminate; [|split; [auto|discriminate]]. destruct E0 as [E3 _]. rewrite E3, (awaits_iff _ _ _ _ HC).
      split; intros HA; [now apply op_except_next|aw HA; auto].
  - (* PList *)
    apply mk_map_inv in Hk. destruct Hk as (a & -> & Hk).
    cbn [owed repeat app] in H. rewrite repeat_mid in H.
    eapply (elem_aw K x h c rq d (PList p1 p2) (PListSt 0 a) cs0 cs1 base x) in H; auto; try exact I.
    2:{ cbn [gok mokr]. now apply andb_true_intro. }
    2:{ split; auto. cbn [pokr]. now apply andb_true_intro. }
    2:{ cbn [single]. now apply andb_true_intro. }
    2:{ cbn [mkg]. unfold mk_map, mk. now rewrite Hk. }
    cbn [gw sf_cur] in H. rewrite H. split.
    + intros [HA|(s1 & HA & HB)]; [now apply op_list|eapply op_list_next; eauto].
    + intros HA. aw HA; eauto.
  - (* Recur *)
    inv Hk. cbn [Parser.consume consume_step owed repeat app] in H. unfold recur_consume in H.
    destruct (env id) as [q|] eqn:Eq; [|discriminate]. bi H. bi H. destruct a0 as [r0 a'].
    eapply (new_kid K true) in E; eauto; [|split; [destruct K; [eauto|apply peg_ok_mono; eauto]|auto]]. destruct E as [E1 _]. inv H. cbn [fst].
    rewrite E1. split; intros HA; [eapply op_recur; eauto|aw HA]. congruence.
Qed.

Lemma atm_aw K : Aw K (S n) GAtm.
Proof.
  intros h c rq d p st cs0 cs1 base x s tr r st' w' Hf Hg Hp Hb Hs Hx Hxs Hd Hk H.
  cbn [mkg gok spok] in *. unfold mk_atm, mk_atm_of, atm_req, areq in *. destruct Hp as [Hp Hr]. destruct (wants_atomic rq p) eqn:Ew.
  - apply mk_cell_inv in Hk; [|intros; apply lenp_raw]. destruct Hk as (a & v1 & -> & Hk & HL).
    cbn [Parser.consume consume_step gstk owed] in H. unfold atomic_consume in H.
    bi H. destruct a0 as [[r0 a'] v'].
    eapply cell_inv_o in E; [|reflexivity]. destruct E as (w1 & E). cbn [w_src w_cells w_trace O] in E. rewrite HL in E.
    eapply (IH K GRaw n (le_n _) h c (unatomic_req rq)) in E; eauto; [|split; auto; cbn; congruence].
    cbn [gw fst snd] in *. thru; rewrite <- E; split; congruence.
  - eapply raw_aw in H; eauto. split; auto. congruence.
Qed.

Lemma cln_aw K : Aw K (S n) GCln.
Proof.
  intros h c rq d p st cs0 cs1 base x s tr r st' w' Hf Hg Hp Hb Hs Hx Hxs Hd Hk H.
  cbn [mkg gok spok] in *. apply andb_prop in Hg. destruct Hg as [Hr Hg]. destruct Hp as [Hp _].
  rewrite mok_eq in Hg. rewrite peg_ok_eq in Hp. unfold raw_req in Hg, Hp. apply negb_true_iff in Hr. rewrite Hr in Hg, Hp. cbn [negb andb] in Hg.
  unfold mk_cln, mk_cln_of in *. destruct (wants_clean rq p) eqn:Ew.
  - rewrite orb_true_r in Hg. apply mk_map_inv in Hk. destruct Hk as (a & -> & Hk).
    cbn [Parser.consume consume_step gstk owed repeat app] in H. unfold clean_consume in H.
    rewrite repeat_mid in H. bi H. destruct a0 as [r0 a'].
    eapply (IH K GAtm n (le_n _) true c (unclean_req rq) d p a cs0 cs1) in E; eauto; [|split; auto].
    cbn [gw fst snd] in *. thru; rewrite <- E; split; congruence.
  - rewrite orb_false_r in Hg. eapply atm_aw in H; eauto. split; auto.
Qed.

Lemma skip_aw K : Aw K (S n) GSkip.
Proof.
  intros h c rq d p st cs0 cs1 base x s tr r st' w' Hf Hg Hp Hb Hs Hx Hxs Hd Hk H.
  cbn [mkg gw] in *. apply mk_map_inv in Hk. destruct Hk as (a & -> & Hk).
  destruct K as [b|]; [|now contradiction Hd]. destruct Hf as [Hskp Hsk]. assert (Hf := conj Hskp Hsk : under (Some b) c). cbn [skipped] in *. pose proof (s1_sfree T _ Hskp) as Hfree. pose proof (proj2 (makes_skip _ Hfree)) as H0.
  cbn [Parser.consume consume_step gstk owed] in H. rewrite H0 in H. cbn [plus] in H. unfold skip_consume in H.
  bi H. destruct a0 as [r0 s0]. cbn [fst snd] in H. apply (o_skip_reads env T HT (c_skip c) Hskp) in E; auto. unfold saw in E. rewrite <- Hsk in E.
  destruct s as [|z t].
  - subst r0. inv H. split; [|auto]. intros _. now apply op_blank.
  - assert (tok T z /\ Forall (tok T) t) as [Hz Ht] by (inversion Hs; auto). destruct (b z) eqn:Ez; destruct E as [-> ->].
    + assert (PegSound.eqt (chars b) t (z :: t)) as Et by (unfold PegSound.eqt; now rewrite trim_chars, Ez).
      bi H. unfold create in E. change (mk_skip_of o_ops skip_ctx) with (@None (M (sfwd * bool) pst)) in E.
      rewrite (o_skip_create T (c_skip c) Hskp) in E. injection E as <- <-.
      replace (repeat x (owed a) ++ base) with (gstk GSkip x (PSkip false (skip_st (c_skip c)) a) base) in H
        by (cbn [gstk owed]; rewrite H0; reflexivity).
      eapply (IH (Some b) GSkip n (le_n _) h c rq d p (PSkip false (skip_st (c_skip c)) a) cs0 cs1) in H; eauto with eqt.
      2:{ cbn [mkg]. unfold mk_map. now rewrite Hk. }
      cbn [gw] in H. rewrite H. now apply (awaits_iff (Some b)).
    + destruct n as [|m] eqn:En; [discriminate|].
      cbn [Parser.consume consume_step] in H. unfold skip_consume in H. bi H. destruct a0 as [r1 a1]. inv H.
      eapply (IH (Some (passes1 (c_skip c))) GCln m ltac:(lia) h c rq d p a cs0 cs1 base x) in E; auto.
      split; [cbn [skipped]; now rewrite trim_chars, Ez|discriminate].
Qed.

Lemma run_aw K : Aw K (S n) GRun.
Proof.
  intros h c rq d p st cs0 cs1 base x s tr r st' w' Hf Hg Hp Hb Hs Hx Hxs Hd Hk H.
  cbn [mkg gok spok deep] in *. unfold mk in Hk. rewrite mk_in_eq in Hk. unfold mk_adapt in Hk. destruct Hp as [Hp Hrec].
  destruct (r_recur rq) eqn:Er.
  - assert (gok h GRaw rq p = true) as Hg1.
    { cbn [gok]. rewrite mok_eq in Hg. unfold raw_req in Hg. rewrite Er in Hg. cbn in Hg. now rewrite orb_false_r in Hg. }
    eapply (raw_aw K h c rq d p st cs0 cs1 base x) in H; auto.
    + split; auto. rewrite peg_ok_eq in Hp. unfold raw_req in Hp. now rewrite Er in Hp.
    + exact (Hd eq_refl).
  - assert (gok h GSkip rq p = true) as Hg1.
    { cbn [gok]. now rewrite Er, Hg. }
    unfold sk_of in Hk. destruct K as [b|].
    + assert (is_fail (c_skip c) = false) as Hn by (destruct Hf as [Hf _]; destruct (c_skip c); try reflexivity; discriminate Hf).
      rewrite Hn in Hk. eapply (skip_aw (Some b) h c rq d p st cs0 cs1 base x) in H; auto.
      * split; auto.
      * discriminate.
      * cbn [mkg]. unfold mk_cln, sk_of. rewrite Hn. exact Hk.
    + assert (is_fail (c_skip c) = true) as Hn by exact Hf.
      rewrite Hn in Hk. eapply (cln_aw None h c rq d p st cs0 cs1 base x) in H; auto.
      * split; auto.
      * apply full_none.
      * cbn [mkg]. unfold mk_cln, sk_of. rewrite Hn. exact Hk.
Qed.

End Step.

Lemma aw_all_stages n : forall K g k, k <= n -> Aw K k g.
Proof.
  induction n as [|n IH]; intros K g k Hk.
  - replace k with 0 by lia. destruct g; try exact I; intros h c rq d p st cs0 cs1 base x s tr r st' w' _ _ _ _ _ _ _ _ _ H; discriminate H.
  - destruct (le_lt_dec k n) as [Hl|Hl]; [now apply IH|]. replace k with (S n) by lia.
    destruct g; try exact I; [apply run_aw|apply skip_aw|apply cln_aw|apply atm_aw|apply raw_aw|apply rep_aw|apply elem_aw|apply sep_aw]; exact IH.
Qed.

(** ** A call *)
Theorem run_waits t v p n inp r st w : inclass T false p = true -> single T p = true -> Forall (tok T) inp ->
  a_run env t v p n inp false = Done ((r, st), w) -> (r = PARTIAL <-> awaits None (One p) inp).
Proof.
  intros Hc Hb Hi H. unfold inclass in Hc. apply andb_prop in Hc. destruct Hc as [Hm Hp].
  unfold a_run, top_run in H. bi H. unfold top_create in E. unfold top_consume in H.
  pose proof (lsim_create (a_ops true) o_ops viewed (fun _ => False) viewed_ops (top_ctx t) default_req (top_dst t) p
    (World (Cursor inp false 0 []) [v] []) (O inp [] [v] [])) as HL.
  rewrite E in HL. destruct HL as (w2 & HL & HR); [repeat split|].
  apply o_create in HL; [|reflexivity|now apply mok_skips in Hm]. destruct HL as (cs1 & Hk & ->).
  pose proof (lsim_consume_same (a_ops true) o_ops viewed (fun _ => False) viewed_ops (or_introl eq_refl) env n (top_ctx t) default_req (top_dst t) p a _ _ HR) as HL.
  rewrite H in HL. destruct HL as (w3 & HL & _).
  pose proof (aw_all_stages n None GRun n (le_n _)) as HW. cbn [Aw gw] in HW.
  eapply (HW false (top_ctx t) default_req (top_dst t) p a [v] cs1 [] inp inp); eauto with eqt.
  - reflexivity.
  - split; [exact Hp|]. intros X. discriminate X.
  - intros X. discriminate X.
Qed.

Theorem waits t v p n l s : inclass T false p = true -> single T p = true -> Forall (tok T) (fed l) -> ended l = false ->
  run_session env n t v p (l ++ [Consume]) = Done s -> (s_res s = None <-> awaits None (One p) (fed l)).
Proof.
  intros Hc Hb Hi He E. pose proof (session_shows_a env t v p n (l ++ [Consume])) as HA. rewrite E in HA. cbn in HA.
  destruct (a_session env t v p n (l ++ [Consume])) as [a|] eqn:Ea; [|discriminate].
  destruct (shown_run env t v p n l _ (open_legal l He) Ea ltac:(discriminate)) as (o' & [_ [k Hk]] & HS).
  rewrite He in Hk. rewrite <- HS in HA. destruct o' as [[[r st] w]|]; [|discriminate]. cbn in HA. injection HA as HA _ _.
  rewrite HA, <- (run_waits t v p k (fed l) r st w Hc Hb Hi Hk). destruct r; split; congruence.
Qed.

(** What it answers then holds whatever follows. *)
Lemma run_settles t v p n inp r st w : inclass T false p = true -> Forall (tok T) inp -> r <> PARTIAL ->
  a_run env t v p n inp false = Done ((r, st), w) ->
  match r with SUCCESS => exists rest, settled None p inp (Some rest) | _ => settled None p inp None end.
Proof.
  intros Hc Hi Hr H. unfold inclass in Hc. apply andb_prop in Hc. destruct Hc as [Hm Hp].
  unfold a_run, top_run in H. bi H. unfold top_create in E. unfold top_consume in H.
  pose proof (lsim_create (a_ops true) o_ops viewed (fun _ => False) viewed_ops (top_ctx t) default_req (top_dst t) p
    (World (Cursor inp false 0 []) [v] []) (O inp [] [v] [])) as HL.
  rewrite E in HL. destruct HL as (w2 & HL & HR); [repeat split|].
  apply o_create in HL; [|reflexivity|now apply mok_skips in Hm]. destruct HL as (cs1 & Hk & ->).
  pose proof (lsim_consume_same (a_ops true) o_ops viewed (fun _ => False) viewed_ops (or_introl eq_refl) env n (top_ctx t) default_req (top_dst t) p a _ _ HR) as HL.
  rewrite H in HL. destruct HL as (w3 & HL & _).
  pose proof (fun HP HR => answer None false (top_ctx t) default_req (top_dst t) p a [v] cs1 [] inp inp [] r st w3 n Hr eq_refl Hm HP Hi Hi (eqt_refl _ _) HR Hk HL) as HA'.
  destruct HA' as (s' & cs' & tr' & lk & _ & _ & _ & [[-> HS]|(-> & HS & _)]); eauto.
  - split; [exact Hp|]. intros X. discriminate X.
  - intros X. discriminate X.
Qed.

Theorem settles t v p n l s r : inclass T false p = true -> Forall (tok T) (fed l) -> ended l = false ->
  run_session env n t v p (l ++ [Consume]) = Done s -> s_res s = Some r ->
  match r with SUCCESS => exists rest, settled None p (fed l) (Some rest) | _ => settled None p (fed l) None end.
Proof.
  intros Hc Hi He E Hr. pose proof (session_shows_a env t v p n (l ++ [Consume])) as HA. rewrite E in HA. cbn in HA.
  destruct (a_session env t v p n (l ++ [Consume])) as [a|] eqn:Ea; [|discriminate].
  destruct (shown_run env t v p n l _ (open_legal l He) Ea ltac:(discriminate)) as (o' & [_ [k Hk]] & HS).
  rewrite He in Hk. rewrite <- HS in HA. destruct o' as [[[r1 st] w]|]; [|discriminate]. cbn in HA. injection HA as HA _ _.
  rewrite HA in Hr. assert (r1 = r /\ r1 <> PARTIAL) as [<- Hn] by (destruct r1; split; congruence).
  exact (run_settles t v p k (fed l) r1 st w Hc Hi Hn Hk).
Qed.

(** ** A call below a skipper *)
Theorem run_waits_under skp t v p n inp r st w : skipper1 T skp = true -> inclass T true p = true -> single T p = true -> Forall (tok T) inp ->
  a_run env t v (WithSkipper p skp) n inp false = Done ((r, st), w) -> (r = PARTIAL <-> awaits (Some (passes1 skp)) (One p) inp).
Proof.
  intros Hskp Hc Hb Hi H. destruct (run_under env T skp Hskp t v p n inp r st w Hc H) as (k & c & d & a & cs1 & st' & w' & Hk & Hf & Hmk & E).
  unfold inclass in Hc. apply andb_prop in Hc. destruct Hc as [Hm Hp].
  pose proof (aw_all_stages k (Some (passes1 skp)) GRun k (le_n _)) as HW. cbn [Aw gw] in HW.
  eapply (HW false c default_req d p a [v] cs1 [] inp inp); eauto with eqt.
  - unfold below in Hf. cbn [under]. now rewrite Hf.
  - split; [exact Hp|]. intros X. discriminate X.
  - intros X. discriminate X.
Qed.

Theorem waits_under skp t v p n l s : skipper1 T skp = true -> inclass T true p = true -> single T p = true -> Forall (tok T) (fed l) -> ended l = false ->
  run_session env n t v (WithSkipper p skp) (l ++ [Consume]) = Done s -> (s_res s = None <-> awaits (Some (passes1 skp)) (One p) (fed l)).
Proof.
  intros Hskp Hc Hb Hi He E. pose proof (session_shows_a env t v (WithSkipper p skp) n (l ++ [Consume])) as HA. rewrite E in HA. cbn in HA.
  destruct (a_session env t v (WithSkipper p skp) n (l ++ [Consume])) as [a|] eqn:Ea; [|discriminate].
  destruct (shown_run env t v (WithSkipper p skp) n l _ (open_legal l He) Ea ltac:(discriminate)) as (o' & [_ [k Hk]] & HS).
  rewrite He in Hk. rewrite <- HS in HA. destruct o' as [[[r st] w]|]; [|discriminate]. cbn in HA. injection HA as HA _ _.
  rewrite HA, <- (run_waits_under skp t v p k (fed l) r st w Hskp Hc Hb Hi Hk). destruct r; split; congruence.
Qed.
End Any.
