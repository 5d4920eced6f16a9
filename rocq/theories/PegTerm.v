(** Where the grammar reading of a pattern has an answer, the machine comes to an end. *)
From Coq Require Import List ZArith Bool Arith Lia.
From Verif Require Import Base CharSet Source Dst Pattern Parser Rel Safety Keep Limit Big BigMk BigLeaf BigSound BigComplete.
From Verif Require Import SpecPeg Leaf PegSound.
Import ListNotations.

(** ** The reading is unique *)

Lemma app_eq_len {A} (a b c d : list A) : a ++ b = c ++ d -> length a = length c -> b = d.
Proof.
  revert c. induction a as [|x a IH]; intros [|y c]; cbn; try discriminate; auto.
  intros E L. injection E as -> E. injection L as L. now apply (IH c).
Qed.

Lemma m_det env ws g s r1 : m env ws g s r1 -> forall r2, m env ws g s r2 -> r1 = r2.
Proof.
  induction 1; intros r2 H'; inversion H'; subst;
    try match goal with
    | E : env ?i = Some ?a, E' : env ?i = Some ?b |- _ => assert (b = a) by congruence; subst
    end;
    repeat match goal with
    | IH : forall r, m _ ?w ?g ?s r -> _ = r, H : m _ ?w ?g ?s _ |- _ =>
        let E := fresh in pose proof (IH _ H) as E;
        match type of E with ?a = ?a => fail 1 | _ => idtac end; clear IH;
        first [discriminate E | injection E as <- | idtac]
    end; try congruence; try contradiction;
    try (exfalso; eauto; fail).
  - exfalso. match goal with H : forall y t, _ -> ~ _ |- _ => eapply H; eassumption end.
  - exfalso. match goal with H : forall y t, _ -> ~ _ |- _ => eapply H; eassumption end.
  - f_equal. eapply app_inv_head. etransitivity; [symmetry|]; eassumption.
  - match goal with
    | E : trim ws s = k ++ t, E' : trim ws s = ?k' ++ ?t', I : In (k, _) e, I' : In (?k', _) e |- _ =>
        assert (length k = length k') by (apply Nat.le_antisymm; eauto);
        f_equal; eapply app_eq_len; [|eassumption]; congruence
    end.
  - exfalso. match goal with H : forall k v t, _ -> ~ _ |- _ => eapply H; eassumption end.
  - exfalso. match goal with H : forall k v t, _ -> ~ _ |- _ => eapply H; eassumption end.
Qed.

(** ** Coming to an end *)

Definition live {X} (f : nat -> outcome X) : Prop := exists n0, forall n, n0 <= n -> f n <> Err EFuel.
Definition quiet {S A} (k : M S A) : Prop := forall w, k w <> Err EFuel.

Lemma live_shift {X} (f : nat -> outcome X) : live (fun n => f (S n)) -> live f.
Proof. intros [n0 H]. exists (S n0). intros [|n] Hn; [lia|]. apply H. lia. Qed.
Lemma live_unshift {X} (f : nat -> outcome X) : live f -> live (fun n => f (S n)).
Proof. intros [n0 H]. exists n0. intros n Hn. apply H. lia. Qed.
Lemma live_const {X} (o : outcome X) : o <> Err EFuel -> live (fun _ => o).
Proof. exists 0. auto. Qed.
Lemma live_ext {X} (f g : nat -> outcome X) : (forall n, f n = g n) -> live f -> live g.
Proof. intros E [n0 H]. exists n0. intros n Hn. rewrite <- E. auto. Qed.
Lemma live_evt {X} (f : nat -> outcome X) o : evt f o -> o <> Err EFuel -> live f.
Proof. intros [n0 H] Ho. exists n0. intros n Hn. now rewrite H. Qed.

Lemma live_bind {S A B} (F : nat -> M S A) (K : nat -> A -> M S B) w :
  Mono F -> live (fun n => F n w) ->
  (forall n a w', F n w = Done (a, w') -> live (fun n => K n a w')) ->
  live (fun n => bind (F n) (K n) w).
Proof.
  intros HM [n0 H] HK. pose proof (H n0 (le_n _)) as H0.
  destruct (F n0 w) as [[a w']|e] eqn:E.
  - destruct (HK _ _ _ E) as [n1 H1]. exists (max n0 n1). intros n Hn. unfold bind.
    rewrite (mono_lim (fun n => F n w) n0 _ (Mono_mono _ _ HM) E) by (try discriminate; lia). apply H1. lia.
  - exists n0. intros n Hn. unfold bind.
    rewrite (mono_lim (fun n => F n w) n0 _ (Mono_mono _ _ HM) E) by (auto; lia). congruence.
Qed.

Lemma live_with_cell {S A} v (F : nat -> nat -> M S A) s cs tr :
  live (fun n => F n (length cs) (World s (cs ++ [v]) tr)) ->
  live (fun n => with_cell v (F n) (World s cs tr)).
Proof.
  intros [n0 H]. exists n0. intros n Hn. specialize (H n Hn). unfold with_cell. cbn [w_cells w_src w_trace].
  destruct (F n (length cs) _) as [[a w']|]; [|congruence]. destruct (nth_error _ _); discriminate.
Qed.

(** ** What never asks for fuel *)

Lemma quiet_ret {S A} (a : A) : quiet (@ret S A a). Proof. intros w. discriminate. Qed.
Lemma quiet_bind {S A B} (k : M S A) (f : A -> M S B) : quiet k -> (forall a, quiet (f a)) -> quiet (bind k f).
Proof. intros H1 H2 w. unfold bind. specialize (H1 w). destruct (k w) as [[a w']|]; [apply H2|congruence]. Qed.

Definition nf {X} (o : outcome X) : Prop := o <> Err EFuel.
Lemma nf_done {X} (a : X) : nf (Done a). Proof. discriminate. Qed.
Lemma nf_bind {X Y} (o : outcome X) (f : X -> outcome Y) : nf o -> (forall a, nf (f a)) -> nf (obind o f).
Proof. destruct o; cbn; unfold nf; auto. congruence. Qed.
Lemma nf_opt {X} (o : option X) : nf (of_option EShape o). Proof. destruct o; discriminate. Qed.
Lemma nf_get_path p : forall v, nf (get_path v p).
Proof. induction p as [|i p IH]; intros v; cbn; [discriminate|]. destruct v; try discriminate. destruct (nth_error l i); [apply IH|discriminate]. Qed.
Lemma nf_set_path x p : forall v, nf (set_path v p x).
Proof.
  induction p as [|i p IH]; intros v; cbn; [discriminate|]. destruct v; try discriminate.
  destruct (nth_error l i); [|discriminate]. apply nf_bind; [apply IH|discriminate].
Qed.
Lemma nf_load cs d : nf (load cs d).
Proof. destruct d; cbn; [discriminate|]. apply nf_bind; [apply nf_opt|intros; apply nf_get_path]. Qed.
Lemma nf_store cs d x : nf (store cs d x).
Proof.
  destruct d; cbn; [discriminate|]. apply nf_bind; [apply nf_opt|]. intros v.
  apply nf_bind; [apply nf_set_path|discriminate].
Qed.
Lemma nf_conv t v : nf (conv t v).
Proof. destruct t, v; cbn -[has_ty]; try discriminate; destruct (has_ty _ _); discriminate. Qed.
Lemma nf_arith s b z : nf (arith s b z).
Proof. unfold arith. destruct (s && _); [destruct (in_range s b z)|]; discriminate. Qed.
Lemma nf_assign cs d v : nf (assign cs d v).
Proof.
  destruct d as [|l p t]; cbn -[load store conv]; [discriminate|].
  destruct t; apply nf_bind; auto using nf_conv, nf_store.
  intros x. apply nf_bind; [apply nf_load|]. intros [| | |l0| |]; try discriminate. apply nf_store.
Qed.
Lemma nf_zero cs d : nf (num_zero cs d).
Proof. destruct d as [|l p t]; cbn -[store]; [discriminate|]. destruct t; try discriminate. apply nf_store. Qed.
Lemma nf_num f cs d : nf (num_op f cs d).
Proof.
  destruct d as [|l p t]; cbn -[load store]; [discriminate|]. destruct t; try discriminate.
  apply nf_bind; [apply nf_load|]. intros [| |z| | |]; try discriminate.
  apply nf_bind; [apply nf_arith|]. intros; apply nf_store.
Qed.
Lemma nf_make t v : nf (make_from t v).
Proof.
  destruct v; cbn -[conv]; try discriminate. destruct t; try discriminate; try apply nf_conv.
  - destruct l as [|? [|? ?]]; discriminate.
  - destruct l as [|? [|? ?]]; try discriminate. apply nf_conv.
Qed.

Lemma quiet_assign {S} d v : quiet (@m_assign S d v).
Proof. intros w. unfold m_assign, on_cells. pose proof (nf_assign (w_cells w) d v). destruct (assign _ _ _); [discriminate|]. unfold nf in *. congruence. Qed.
Lemma quiet_commit : quiet (m_commit sf_ops).
Proof. intros [[s [|y t]] cs tr]; discriminate. Qed.
Lemma quiet_cancel : quiet (m_cancel sf_ops).
Proof. intros [[s [|y t]] cs tr]; discriminate. Qed.
Lemma quiet_act {S} a v d c : quiet (@act_dispatch S a v d c).
Proof.
  unfold act_dispatch. pose proof (nf_conv (ac_land a) v) as H. destruct (conv _ _) as [v'|]; [|intros w; unfold raise, nf in *; congruence].
  intros w. assert (nf (if ac_param a then load (w_cells w) (c_bound c) else Done VNil)) as H1.
  { destruct (ac_param a); [apply nf_load|discriminate]. }
  destruct (if ac_param a then _ else _) as [b|]; [|unfold nf in *; congruence].
  destruct (ac_fun a v' b) as [r b'].
  match goal with |- match ?o with _ => _ end <> _ => assert (nf o) as H2 end.
  { destruct (ac_param a); [|discriminate]. destruct (c_bound c); [discriminate|].
    destruct (has_ty t b'); [apply nf_store|discriminate]. }
  match goal with |- match ?o with _ => _ end <> _ => destruct o end; [|unfold nf in *; congruence].
  destruct (ac_void a); [discriminate|]. apply quiet_assign.
Qed.

Lemma nf_uint b lo hi d : forall s cnt cs, nf (uint_run b lo hi d cnt cs s).
Proof.
  induction s as [|x t IH]; intros cnt cs; cbn [uint_run]; [discriminate|].
  destruct (digit_valid b x); [|discriminate].
  apply nf_bind; [apply nf_num|]. intros c1. apply nf_bind; [apply nf_num|]. intros c2.
  destruct (cnt + 1 =? hi)%Z; [discriminate|apply IH].
Qed.
Lemma nf_int b lo hi d s cs : nf (int_run b lo hi d cs s).
Proof.
  unfold int_run. destruct (match s with [] => _ | _ => _ end) as [ng s1].
  apply nf_bind; [apply nf_uint|]. intros [[r s2] c2].
  apply nf_bind; [|discriminate]. unfold neg_cells. destruct ng; [apply nf_num|discriminate].
Qed.
Lemma nf_sym_end d v k cs s : nf (sym_end d v k cs s).
Proof.
  destruct v as [n|]; cbn; [|discriminate]. apply nf_bind; [apply nf_opt|]. intros x.
  apply nf_bind; [apply nf_assign|discriminate].
Qed.
Lemma nf_sym d : forall s nx v k cs, nf (sym_run d nx v k cs s).
Proof.
  induction s as [|x t IH]; intros nx v k cs; cbn [sym_run]; [apply nf_sym_end|].
  destruct (assoc x (trie_child nx)); [|apply nf_sym_end]. destruct (trie_val t0); [|apply IH].
  destruct (trie_child t0); [|apply IH]. apply nf_bind; [apply nf_assign|discriminate].
Qed.

Lemma nf_seq_dst l i d : nf (seq_dst l i d).
Proof.
  unfold seq_dst. repeat (match goal with |- nf (match ?x with _ => _ end) => destruct x end; try discriminate).
Qed.

Definition nfm (f : mk_ty) : Prop := forall cs, nf (f cs).
Lemma nfm_map k f : nfm f -> nfm (mk_map k f).
Proof. intros H cs. unfold mk_map. specialize (H cs). destruct (f cs) as [[a c]|]; [discriminate|]. unfold nf in *; congruence. Qed.
Lemma nfm_cell v k f : (forall l, nfm (f l)) -> nfm (mk_cell v k f).
Proof.
  intros H cs. unfold mk_cell. specialize (H (length cs) (cs ++ [v])). destruct (f _ _) as [[a c]|].
  - destruct (nth_error _ _); discriminate.
  - unfold nf in *; congruence.
Qed.
Lemma nfm_ret a : nfm (mk_ret a). Proof. intros cs. discriminate. Qed.
Lemma nfm_zero d a : nfm (fun cs => match num_zero cs d with Done c => Done (a, c) | Err e => Err e end).
Proof. intros cs. pose proof (nf_zero cs d). destruct (num_zero cs d); [discriminate|]. unfold nf in *; congruence. Qed.
Lemma nfm_adapt sk rq d p raw : (forall rq d, nfm (raw rq d)) -> nfm (mk_adapt sk rq d p raw).
Proof.
  intros H. unfold mk_adapt. destruct (r_recur rq); auto.
  assert (forall rq, nfm (mk_atm_of rq d p raw)) as HA.
  { intros rq'. unfold mk_atm_of. destruct (wants_atomic rq' p); auto. apply nfm_cell. auto. }
  assert (nfm (mk_cln_of rq d p raw)) as HC.
  { unfold mk_cln_of. destruct (wants_clean rq p); auto. apply nfm_map. auto. }
  destruct sk; auto. now apply nfm_map.
Qed.
Lemma nfm_in p : forall sk rq d, nfm (mk_in sk rq d p).
Proof.
  induction p using pat_ind'; intros sk rq d; cbn [mk_in]; apply nfm_adapt; intros rq' d';
    auto using nfm_ret, nfm_map, nfm_cell, nfm_zero.
  - intros cs. destruct (r_consumes rq'); discriminate.
  - destruct l as [|q l]; [intros cs; discriminate|]. pose proof (nf_seq_dst (q :: l) 0 d') as HS.
    destruct (seq_dst _ _ _); [|intros cs; unfold nf in *; congruence]. inversion H; subst. apply nfm_map; auto.
  - destruct l as [|q l]; [intros cs; discriminate|]. inversion H; subst. apply nfm_map; auto.
  - intros cs. destruct (r_consumes rq' && (lo =? 0)); [discriminate|]. apply nfm_map; auto.
Qed.

Lemma quiet_create c rq d p s stk cs tr : cok c = true -> skips_ok p = true ->
  create sf_ops c rq d p (W s stk cs tr) <> Err EFuel.
Proof.
  intros Hc Hp. rewrite create_mk by auto. pose proof (nfm_in p (sk_of (c_skip c)) rq d cs) as H. unfold mk.
  destruct (mk_in _ _ _ _ cs) as [[a c1]|]; [discriminate|]. unfold nf in *; congruence.
Qed.

(** ** The machine *)

Section Term.
Context (env : nat -> option pat) (T : char_ty).
Hypothesis HT : ct_ok T.
Hypothesis Henv : forall id q, env id = Some q -> peg_ok T true recur_req q = true.
Hypothesis Hmok : forall id q, env id = Some q -> mok true recur_req q = true.
Notation consume := (consume sf_ops env).
Notation gconsume := (gconsume env).
Notation m := (m env).

(** [p] at this stage comes to an end where the grammar is at [u]. *)
Definition LV (g : stage) (ws : gap) (p : pat) (u : list Z) : Prop :=
  forall h sk c rq d x s base cs0 cs1 tr st,
  cok c = true -> gok h g rq p = true ->
  skips T c ws -> (sk = false -> ws = nows) -> spok T sk g rq p ->
  Forall (tok T) x -> Forall (tok T) s -> Forall (tok T) (gmark g x) ->
  (smk0 g rq p = true \/ eqt ws x s) -> strimmed ws g rq p s -> eqt ws u s ->
  mkg g c rq d p cs0 = Done (st, cs1) ->
  live (fun n => gconsume n g c rq d p st (W s (gstk g x st base) cs1 tr)).

(** What a child that has come to an end has done. *)
Lemma after n h sk c rq d p x s base cs0 cs1 tr st ws u r st' w' :
  cok c = true -> mok h rq p = true ->
  skips T c ws -> (sk = false -> ws = nows) -> spok T sk GRun rq p ->
  Forall (tok T) x -> Forall (tok T) s ->
  (mk0 rq p = true \/ eqt ws x s) -> (r_recur rq = true -> trim ws s = s) -> eqt ws u s ->
  mk c rq d p cs0 = Done (st, cs1) ->
  consume n c rq d p st (W s (repeat x (owed st) ++ base) cs1 tr) = Done ((r, st'), w') ->
  exists b s' cs' tr' lk, r = res b /\ w' = W s' (lk ++ base) cs' tr' /\ (h = true -> lk = []) /\
    Forall (tok T) s' /\ (forall r0, m ws (One p) u r0 -> related ws r0 b s') /\
    (b = false -> r_clean rq = true -> eqt ws s' s).
Proof.
  intros Hc Hp Hsk Hnw Hok Tx Ts Hx Ht Hu Hk H.
  destruct (sound env Hmok n h c rq d p st x cs0 cs1 base s tr r st' w' Hc Hp Hk H)
    as (b & s' & cs' & tr' & lk & -> & -> & Hlk & Hev).
  exists b, s', cs', tr', lk. repeat (split; [auto; reflexivity|]).
  pose proof (toks_ev env T _ _ _ _ _ _ _ _ _ Hev Tx Ts Tx) as T'. split; [exact T'|].
  destruct (sound_all env T HT Henv _ _ _ _ _ _ _ _ _ Hev ws sk u x) as [(r1 & HJ & HR) HC];
    cbn [spok gmark smk0 strimmed q_s]; auto with eqt.
  split; [|exact HC]. intros r0 Hr0. cbn [J] in HJ. now rewrite (m_det _ _ _ _ _ Hr0 _ HJ).
Qed.

Lemma mono_c c rq d p st : Mono (fun n => consume n c rq d p st).
Proof. apply Mono_consume. Qed.

(** Adapters. *)
Lemma live_atm ws p u : LV GRaw ws p u -> LV GAtm ws p u.
Proof.
  intros HR h sk c rq d x s base cs0 cs1 tr st Hc Hg Hsk Hnw Hok Tx Ts Tg Hx Ht Hu Hk.
  cbn [mkg gok spok smk0 strimmed gmark] in *. destruct Hok as [Hok Hr].
  unfold mk_atm, mk_atm_of, atm_req, areq in *. destruct (wants_atomic rq p) eqn:Ew.
  - apply mk_cell_inv in Hk; [|intros; apply lenp_raw]. destruct Hk as (a & v1 & -> & Hk & HL).
    cbn [BigSound.gconsume gstk owed]. apply live_shift. cbn [Parser.consume consume_step]. unfold atomic_consume.
    apply live_bind.
    + apply Mono_with_cell. intros l. apply mono_c.
    + apply live_with_cell. rewrite HL.
      eapply (HR h sk c (unatomic_req rq)); eauto; cbn; auto. split; auto. discriminate.
    + intros n [[r a'] v'] w' _. apply live_const. destruct r; try discriminate.
      apply quiet_bind; [apply quiet_assign|intros; apply quiet_ret].
  - eapply (HR h sk c rq); eauto. cbn. split; auto. congruence.
Qed.

Lemma live_cln ws p u : LV GAtm ws p u -> LV GCln ws p u.
Proof.
  intros HR h sk c rq d x s base cs0 cs1 tr st Hc Hg Hsk Hnw Hok Tx Ts Tg Hx Ht Hu Hk.
  cbn [mkg gok spok smk0 strimmed gmark] in *. destruct Hok as [Hok Hr].
  apply andb_prop in Hg. destruct Hg as [_ Hg]. rewrite mok_eq, Hr in Hg. cbn [negb andb] in Hg.
  rewrite peg_ok_eq in Hok. unfold mk_cln, mk_cln_of in Hk. destruct (wants_clean rq p) eqn:Ew.
  - rewrite (raw_clean _ _ Hr Ew) in *. rewrite orb_true_r in Hg. cbn [negb andb] in Hx.
    destruct Hx as [Hx|Hx]; [discriminate|].
    apply mk_map_inv in Hk. destruct Hk as (a & -> & Hk).
    cbn [BigSound.gconsume gstk owed repeat app]. rewrite repeat_mid. apply live_shift.
    cbn [Parser.consume consume_step]. unfold clean_consume.
    apply live_bind; [apply mono_c| |].
    + eapply (HR true sk c (unclean_req rq) d x s (x :: base)); eauto; cbn; auto.
    + intros n [r a'] w' _. apply live_const. cbn [fst snd]. destruct r; try discriminate;
        apply quiet_bind; auto using quiet_commit, quiet_cancel; intros; apply quiet_ret.
  - rewrite (raw_noclean _ _ Hr Ew) in *. rewrite orb_false_r in Hg. cbn [negb andb] in Hx.
    eapply (HR h sk c rq); eauto; cbn; auto.
Qed.

Lemma live_skip ws p u : LV GCln ws p u ->
  forall h sk c rq d x s base cs0 cs1 tr st,
  is_fail (c_skip c) = false ->
  cok c = true -> gok h GSkip rq p = true ->
  skips T c ws -> (sk = false -> ws = nows) -> spok T sk GSkip rq p ->
  Forall (tok T) x -> Forall (tok T) s ->
  (smk0 GSkip rq p = true \/ eqt ws x s) -> eqt ws u s ->
  mkg GSkip c rq d p cs0 = Done (st, cs1) ->
  live (fun n => gconsume n GSkip c rq d p st (W s (gstk GSkip x st base) cs1 tr)).
Proof.
  intros HR h sk c rq d x s base cs0 cs1 tr st Hf0 Hc Hg Hsk Hnw Hok Tx Ts Hx Hu Hk.
  cbn [mkg] in Hk. apply mk_map_inv in Hk. destruct Hk as (a & -> & Hk).
  assert (sfree (c_skip c) = true) as Hf by (unfold cok in Hc; now rewrite Hf0 in Hc).
  cbn [BigSound.gconsume gstk owed]. rewrite (proj2 (makes_skip _ Hf)). cbn [plus].
  revert Ts Hx Hu. induction s as [s IH] using (induction_ltof1 _ (@length Z)). unfold ltof in IH. intros Ts Hx Hu.
  apply live_shift. cbn [Parser.consume consume_step]. unfold skip_consume.
  pose proof (skip_leaf env (c_skip c) (repeat x (owed a) ++ base) cs1 tr Hf s) as HE.
  apply live_bind; [apply mono_c| |].
  - destruct HE as [n0 HE]. exists n0. intros n Hn E. specialize (HE n Hn). rewrite E in HE.
    unfold skip_out in HE. destruct (skip1 _ _); discriminate.
  - intros n [r s0] w' E. apply (evt_det env _ _ _ _ _ _ _ _ _ _ _ E) in HE. unfold skip_out in HE.
    destruct (skip1 (c_skip c) s) as [t|] eqn:Es; injection HE as <- <-; cbn [fst snd].
    + pose proof (eqt_sym _ _ _ (skips_more _ _ _ _ _ Hsk Ts Es)) as Et. pose proof (skips_less _ _ _ _ _ Hsk Ts Es) as Hlt.
      assert (Forall (tok T) t) as Tt by (apply skip1_suffix in Es; destruct Es as [k0 ->]; eapply suffix_of; eauto).
      apply (live_ext (fun n => consume n c rq d p (PSkip false (skip_st (c_skip c)) a) (W t (repeat x (owed a) ++ base) cs1 tr))).
      * intros k. unfold bind, create. change (mk_skip_of sf_ops skip_ctx) with (@None (M sfwd pst)).
        rewrite (proj1 (makes_skip _ Hf)). cbn [mk_ret]. now rewrite (proj2 (makes_skip _ Hf)).
      * apply IH; [exact Hlt|exact Tt| |eauto with eqt]. destruct Hx; eauto with eqt.
    + apply live_shift. cbn [Parser.consume consume_step]. unfold skip_consume.
      apply live_bind; [apply mono_c| |intros; apply live_const; discriminate].
      eapply (HR h sk c rq d x s base cs0 cs1 tr a); eauto.
      * cbn [smk0] in *. destruct Hx as [Hx|]; auto. left. destruct Hok as [_ Hr].
        rewrite mk0_eq, Hr in Hx. cbn [orb] in Hx. destruct (wants_clean rq p) eqn:Ew; [discriminate|].
        now rewrite (raw_noclean _ _ Hr Ew) in Hx.
      * cbn. now apply (skips_end T c).
Qed.

Lemma live_run ws p u : LV GRaw ws p u -> LV GRun ws p u.
Proof.
  intros HR h sk c rq d x s base cs0 cs1 tr st Hc Hg Hsk Hnw Hok Tx Ts Tg Hx Ht Hu Hk.
  cbn [mkg gok spok smk0 strimmed gmark] in *. destruct Hok as [Hok Hr].
  unfold mk in Hk. rewrite mk_in_eq in Hk. unfold mk_adapt in Hk. destruct (r_recur rq) eqn:Er.
  - eapply (HR h sk c rq); eauto; cbn.
    + rewrite mok_eq in Hg. unfold raw_req in Hg. rewrite Er in Hg. cbn in Hg. now rewrite orb_false_r in Hg.
    + split; auto. rewrite peg_ok_eq in Hok. unfold raw_req in Hok. now rewrite Er in Hok.
    + destruct Hx as [Hx|]; auto. left. rewrite mk0_eq in Hx. unfold raw_req in Hx. now rewrite Er in Hx.
    + auto.
  - apply live_atm, live_cln in HR. unfold sk_of in Hk. destruct (is_fail (c_skip c)) eqn:Ef.
    + eapply (HR h sk c rq); eauto; cbn.
      * now rewrite Er, Hg.
      * auto.
      * destruct Hx as [Hx|]; auto. left. rewrite mk0_eq, Er in Hx. cbn in Hx.
        destruct (wants_clean rq p) eqn:Ew; [discriminate|]. now rewrite (raw_noclean _ _ Er Ew) in Hx.
      * unfold skips in Hsk. rewrite Ef in Hsk. subst. apply trim_nows.
      * unfold mk_cln, sk_of. rewrite Ef. exact Hk.
    + assert (gstk GRun x st base = gstk GSkip x st base) as -> by reflexivity.
      eapply (live_skip _ _ _ HR h sk c rq); eauto; cbn.
      * now rewrite Er, Hg.
      * auto.
      * unfold mk_cln, sk_of. rewrite Ef. exact Hk.
Qed.

Definition LG (ws : gap) (g : goal) (u : list Z) : Prop :=
  match g with
  | One p => LV GRun ws p u
  | All l' => forall l i, skipn i l = l' -> LV (GSeq i) ws (Seq l) u
  | Any l' => forall l i, skipn i l = l' -> LV (GAlt i) ws (Alt l) u
  | Times lo hi n p => LV (GRep n) ws (Repeat lo hi p) u
  | More p sep => forall mm, LV (GSep mm) ws (PList p sep) u
  end.

Ltac pre := intros h sk c rq d x s base cs0 cs1 tr st Hc Hg Hsk Hnw Hok Tx Ts Tg Hx Ht Hu Hk;
  cbn [mkg gok mokr spok pokr smk0 mk0r strimmed gmark mk_raw] in *.

Lemma live_strip c rq d p st w o :
  evt (fun n => strip (consume n c rq d p st w)) o -> o <> Err EFuel -> live (fun n => consume n c rq d p st w).
Proof. intros [n0 H] Ho. exists n0. intros n Hn E. specialize (H n Hn). rewrite E in H. cbn in H. congruence. Qed.

Lemma nf_out {X Y} (o : outcome X) (f : X -> Y) : nf o -> obind o (fun x => Done (f x)) <> Err EFuel.
Proof. intros H. apply nf_bind; auto. discriminate. Qed.

Lemma live_leaf ws p u :
  match p with Char _ | Eoi | Pass | Fail | Lit _ | Symbol _ | UInt _ _ _ | Int _ _ _ => True | _ => False end ->
  LV GRun ws p u.
Proof.
  intros Hp. apply live_run. pre. destruct p; try contradiction; cbn [BigSound.gconsume gstk].
  - injection Hk as <- <-. exists 1. intros [|n] Hn; [lia|]. cbn [owed repeat app Parser.consume consume_step].
    unfold char_consume, starved, bind. destruct s as [|y t]; cbn; [discriminate|].
    destruct (is_valid s0 y); cbn; [|discriminate]. unfold m_assign, on_cells. cbn.
    pose proof (nf_assign cs0 d (VNum y)) as HN. destruct (assign _ _ _); [discriminate|]. unfold nf in HN; congruence.
  - injection Hk as <- <-. exists 1. intros [|n] Hn; [lia|]. cbn [owed repeat app Parser.consume consume_step].
    unfold eoi_consume, bind. destruct s; discriminate.
  - cbn in Hk. destruct (r_consumes rq); [discriminate Hk|]. injection Hk as <- <-. exists 1. intros [|n] Hn; [lia|]. discriminate.
  - injection Hk as <- <-. exists 1. intros [|n] Hn; [lia|]. discriminate.
  - injection Hk as <- <-. eapply live_strip; [apply lit_leaf|]. destruct (lit_run _ _). discriminate.
  - injection Hk as <- <-. cbn [owed repeat app]. eapply live_strip; [apply (sym_leaf env c rq d _ base tr cs0 s _ None [])|].
    apply nf_bind; [apply nf_sym|]. intros [[? ?] ?]. discriminate.
  - cbn in Hk. destruct (num_zero cs0 d); [|discriminate Hk]. injection Hk as <- <-. eapply live_strip; [apply uint_leaf|].
    apply nf_bind; [apply nf_uint|]. intros [[? ?] ?]. discriminate.
  - cbn in Hk. destruct (num_zero cs0 d); [|discriminate Hk]. injection Hk as <- <-. eapply live_strip; [apply int_leaf|].
    apply nf_bind; [apply nf_int|]. intros [[? ?] ?]. discriminate.
Qed.

(** Creating the next child and running it. *)
Lemma live_next h c rq d q s base cs tr (K : nat -> pst -> M sfwd (result * pst)) :
  cok c = true -> mok h rq q = true ->
  (forall st cs1, mk c rq d q cs = Done (st, cs1) ->
     live (fun n => K n st (W s (repeat s (owed st) ++ base) cs1 tr))) ->
  live (fun n => bind (create sf_ops c rq d q) (K n) (W s base cs tr)).
Proof.
  intros Hc Hp HK. apply (live_bind (fun _ => create sf_ops c rq d q)).
  - apply Mono_const.
  - apply live_const. apply quiet_create; auto. now apply mok_skips in Hp.
  - intros _ a w' E. apply create_inv in E; auto; [|now apply mok_skips in Hp].
    destruct E as (cs1 & Hk & ->). auto.
Qed.

Ltac ok := cbn [spok smk0 strimmed gmark gok mkg]; auto with eqt.
Ltac hyp := first [assumption | split; [assumption|discriminate] | discriminate | ok].

(** A child in a context that is passed on. *)
Lemma child ws q u (HL : LV GRun ws q u) h sk c rq d x s base cs0 cs1 tr st :
  cok c = true -> mok h rq q = true -> skips T c ws -> (sk = false -> ws = nows) ->
  peg_ok T sk rq q = true -> (r_recur rq = true -> rq = recur_req /\ trim ws s = s) ->
  Forall (tok T) x -> Forall (tok T) s ->
  (mk0 rq q = true \/ eqt ws x s) -> eqt ws u s ->
  mk c rq d q cs0 = Done (st, cs1) ->
  live (fun n => consume n c rq d q st (W s (repeat x (owed st) ++ base) cs1 tr)) /\
  forall n r st' w',
    consume n c rq d q st (W s (repeat x (owed st) ++ base) cs1 tr) = Done ((r, st'), w') ->
    exists b s' cs' tr' lk, r = res b /\ w' = W s' (lk ++ base) cs' tr' /\ (h = true -> lk = []) /\
      Forall (tok T) s' /\ (forall r0, m ws (One q) u r0 -> related ws r0 b s') /\
      (b = false -> r_clean rq = true -> eqt ws s' s).
Proof.
  intros Hc Hp Hsk Hnw Hok Hr Tx Ts Hx Hu Hk. split.
  - apply (HL h sk c rq d x s base cs0 cs1 tr st); ok; [split; [auto|]|]; intros E; apply (Hr E).
  - intros n r st' w' E. eapply (after n h sk c rq d q x s base cs0 cs1 tr st); eauto; ok.
    + split; [auto|]. intros E'. apply (Hr E').
    + intros E'. apply (Hr E').
Qed.

Lemma skipn_step {A} (l : list A) i q l' : skipn i l = q :: l' -> nth_error l i = Some q /\ skipn (S i) l = l'.
Proof.
  revert l. induction i as [|i IH]; intros [|y l] E; try discriminate.
  - cbn in E. injection E as -> ->. split; reflexivity.
  - cbn in E |- *. now apply IH.
Qed.

Hint Extern 1 (_ /\ _) => match goal with H : r_recur _ = true |- _ => discriminate H end : core.

Ltac pre0 := intros h sk c rq d x s0 base cs0 cs1 tr st Hc Hg Hsk Hnw Hok Tx Ts Tg Hx Ht Hu Hk;
  cbn [mkg gok mokr spok pokr smk0 mk0r strimmed gmark mk_raw] in *.

Theorem live_all ws g u r : m ws g u r -> LG ws g u.
Proof.
  induction 1; cbn [LG] in *; try (apply live_leaf; exact I).
  - (* Seq *)
    apply live_run. specialize (IHm l 0 eq_refl). pre0. destruct l as [|q l]; [discriminate|].
    destruct (seq_dst (q :: l) 0 d) as [di|] eqn:Ed; [|discriminate].
    assert (live (fun n => gconsume n (GSeq 0) c rq d (Seq (q :: l)) st (W s0 (gstk (GSeq 0) x st base) cs1 tr))) as HL.
    { eapply (IHm h sk c rq d x s0 base cs0); ok. cbn [nth_error]. rewrite Ed. exact Hk. }
    apply mk_map_inv in Hk. destruct Hk as (a & -> & Hk). destruct HL as [n0 HL].
    exists (S n0). intros [|n] Hn; [lia|]. exact (HL (S n) ltac:(lia)).
  - (* All: end *)
    intros l i Hi. pre0. destruct (nth_error l i) eqn:En; [|discriminate].
    apply skipn_cons in En. rewrite Hi in En. discriminate.
  - (* All: failure *)
    intros l0 i Hi. destruct (skipn_step _ _ _ _ Hi) as [Hn Hi']. pre0. rewrite Hn in *.
    destruct (seq_dst l0 i d) as [di|] eqn:Ed; [|discriminate]. apply mk_map_inv in Hk. destruct Hk as (a & -> & Hk).
    destruct Hok as [Hok Hr]. rewrite forallb_forall in Hg, Hok. apply nth_error_In in Hn as Hin.
    destruct (child ws p s IHm h sk c seq_req di x s0 base cs0 cs1 tr a) as [L A]; auto.
    apply live_shift. cbn [BigSound.gconsume gstk owed]. rewrite Hi.
    destruct l; cbn [seq_from]; rewrite Ed; (apply live_bind; [apply mono_c|exact L|]);
      intros n [r st'] w' E; destruct (A _ _ _ _ E) as (b & s' & cs' & tr' & lk & -> & -> & Hlk & T' & HR & HC);
      specialize (HR _ H); destruct b; cbn [related] in HR; try contradiction; cbn [fst snd res]; apply live_const; discriminate.
  - (* All: next *)
    intros l0 i Hi. destruct (skipn_step _ _ _ _ Hi) as [Hn Hi']. specialize (IHm2 l0 (S i) Hi'). pre0. rewrite Hn in *.
    destruct (seq_dst l0 i d) as [di|] eqn:Ed; [|discriminate]. apply mk_map_inv in Hk. destruct Hk as (a & -> & Hk).
    assert (Hg' := Hg). assert (Hok' := Hok).
    destruct Hok as [Hok Hr]. rewrite forallb_forall in Hg, Hok. apply nth_error_In in Hn as Hin.
    destruct (child ws p s IHm1 h sk c seq_req di x s0 base cs0 cs1 tr a) as [L A]; auto.
    apply live_shift. cbn [BigSound.gconsume gstk owed]. rewrite Hi.
    destruct l as [|q l]; cbn [seq_from]; rewrite Ed; (apply live_bind; [apply mono_c|exact L|]);
      intros n [r0 st'] w' E; destruct (A _ _ _ _ E) as (b & s' & cs' & tr' & lk & -> & -> & Hlk & T' & HR & HC);
      specialize (HR _ H); destruct b; cbn [related] in HR; try contradiction; cbn [fst snd res];
      [apply live_const; discriminate|].
    destruct (skipn_step _ _ _ _ Hi') as [Hn' _]. apply nth_error_In in Hn' as Hin'.
    destruct (seq_dst l0 (S i) d) as [di'|] eqn:Ed'.
    2:{ apply live_const. pose proof (nf_seq_dst l0 (S i) d) as HN. rewrite Ed' in HN. unfold nf, raise in *. congruence. }
    apply (live_next h); auto. intros st2 cs2 Hk2.
    assert (live (fun n => gconsume n (GSeq (S i)) c rq d (Seq l0) (PNary (S i) st2)
              (W s' (gstk (GSeq (S i)) s' (PNary (S i) st2) (lk ++ base)) cs2 tr'))) as HL.
    { apply (IHm2 h sk c rq d s' s' (lk ++ base) cs' cs2 tr' (PNary (S i) st2)); ok.
      rewrite Hn', Ed'. now apply mk_map_done. }
    apply live_unshift in HL. cbn [BigSound.gconsume gstk owed] in HL. rewrite Hi' in HL. exact HL.
  - (* Alt *)
    apply live_run. specialize (IHm l 0 eq_refl). pre0. destruct l as [|q l]; [discriminate|].
    assert (live (fun n => gconsume n (GAlt 0) c rq d (Alt (q :: l)) st (W s0 (gstk (GAlt 0) x st base) cs1 tr))) as HL.
    { eapply (IHm h sk c rq d x s0 base cs0); ok. }
    apply mk_map_inv in Hk. destruct Hk as (a & -> & Hk). destruct HL as [n0 HL].
    exists (S n0). intros [|n] Hn; [lia|]. exact (HL (S n) ltac:(lia)).
  - (* Any: end *)
    intros l i Hi. pre0. destruct (nth_error l i) eqn:En; [|discriminate].
    apply skipn_cons in En. rewrite Hi in En. discriminate.
  - (* Any: match *)
    intros l0 i Hi. destruct (skipn_step _ _ _ _ Hi) as [Hn Hi']. pre0. rewrite Hn in *.
    apply mk_map_inv in Hk. destruct Hk as (a & -> & Hk).
    destruct Hok as [Hok Hr]. rewrite forallb_forall in Hg, Hok. apply nth_error_In in Hn as Hin.
    destruct (child ws p s IHm h sk c (alt_req rq) d x s0 base cs0 cs1 tr a) as [L A]; auto.
    apply live_shift. cbn [BigSound.gconsume gstk owed]. rewrite Hi.
    destruct l; cbn [alt_from]; (apply live_bind; [apply mono_c|exact L|]);
      intros n [r st'] w' E; destruct (A _ _ _ _ E) as (b & s' & cs' & tr' & lk & -> & -> & Hlk & T' & HR & HC);
      specialize (HR _ H); destruct b; cbn [related] in HR; try contradiction; cbn [fst snd res]; apply live_const; discriminate.
  - (* Any: next *)
    intros l0 i Hi. destruct (skipn_step _ _ _ _ Hi) as [Hn Hi']. specialize (IHm2 l0 (S i) Hi'). pre0. rewrite Hn in *.
    apply mk_map_inv in Hk. destruct Hk as (a & -> & Hk).
    assert (Hg' := Hg). assert (Hok' := Hok).
    destruct Hok as [Hok Hr]. rewrite forallb_forall in Hg, Hok. apply nth_error_In in Hn as Hin.
    destruct (child ws p s IHm1 h sk c (alt_req rq) d x s0 base cs0 cs1 tr a) as [L A]; auto.
    apply live_shift. cbn [BigSound.gconsume gstk owed]. rewrite Hi.
    destruct l as [|q l]; cbn [alt_from]; (apply live_bind; [apply mono_c|exact L|]);
      intros n [r0 st'] w' E; destruct (A _ _ _ _ E) as (b & s' & cs' & tr' & lk & -> & -> & Hlk & T' & HR & HC);
      specialize (HR _ H); destruct b; cbn [related] in HR; try contradiction; cbn [fst snd res];
      [apply live_const; discriminate|].
    destruct (skipn_step _ _ _ _ Hi') as [Hn' _]. apply nth_error_In in Hn' as Hin'.
    specialize (HC eq_refl eq_refl).
    apply (live_next h); auto. intros st2 cs2 Hk2.
    assert (live (fun n => gconsume n (GAlt (S i)) c rq d (Alt l0) (PNary (S i) st2)
              (W s' (gstk (GAlt (S i)) s' (PNary (S i) st2) (lk ++ base)) cs2 tr'))) as HL.
    { apply (IHm2 h sk c rq d s' s' (lk ++ base) cs' cs2 tr' (PNary (S i) st2)); ok; [eauto with eqt|].
      rewrite Hn'. now apply mk_map_done. }
    apply live_unshift in HL. cbn [BigSound.gconsume gstk owed] in HL. rewrite Hi' in HL. exact HL.
  - (* Repeat *)
    apply live_run. pre0. destruct (r_consumes rq && (lo =? 0)); [discriminate|].
    assert (live (fun n => gconsume n (GRep 0) c rq d (Repeat lo hi p) st (W s0 (gstk (GRep 0) x st base) cs1 tr))) as HL.
    { eapply (IHm h sk c rq d x s0 base cs0); ok. cbn. lia. }
    exact HL.
  - (* Times: stop *)
    pre0. apply mk_map_inv in Hk. destruct Hk as (a & -> & Hk). destruct Hok as [Hok Hr].
    apply andb_prop in Hok. destruct Hok as [Hlh Hok].
    destruct (child ws p s IHm h sk c (repeat_req lo hi rq) d x s0 base cs0 cs1 tr a) as [L A]; auto.
    apply live_shift. cbn [BigSound.gconsume gstk owed Parser.consume consume_step]. unfold repeat_consume.
    apply live_bind; [apply mono_c|exact L|]. intros n0 [r0 st'] w' E.
    destruct (A _ _ _ _ E) as (b & s' & cs' & tr' & lk & -> & -> & Hlk & T' & HR & HC).
    specialize (HR _ H); destruct b; cbn [related] in HR; try contradiction; cbn [fst snd res]; apply live_const; discriminate.
  - (* Times: full *)
    pre0. apply mk_map_inv in Hk. destruct Hk as (a & -> & Hk). destruct Hok as [Hok Hr].
    apply andb_prop in Hok. destruct Hok as [Hlh Hok].
    destruct (child ws p s IHm h sk c (repeat_req lo hi rq) d x s0 base cs0 cs1 tr a) as [L A]; auto.
    apply live_shift. cbn [BigSound.gconsume gstk owed Parser.consume consume_step]. unfold repeat_consume.
    apply live_bind; [apply mono_c|exact L|]. intros n0 [r0 st'] w' E.
    destruct (A _ _ _ _ E) as (b & s' & cs' & tr' & lk & -> & -> & Hlk & T' & HR & HC).
    specialize (HR _ H); destruct b; cbn [related] in HR; try contradiction. cbn [fst snd res].
    rewrite <- H0, Nat.eqb_refl. cbn [negb andb Nat.eqb]. apply live_const. discriminate.
  - (* Times: more *)
    pre0. apply mk_map_inv in Hk. destruct Hk as (a & -> & Hk). assert (Hok' := Hok). destruct Hok as [Hok Hr].
    apply andb_prop in Hok. destruct Hok as [Hlh Hok].
    destruct (child ws p s IHm1 h sk c (repeat_req lo hi rq) d x s0 base cs0 cs1 tr a) as [L A]; auto.
    apply live_shift. cbn [BigSound.gconsume gstk owed Parser.consume consume_step]. unfold repeat_consume.
    apply live_bind; [apply mono_c|exact L|]. intros n0 [r0 st'] w' E.
    destruct (A _ _ _ _ E) as (b & s' & cs' & tr' & lk & -> & -> & Hlk & T' & HR & HC).
    specialize (HR _ H); destruct b; cbn [related] in HR; try contradiction. cbn [fst snd res].
    destruct (negb (hi =? 0) && (S n =? hi)); [apply live_const; discriminate|].
    apply (live_next h); auto. intros st2 cs2 Hk2.
    apply (IHm2 h sk c rq d s' s' (lk ++ base) cs' cs2 tr' (PRepeat (S n) st2)); ok; [lia|]. now apply mk_map_done.
  - (* Not *)
    apply live_run. pre0. apply mk_map_inv in Hk. destruct Hk as (a & -> & Hk). destruct Hok as [Hok Hr].
    destruct Hx as [Hx|Hx]; [discriminate|].
    destruct (child ws p s IHm true sk c (not_req rq) d x s0 (x :: base) cs0 cs1 tr a) as [L A]; auto.
    apply live_shift. cbn [BigSound.gconsume gstk owed repeat app Parser.consume consume_step]. rewrite repeat_mid.
    unfold not_consume. apply live_bind; [apply mono_c|exact L|]. intros n0 [[] st'] w' _; apply live_const; cbn [fst];
      try discriminate; apply quiet_bind; auto using quiet_commit; intros; apply quiet_ret.
  - (* Not: no match *)
    apply live_run. pre0. apply mk_map_inv in Hk. destruct Hk as (a & -> & Hk). destruct Hok as [Hok Hr].
    destruct Hx as [Hx|Hx]; [discriminate|].
    destruct (child ws p s IHm true sk c (not_req rq) d x s0 (x :: base) cs0 cs1 tr a) as [L A]; auto.
    apply live_shift. cbn [BigSound.gconsume gstk owed repeat app Parser.consume consume_step]. rewrite repeat_mid.
    unfold not_consume. apply live_bind; [apply mono_c|exact L|]. intros n0 [[] st'] w' _; apply live_const; cbn [fst];
      try discriminate; apply quiet_bind; auto using quiet_commit; intros; apply quiet_ret.
  - (* Opt *)
    apply live_run. pre0. apply mk_map_inv in Hk. destruct Hk as (a & -> & Hk). destruct Hok as [Hok Hr].
    destruct Hx as [Hx|Hx]; [discriminate|]. apply andb_prop in Hg. destruct Hg as [_ Hg].
    destruct (child ws p s IHm true sk c (opt_req rq) d x s0 (x :: base) cs0 cs1 tr a) as [L A]; auto.
    apply live_shift. cbn [BigSound.gconsume gstk owed repeat app Parser.consume consume_step]. rewrite repeat_mid.
    unfold opt_consume. apply live_bind; [apply mono_c|exact L|]. intros n0 [[] st'] w' _; apply live_const; cbn [fst];
      try discriminate; apply quiet_bind; auto using quiet_commit; intros; apply quiet_ret.
  - apply live_run. pre0. apply mk_map_inv in Hk. destruct Hk as (a & -> & Hk). destruct Hok as [Hok Hr].
    destruct Hx as [Hx|Hx]; [discriminate|]. apply andb_prop in Hg. destruct Hg as [_ Hg].
    destruct (child ws p s IHm true sk c (opt_req rq) d x s0 (x :: base) cs0 cs1 tr a) as [L A]; auto.
    apply live_shift. cbn [BigSound.gconsume gstk owed repeat app Parser.consume consume_step]. rewrite repeat_mid.
    unfold opt_consume. apply live_bind; [apply mono_c|exact L|]. intros n0 [[] st'] w' _; apply live_const; cbn [fst];
      try discriminate; apply quiet_bind; auto using quiet_commit; intros; apply quiet_ret.
  - (* Except: hit *)
    apply live_run. pre0. apply mk_map_inv in Hk. destruct Hk as (a & -> & Hk). destruct Hok as [Hok Hr].
    apply andb_prop in Hg. destruct Hg as [Hg1 Hg2]. apply andb_prop in Hok. destruct Hok as [Hok1 Hok2].
    destruct (child ws q s IHm h sk c neg_req DNil x s0 base cs0 cs1 tr a) as [L A]; auto.
    apply live_shift. cbn [BigSound.gconsume gstk owed Parser.consume consume_step]. unfold except_consume.
    apply live_bind; [apply mono_c|exact L|]. intros n0 [r0 st'] w' E.
    destruct (A _ _ _ _ E) as (b & s' & cs' & tr' & lk & -> & -> & Hlk & T' & HR & HC).
    specialize (HR _ H); destruct b; cbn [related] in HR; try contradiction; cbn [fst snd res]; apply live_const; discriminate.
  - (* Except: go *)
    apply live_run. pre0. apply mk_map_inv in Hk. destruct Hk as (a & -> & Hk). destruct Hok as [Hok Hr].
    apply andb_prop in Hg. destruct Hg as [Hg1 Hg2]. apply andb_prop in Hok. destruct Hok as [Hok1 Hok2].
    destruct (child ws q s IHm1 h sk c neg_req DNil x s0 base cs0 cs1 tr a) as [L A]; auto.
    apply live_shift. cbn [BigSound.gconsume gstk owed Parser.consume consume_step]. unfold except_consume.
    apply live_bind; [apply mono_c|exact L|]. intros n0 [r0 st'] w' E.
    destruct (A _ _ _ _ E) as (b & s' & cs' & tr' & lk & -> & -> & Hlk & T' & HR & HC).
    specialize (HR _ H); destruct b; cbn [related] in HR; try contradiction. cbn [fst snd res].
    specialize (HC eq_refl eq_refl).
    apply (live_next h); auto. intros st2 cs2 Hk2.
    destruct (child ws p s IHm2 h sk c (except_req rq) d s' s' (lk ++ base) cs' cs2 tr' st2) as [L2 _]; auto with eqt;
      [eauto with eqt|].
    apply live_bind; [apply mono_c|exact L2|]. intros. apply live_const. discriminate.
  - (* list: nothing *)
    apply live_run. pre0. apply mk_map_inv in Hk. destruct Hk as (a & -> & Hk). destruct Hok as [Hok Hr].
    destruct Hx as [Hx|Hx]; [discriminate|].
    apply andb_prop in Hg. destruct Hg as [Hg1 Hg2]. apply andb_prop in Hok. destruct Hok as [Hok1 Hok2].
    destruct (child ws p s IHm true sk c list_req d x s0 (x :: base) cs0 cs1 tr a) as [L A]; auto.
    apply live_shift. cbn [BigSound.gconsume gstk owed repeat app Parser.consume consume_step]. rewrite repeat_mid.
    unfold list_consume. apply live_bind; [apply mono_c|exact L|]. intros n0 [r0 st'] w' E.
    destruct (A _ _ _ _ E) as (b & s' & cs' & tr' & lk & -> & -> & Hlk & T' & HR & HC).
    specialize (HR _ H); destruct b; cbn [related] in HR; try contradiction. cbn [fst snd res].
    apply live_const. apply quiet_bind; auto using quiet_commit; intros; apply quiet_ret.
  - (* list: element *)
    apply live_run. pre0. apply mk_map_inv in Hk. destruct Hk as (a & -> & Hk).
    assert (Hok' := Hok). assert (Hg' := Hg). destruct Hok as [Hok Hr].
    destruct Hx as [Hx|Hx]; [discriminate|].
    apply andb_prop in Hg. destruct Hg as [Hg1 Hg2]. apply andb_prop in Hok. destruct Hok as [Hok1 Hok2].
    destruct (child ws p s IHm1 true sk c list_req d x s0 (x :: base) cs0 cs1 tr a) as [L A]; auto.
    apply live_shift. cbn [BigSound.gconsume gstk owed repeat app Parser.consume consume_step]. rewrite repeat_mid.
    unfold list_consume. apply live_bind; [apply mono_c|exact L|]. intros n0 [r0 st'] w' E.
    destruct (A _ _ _ _ E) as (b & s' & cs' & tr' & lk & -> & -> & Hlk & T' & HR & HC).
    specialize (HR _ H); destruct b; cbn [related] in HR; try contradiction. cbn [fst snd res].
    rewrite (Hlk eq_refl). cbn [app]. unfold bind at 1 2. cbn [m_cancel m_prepare m_src so_cancel so_prepare sf_ops sf_cancel w_src w_cells w_trace sf_stack sf_cur].
    unfold sf_prepare. cbn [sf_cur sf_stack].
    apply (live_next true); auto. intros st2 cs2 Hk2.
    apply (IHm2 s' h sk c rq d s' s' base cs' cs2 tr' (PListSt 1 st2)); ok. now apply mk_map_done.
  - (* More: end *)
    intros mm. pre0. apply mk_map_inv in Hk. destruct Hk as (a & -> & Hk). destruct Hok as [Hok Hr].
    apply andb_prop in Hg. destruct Hg as [Hg1 Hg2]. apply andb_prop in Hok. destruct Hok as [Hok1 Hok2].
    destruct (child ws sep s IHm true sk c sep_req DNil x s0 (mm :: base) cs0 cs1 tr a) as [L A]; auto.
    apply live_shift. cbn [BigSound.gconsume gstk Parser.consume consume_step].
    unfold list_consume. apply live_bind; [apply mono_c|exact L|]. intros n0 [r0 st'] w' E.
    destruct (A _ _ _ _ E) as (b & s' & cs' & tr' & lk & -> & -> & Hlk & T' & HR & HC).
    specialize (HR _ H); destruct b; cbn [related] in HR; try contradiction. cbn [fst snd res].
    apply live_const. apply quiet_bind; auto using quiet_commit; intros; apply quiet_ret.
  - (* More: trailing *)
    intros mm. pre0. apply mk_map_inv in Hk. destruct Hk as (a & -> & Hk). destruct Hok as [Hok Hr].
    apply andb_prop in Hg. destruct Hg as [Hg1 Hg2]. apply andb_prop in Hok. destruct Hok as [Hok1 Hok2].
    destruct (child ws sep s IHm1 true sk c sep_req DNil x s0 (mm :: base) cs0 cs1 tr a) as [L A]; auto.
    apply live_shift. cbn [BigSound.gconsume gstk Parser.consume consume_step].
    unfold list_consume. apply live_bind; [apply mono_c|exact L|]. intros n0 [r0 st'] w' E.
    destruct (A _ _ _ _ E) as (b & s' & cs' & tr' & lk & -> & -> & Hlk & T' & HR & HC).
    specialize (HR _ H); destruct b; cbn [related] in HR; try contradiction. cbn [fst snd res].
    rewrite (Hlk eq_refl). cbn [app].
    apply (live_next true); auto. intros st2 cs2 Hk2.
    destruct (child ws p s1 IHm2 true sk c list_req d s' s' (mm :: base) cs' cs2 tr' st2) as [L2 A2]; auto with eqt.
    apply live_shift. cbn [Parser.consume consume_step].
    unfold list_consume. apply live_bind; [apply mono_c|exact L2|]. intros n1 [r1 st1] w1 E1.
    destruct (A2 _ _ _ _ E1) as (b1 & s2 & cs3 & tr3 & lk2 & -> & -> & Hlk2 & T2 & HR2 & HC2).
    specialize (HR2 _ H0); destruct b1; cbn [related] in HR2; try contradiction. cbn [fst snd res].
    apply live_const. apply quiet_bind; auto using quiet_commit; intros; apply quiet_ret.
  - (* More: next *)
    intros mm. pre0. apply mk_map_inv in Hk. destruct Hk as (a & -> & Hk).
    assert (Hok' := Hok). assert (Hg' := Hg). destruct Hok as [Hok Hr].
    apply andb_prop in Hg. destruct Hg as [Hg1 Hg2]. apply andb_prop in Hok. destruct Hok as [Hok1 Hok2].
    destruct (child ws sep s IHm1 true sk c sep_req DNil x s0 (mm :: base) cs0 cs1 tr a) as [L A]; auto.
    apply live_shift. cbn [BigSound.gconsume gstk Parser.consume consume_step].
    unfold list_consume. apply live_bind; [apply mono_c|exact L|]. intros n0 [r0 st'] w' E.
    destruct (A _ _ _ _ E) as (b & s' & cs' & tr' & lk & -> & -> & Hlk & T' & HR & HC).
    specialize (HR _ H); destruct b; cbn [related] in HR; try contradiction. cbn [fst snd res].
    rewrite (Hlk eq_refl). cbn [app].
    apply (live_next true); auto. intros st2 cs2 Hk2.
    destruct (child ws p s1 IHm2 true sk c list_req d s' s' (mm :: base) cs' cs2 tr' st2) as [L2 A2]; auto with eqt.
    apply live_shift. cbn [Parser.consume consume_step].
    unfold list_consume. apply live_bind; [apply mono_c|exact L2|]. intros n1 [r1 st1] w1 E1.
    destruct (A2 _ _ _ _ E1) as (b1 & t2 & cs3 & tr3 & lk2 & -> & -> & Hlk2 & T2 & HR2 & HC2).
    specialize (HR2 _ H0); destruct b1; cbn [related] in HR2; try contradiction. cbn [fst snd res].
    rewrite (Hlk2 eq_refl). cbn [app]. unfold bind at 1 2. cbn [m_cancel m_prepare m_src so_cancel so_prepare sf_ops sf_cancel w_src w_cells w_trace sf_stack sf_cur].
    unfold sf_prepare. cbn [sf_cur sf_stack].
    apply (live_next true); auto. intros st4 cs4 Hk4.
    apply (IHm3 t2 h sk c rq d t2 t2 base cs3 cs4 tr3 (PListSt 1 st4)); ok. now apply mk_map_done.
  - (* Lexeme *)
    apply live_run. pre0. apply mk_map_inv in Hk. destruct Hk as (a & -> & Hk). destruct Hok as [Hok Hr].
    apply andb_prop in Hok. destruct Hok as [Hl Hok].
    assert (trim ws s = s0) as Eu by (unfold eqt in Hu; congruence).
    destruct (child nows p (trim ws s) IHm h false (Ctx Fail (c_bound c)) rq d x s0 base cs0 cs1 tr a) as [L A]; auto.
    { reflexivity. }
    { intros E. split; [auto|apply trim_nows]. }
    { destruct sk; cbn in Hl; auto. rewrite (Hnw eq_refl) in Hx. exact Hx. }
    { rewrite Eu. auto with eqt. }
    apply live_shift. cbn [BigSound.gconsume gstk owed Parser.consume consume_step]. unfold forward_consume.
    apply live_bind; [apply mono_c|exact L|]. intros. apply live_const. discriminate.
  - (* WithSkipper *)
    apply live_run. pre0. apply mk_map_inv in Hk. destruct Hk as (a & -> & Hk). destruct Hok as [Hok Hr].
    cbn [is_fail orb] in Hg. apply andb_prop in Hg. destruct Hg as [Hcf Hg].
    rewrite !andb_true_iff, !negb_true_iff in Hok. destruct Hok as (Hf & (((Hcl & Hrc) & He) & Hl) & Hok).
    assert (trim ws s = s0) as Eu by (unfold eqt in Hu; congruence).
    destruct (child (passes skp) p (trim ws s) IHm h true (Ctx skp (c_bound c)) rq d x s0 base cs0 cs1 tr a) as [L A]; auto.
    { exact (skips_passes T HT skp (c_bound c) Hf). }
    { discriminate. }
    { congruence. }
    { destruct sk; cbn in Hl; auto. rewrite (Hnw eq_refl) in Hx. destruct Hx as [Hx|Hx]; [auto|]. apply eqt_nows in Hx. rewrite Hx. auto with eqt. }
    { rewrite Eu. auto with eqt. }
    apply live_shift. cbn [BigSound.gconsume gstk owed Parser.consume consume_step]. unfold forward_consume.
    apply live_bind; [apply mono_c|exact L|]. intros. apply live_const. discriminate.
  - (* Discard *)
    apply live_run. pre0. apply mk_map_inv in Hk. destruct Hk as (a & -> & Hk). destruct Hok as [Hok Hr].
    destruct (child ws p s IHm h sk c rq DNil x s0 base cs0 cs1 tr a) as [L A]; auto.
    apply live_shift. cbn [BigSound.gconsume gstk owed Parser.consume consume_step]. unfold forward_consume.
    apply live_bind; [apply mono_c|exact L|]. intros. apply live_const. discriminate.
  - (* BindDst *)
    apply live_run. pre0. apply mk_map_inv in Hk. destruct Hk as (a & -> & Hk). destruct Hok as [Hok Hr].
    destruct (child ws p s IHm h sk (Ctx (c_skip c) d) (unatomic_req rq) d x s0 base cs0 cs1 tr a) as [L A]; auto.
    apply live_shift. cbn [BigSound.gconsume gstk owed Parser.consume consume_step]. unfold forward_consume.
    apply live_bind; [apply mono_c|exact L|]. intros. apply live_const. discriminate.
  - (* Construct *)
    apply live_run. pre0. apply mk_cell_inv in Hk; [|intros; apply lenp_in]. destruct Hk as (st1 & v1 & -> & Hk & HL).
    destruct Hok as [Hok Hr].
    destruct (child ws p s IHm h sk c (unatomic_req rq) (dst_cell (length cs0) (TTuple a)) x s0 base
                (cs0 ++ [value_init (TTuple a)]) (cs1 ++ [v1]) tr st1) as [L A]; auto.
    apply live_shift. cbn [BigSound.gconsume gstk owed Parser.consume consume_step]. unfold construct_consume.
    apply live_bind.
    + apply Mono_with_cell. intros l. apply mono_c.
    + apply live_with_cell. rewrite HL. exact L.
    + intros n [[r0 a'] v'] w' _. apply live_const. destruct r0; try discriminate.
      pose proof (nf_make (dst_ty d) v') as HN. destruct (make_from (dst_ty d) v').
      * apply quiet_bind; [apply quiet_assign|intros; apply quiet_ret].
      * unfold raise, nf in *. congruence.
  - (* Act *)
    apply live_run. pre0. apply mk_cell_inv in Hk; [|intros; apply lenp_in]. destruct Hk as (st1 & v1 & -> & Hk & HL).
    destruct Hok as [Hok Hr].
    destruct (child ws p s IHm h sk c (action_req rq) (dst_cell (length cs0) (ac_land a)) x s0 base
                (cs0 ++ [default_init (ac_land a)]) (cs1 ++ [v1]) tr st1) as [L A]; auto.
    apply live_shift. cbn [BigSound.gconsume gstk owed Parser.consume consume_step]. unfold action_consume.
    apply live_bind.
    + apply Mono_with_cell. intros l. apply mono_c.
    + apply live_with_cell. rewrite HL. exact L.
    + intros n [[r0 a'] v'] w' _. apply live_const. destruct r0; try discriminate.
      apply quiet_bind; [apply quiet_act|intros; apply quiet_ret].
  - (* Recur *)
    apply live_run. pre0. injection Hk as <- <-.
    apply live_shift. cbn [BigSound.gconsume gstk owed repeat app Parser.consume consume_step]. unfold recur_consume.
    rewrite H. apply (live_next true); eauto. intros st2 cs2 Hk2.
    destruct (child ws q s IHm true sk c recur_req d s0 s0 base cs0 cs2 tr st2) as [L2 _]; eauto with eqt.
    { destruct sk; [now apply (Henv id)|]. apply peg_ok_mono. now apply (Henv id). }
    apply live_bind; [apply mono_c|exact L2|]. intros. apply live_const. discriminate.
Qed.

End Term.
