(** What runs store and call is what the reading of the pattern with values says (for C58). *)
From Coq Require Import List ZArith Bool Arith Lia.
From Verif Require Import Base CharSet Source Dst Pattern Parser Session Rel Big SpecPeg SpecLeaf SpecValue SpecType SpecAttr.
From Verif Require Import Leaf Local LocalThms Unary LeafThms PegSound PegTerm AttrMem.
Import ListNotations.

Lemma simple_in l p : simple p = true -> (p = Seq l \/ p = Alt l) -> forall q, In q l -> simple q = true.
Proof. intros H [->| ->] q Hq; cbn in H; destruct l; try discriminate; rewrite forallb_forall in H; auto. Qed.

Lemma trace_app (k1 k2 : list event) a b c : b = rev k1 ++ a -> c = rev k2 ++ b -> c = rev (k1 ++ k2) ++ a.
Proof. intros H1 H2. rewrite H2, H1, rev_app_distr, <- app_assoc. reflexivity. Qed.

Lemma areq_eq rq p : r_atomic rq = true -> wants_atomic rq p = false -> atom p = true.
Proof. rewrite (atom_eq p). unfold wants_atomic. intros ->. cbn. apply negb_false_iff. Qed.
Lemma want_atom rq p : wants_atomic rq p = true -> r_atomic rq = true /\ atom p = false.
Proof. rewrite (atom_eq p). unfold wants_atomic. intros H. apply andb_prop in H as [H1 H2]. split; auto. now apply negb_true_iff. Qed.

(** The reading without the values. *)
Definition erase (g : vgoal) : goal :=
  match g with
  | VOne _ p => One p
  | VAll _ l => All l
  | VAny _ l => Any l
  | VTimes lo hi n p => Times lo hi n p
  | VMore p sep => More p sep
  end.
Lemma mv_m env ws g t v s r v' k : mv env ws g t v s r v' k -> m env ws (erase g) s r.
Proof. induction 1; cbn [erase] in *; auto; try (econstructor; eauto; fail). Qed.

Section Attr.
Context (env : nat -> option pat) (T : char_ty).
Hypothesis HT : ct_ok T.
Hypothesis Henv : forall id q, env id = Some q -> peg_ok T true recur_req q = true.
Hypothesis Hsimple : all_simple env.
Notation mv := (mv env).

Definition JV (g : stage) (o : bool) (p : pat) (ws : gap) (sm : list Z) (t : ty) (v : val) (s : list Z)
           (r : option (list Z)) (v' : val) (k : list event) : Prop :=
  match g with
  | GSeq i => match p with Seq l => mv ws (VAll (louds_in (firstn i l)) (skipn i l)) t v s r v' k | _ => False end
  | GAlt i => match p with Alt l => mv ws (VAny o (skipn i l)) t v s r v' k | _ => False end
  | GRep n => match p with Repeat lo hi q => mv ws (VTimes lo hi n q) t v s r v' k | _ => False end
  | GElem _ => match p with
               | PList q sep => (mv ws (VOne true q) t v s None v' k /\ r = Some sm)
                                \/ exists s1 v1 k1 k2, mv ws (VOne true q) t v s (Some s1) v1 k1 /\
                                     mv ws (VMore q sep) t v1 s1 r v' k2 /\ k = k1 ++ k2
               | _ => False
               end
  | GSep _ => match p with PList q sep => mv ws (VMore q sep) t v s r v' k | _ => False end
  | _ => mv ws (VOne o p) t v s r v' k
  end.

Definition satom (g : stage) (rq : req) (p : pat) : Prop :=
  match g with GRaw => r_atomic rq = true -> atom p = true | _ => True end.

Definition PV (g : stage) (c : ctx) (rq : req) (d : dst) (p : pat) (x : list Z) (w : sw) (r : bool) (w' : sw) : Prop :=
  forall ws sk s sm t v,
  skips T c ws -> (sk = false -> ws = nows) -> spok T sk g rq p ->
  Forall (tok T) x -> Forall (tok T) (q_s w) -> Forall (tok T) (gmark g x) ->
  (smk0 g rq p = true \/ eqt ws x (q_s w)) -> strimmed ws g rq p (q_s w) ->
  eqt ws s (q_s w) -> eqt ws sm (gmark g x) ->
  place (q_c w) d t v -> shaped t v = true -> simple p = true -> satom g rq p ->
  exists r0 v' k, JV g (r_atomic rq) p ws sm t v s r0 v' k /\ related ws r0 r (q_s w') /\
    store (q_c w) d v' = Done (q_c w') /\ q_t w' = rev k ++ q_t w.

Ltac begin := intros ws sk u um ot ov Hsk Hnw Hok Tx Tw Tg Hx Ht Hs Hm HP HS Hsi Ha;
  cbn [spok smk0 strimmed gmark JV sclean q_s q_c q_t at_ with_c satom] in *.
Ltac rel r0 := destruct r0; cbn [related] in *; try contradiction.
Ltac ih IH a b s m t v := destruct (IH a b s m t v) as (r0 & v1 & k1 & HJ & HR & HSt & HK);
  cbn; auto with eqt; try discriminate.
Ltac done_ r v k := exists r, v, k; split; [|split; [|split]]; cbn [related negb q_s q_c q_t at_ with_c]; auto with eqt.

Theorem attr_all g c rq d p x w r w' : ev env g c rq d p x w r w' -> PV g c rq d p x w r w'.
Proof.
  induction 1.
  - (* recur *)
    begin. destruct Hok as [Hok Hr]. rewrite peg_ok_eq in Hok. unfold raw_req in Hok. rewrite H in Hok.
    assert (smk0 GRaw rq p = true \/ eqt ws x (q_s w)) as Hx'.
    { destruct Hx as [Hx|]; auto. left. rewrite mk0_eq in Hx. unfold raw_req in Hx. rewrite H in Hx. exact Hx. }
    ih IHev ws sk u um ot ov. { rewrite (Hr H). discriminate. } done_ r0 v1 k1.
  - (* no skipper *)
    begin. destruct Hok as [Hok Hr]. assert (ws = nows) as -> by (unfold skips in Hsk; now rewrite H0 in Hsk).
    assert (smk0 GCln rq p = true \/ eqt nows x (q_s w)) as Hx'.
    { destruct Hx as [Hx|]; auto. left. rewrite mk0_eq, H in Hx. cbn in Hx |- *.
      destruct (wants_clean rq p) eqn:E; [discriminate|]. rewrite (raw_noclean _ _ H E) in Hx. exact Hx. }
    ih IHev nows sk u um ot ov. { apply trim_nows. } done_ r0 v1 k1.
  - (* skipper *)
    begin. destruct Hok as [Hok Hr]. ih IHev ws sk u um ot ov. done_ r0 v1 k1.
  - (* skip more *)
    begin. assert (eqt ws s (q_s w)) as E.
    { apply eqt_sym. eapply skips_more; eauto. }
    ih IHev ws sk u um ot ov.
    + apply skip1_suffix in H. destruct H as [k Ek]. rewrite Ek in Tw. now apply suffix_toks in Tw.
    + destruct Hx; eauto with eqt.
    + eauto with eqt.
    + done_ r0 v1 k1.
  - (* skip end *)
    begin. assert (trim ws (q_s w) = q_s w) as E.
    { eapply skips_end; eauto. }
    assert (smk0 GCln rq p = true \/ eqt ws x (q_s w)) as Hx'.
    { destruct Hok as [_ Hr]. destruct Hx as [Hx|]; auto. left. rewrite mk0_eq, Hr in Hx. cbn in Hx |- *.
      destruct (wants_clean rq p) eqn:Ew; [discriminate|]. rewrite (raw_noclean _ _ Hr Ew) in Hx. exact Hx. }
    ih IHev ws sk u um ot ov. done_ r0 v1 k1.
  - (* clean not needed *)
    begin. destruct Hok as [Hok Hr]. rewrite peg_ok_eq, (raw_noclean _ _ Hr H) in Hok. rewrite H in Hx. cbn in Hx.
    ih IHev ws sk u um ot ov. done_ r0 v1 k1.
  - (* clean, match *)
    begin. destruct Hok as [Hok Hr]. rewrite peg_ok_eq, (raw_clean _ _ Hr H) in Hok. rewrite H in Hx. cbn in Hx.
    destruct Hx as [Hx|Hx]; [discriminate|]. ih IHev ws sk u um ot ov. done_ r0 v1 k1.
  - (* clean, no match *)
    begin. destruct Hok as [Hok Hr]. rewrite peg_ok_eq, (raw_clean _ _ Hr H) in Hok. rewrite H in Hx. cbn in Hx.
    destruct Hx as [Hx|Hx]; [discriminate|]. ih IHev ws sk u um ot ov. done_ r0 v1 k1.
  - (* atomic not needed *)
    begin. destruct Hok as [Hok Hr]. unfold areq in *. rewrite H in *.
    ih IHev ws sk u um ot ov. { split; auto; congruence. } { intros E. eapply areq_eq; eauto. } done_ r0 v1 k1.
  - (* atomic, match *)
    begin. destruct Hok as [Hok Hr]. unfold areq in *. rewrite H in *. apply want_atom in H as [Hat Hp]. rewrite Hat.
    ih IHev ws sk u um (dst_value_ty d) (default_init (dst_value_ty d)).
    { split; auto; discriminate. } { apply place_new. } { apply shaped_default. }
    cbn [q_c with_c q_t JV] in *. apply store_new_inv in HSt as (-> & E1 & E2). rel r0.
    apply (assign_stored _ _ _ _ _ _ HP) in H2 as (v' & HSd & HSt). rewrite (place_value_ty _ _ _ _ HP) in *.
    done_ (Some l) v' k1. apply (v_one env ws p ot ov u l v1); auto.
    assert (value_ty ot = TNil \/ value_ty ot <> TNil) as [E|E] by (destruct (value_ty ot); auto; right; discriminate).
    + eapply stored_any; eauto.
    + rewrite <- (E1 E). exact HSd.
  - (* atomic, no match *)
    begin. destruct Hok as [Hok Hr]. unfold areq in *. rewrite H in *. apply want_atom in H as [Hat Hp]. rewrite Hat.
    ih IHev ws sk u um (dst_value_ty d) (default_init (dst_value_ty d)).
    { split; auto; discriminate. } { apply place_new. } { apply shaped_default. }
    cbn [q_c with_c q_t JV] in *. apply store_new_inv in HSt as (-> & E1 & E2). rel r0. rewrite (place_value_ty _ _ _ _ HP) in *.
    done_ (@None (list Z)) ov k1; [|eapply store_keep; eauto]. eapply v_one_no; eauto.
  - (* Char *)
    begin. apply (assign_stored _ _ _ _ _ _ HP) in H0 as (v' & HSd & HSt). done_ (Some t) v' (@nil event).
    destruct Hok as [Hok _]. apply cs_fits_ok in Hok. inversion Tw; subst.
    apply (v_char env ws _ cs ot ov u y t v'); auto; [rewrite Hs; auto|]. now apply (valid_in_set T).
  - begin. done_ (@None (list Z)) ov (@nil event); [|eapply store_keep; eauto].
    destruct Hok as [Hok _]. apply cs_fits_ok in Hok. apply v_char_no. intros y t E. rewrite Hs, Ht in E.
    rewrite E in *. inversion Tw; subst. intros Hi. apply (valid_in_set T) in Hi; auto. congruence.
  - (* CharSymbol *) begin. destruct Hok. discriminate.
  - begin. destruct Hok. discriminate.
  - (* Eoi *)
    begin. unfold eqt in Hs. rewrite Ht in Hs. assert (HK := store_keep _ _ _ _ HP). destruct (q_s w) eqn:E.
    + done_ (Some (@nil Z)) ov (@nil event). now apply v_eoi.
    + done_ (@None (list Z)) ov (@nil event). apply v_eoi_no. congruence.
  - (* Pass *)
    begin. done_ (Some u) ov (@nil event); [apply v_pass|eapply store_keep; eauto].
  - (* Fail *)
    begin. done_ (@None (list Z)) ov (@nil event); [apply v_fail|eapply store_keep; eauto].
  - (* Lit *)
    begin. pose proof (lit_run_ok l (q_s w)) as L. rewrite H in L. assert (HK := store_keep _ _ _ _ HP).
    unfold eqt in Hs. rewrite Ht in Hs. destruct r.
    + done_ (Some s) ov (@nil event). apply v_lit. congruence.
    + done_ (@None (list Z)) ov (@nil event). apply v_lit_no. intros t. rewrite Hs. apply L.
  - (* Symbol *)
    begin. destruct Hok as [Hok _]. cbn [pokr] in Hok.
    unfold eqt in Hs. rewrite Ht in Hs. apply sym_spec in H.
    2:{ unfold keys_ok. rewrite Forall_forall. rewrite forallb_forall in Hok. intros kv Hin N. specialize (Hok _ Hin). rewrite N in Hok. discriminate. }
    destruct H as [_ H]. destruct r.
    + destruct H as (k & v & E & Hin & Has & _ & Hmx). apply (assign_stored _ _ _ _ _ _ HP) in Has as (v' & HSd & HSt).
      done_ (Some s) v' (@nil event).
      apply (v_sym env ws _ m k v); auto; [congruence|]. rewrite Hs. exact Hmx.
    + destruct H as [-> H]. done_ (@None (list Z)) ov (@nil event); [|eapply store_keep; eauto]. apply v_sym_no. rewrite Hs. exact H.
  - (* UInt *)
    begin. destruct Hok as [Hok _]. apply num_fits_ok in Hok. destruct Hok as (HTc & Hb & Hlh). 
    assert (Forall (tok ct_char) (q_s w)) as Tw' by (rewrite <- HTc; exact Tw).
    unfold eqt in Hs. rewrite Ht in Hs. assert (r_atomic rq = false) as -> by (destruct (r_atomic rq); auto; discriminate (Ha eq_refl)).
    pose proof (uint_number b lo hi Hb Hlh _ _ _ _ _ _ Tw' H0) as HN.
    destruct (uint_counted b lo hi Hb Hlh _ _ _ _ _ _ _ _ _ Tw' HP H H0) as (v' & HC & HSt).
    done_ (number b lo hi (trim ws u)) v' (@nil event); [apply v_uint; now rewrite Hs|]. rewrite Hs, HN. destruct r; cbn; auto with eqt.
  - (* Int *)
    begin. destruct Hok as [Hok _]. cbn [pokr] in Hok. apply andb_prop in Hok. destruct Hok as [Hok H1].
    apply num_fits_ok in Hok. destruct Hok as (HTc & Hb & Hlh). 
    assert (Forall (tok ct_char) (q_s w)) as Tw' by (rewrite <- HTc; exact Tw).
    unfold eqt in Hs. rewrite Ht in Hs. assert (r_atomic rq = false) as -> by (destruct (r_atomic rq); auto; discriminate (Ha eq_refl)).
    pose proof (int_number b lo hi Hb Hlh _ _ _ _ _ _ Tw' H0) as HN.
    destruct (int_counted b lo hi Hb Hlh _ _ _ _ _ _ _ _ _ Tw' HP H H0) as (v' & HC & HSt).
    done_ (number b lo hi (unsigned (trim ws u))) v' (@nil event); [apply v_int; now rewrite Hs|]. rewrite Hs, HN. destruct r; cbn; auto with eqt.
  - (* Seq *)
    begin. assert (r_atomic rq = false) as -> by (destruct (r_atomic rq); auto; discriminate (Ha eq_refl)).
    ih IHev ws sk u um ot ov.
    { destruct Hx as [Hx|Hx]; auto. left. cbn in Hx. destruct l; auto. }
    done_ r0 v1 k1. now apply v_seq.
  - (* Seq: failure *)
    begin. rewrite H in Hx. destruct (part_place _ _ _ _ _ _ _ _ H H0 HP HS) as (tq & vq & HPq & HSq & HPa).
    ih IHev ws sk u x tq vq.
    { destruct Hok as [Hok _]. split; [|discriminate]. cbn in Hok. rewrite forallb_forall in Hok. apply nth_error_In in H. auto. }
    { eapply simple_in; eauto using nth_error_In. }
    rel r0. destruct (HPa _ _ HSt) as (v' & HA & HSt'). done_ (@None (list Z)) v' k1. rewrite (skipn_cons _ _ _ H). eapply v_all_no; eauto.
  - (* Seq: end *)
    begin. rewrite H in Hx. destruct (part_place _ _ _ _ _ _ _ _ H H1 HP HS) as (tq & vq & HPq & HSq & HPa).
    ih IHev ws sk u x tq vq.
    { destruct Hok as [Hok _]. split; [|discriminate]. cbn in Hok. rewrite forallb_forall in Hok. apply nth_error_In in H. auto. }
    { eapply simple_in; eauto using nth_error_In. }
    rel r0. destruct (HPa _ _ HSt) as (v' & HA & HSt'). done_ (Some l0) v' k1. rewrite (skipn_cons _ _ _ H), (skipn_end _ _ H0).
    rewrite <- (app_nil_r k1). eapply v_all; [exact HA|exact HJ|apply v_all_end].
  - (* Seq: next *)
    begin. rewrite H in Hx. pose proof (toks_ev env T _ _ _ _ _ _ _ _ _ H2 Tx Tw Tx) as Tw1.
    destruct (part_place _ _ _ _ _ _ _ _ H H1 HP HS) as (tq & vq & HPq & HSq & HPa).
    ih IHev1 ws sk u x tq vq.
    { destruct Hok as [Hok _]. split; [|discriminate]. cbn in Hok. rewrite forallb_forall in Hok. apply nth_error_In in H. auto. }
    { eapply simple_in; eauto using nth_error_In. }
    rel r0. destruct (HPa _ _ HSt) as (v' & HA & HSt').
    destruct (IHev2 ws sk l0 (q_s w1) ot v') as (r1 & v2 & k2 & HJ2 & HR2 & HSt2 & HK2); cbn; auto with eqt.
    { eapply store_place; eauto. }
    { destruct (part_shaped _ _ _ _ _ _ _ _ HA HS) as [_ E]. apply E. eapply mv_shaped; [exact HJ|exact HSq]. }
    done_ r1 v2 (k1 ++ k2).
    + rewrite (skipn_cons _ _ _ H). cbn [JV] in HJ2. rewrite (louds_next _ _ _ H) in HJ2. eapply v_all; eauto.
    + rewrite <- HSt2. symmetry. eapply store_again; eauto.
    + eapply trace_app; eauto.
  - (* Alt *)
    begin. ih IHev ws sk u um ot ov.
    { destruct Hx as [Hx|Hx]; auto. left. cbn in Hx. destruct l; auto. }
    done_ r0 v1 k1. now apply v_alt.
  - (* Alt: match *)
    begin. rewrite H in Hx. ih IHev ws sk u x ot ov.
    { destruct Hok as [Hok _]. split; [|discriminate]. cbn in Hok. rewrite forallb_forall in Hok. apply nth_error_In in H. auto. }
    { eapply simple_in; eauto using nth_error_In. }
    rel r0. done_ (Some l0) v1 k1. rewrite (skipn_cons _ _ _ H). now apply v_any.
  - (* Alt: end *)
    begin. rewrite H in Hx. ih IHev ws sk u x ot ov.
    { destruct Hok as [Hok _]. split; [|discriminate]. cbn in Hok. rewrite forallb_forall in Hok. apply nth_error_In in H. auto. }
    { eapply simple_in; eauto using nth_error_In. }
    rel r0. done_ (@None (list Z)) v1 k1. rewrite (skipn_cons _ _ _ H), (skipn_end _ _ H0). rewrite <- (app_nil_r k1).
    eapply v_any_next; [exact HJ|apply v_any_end].
  - (* Alt: next *)
    begin. rewrite H in Hx. pose proof (toks_ev env T _ _ _ _ _ _ _ _ _ H1 Tx Tw Tx) as Tw1.
    assert (spok T sk GRun (alt_req rq) q) as Hokq.
    { destruct Hok as [Hok _]. split; [|discriminate]. cbn in Hok. rewrite forallb_forall in Hok. apply nth_error_In in H. auto. }
    destruct (sound_all env T HT Henv _ _ _ _ _ _ _ _ _ H1 ws sk u x) as [_ HC]; cbn; auto with eqt; try discriminate.
    specialize (HC eq_refl eq_refl).
    ih IHev1 ws sk u x ot ov. { eapply simple_in; eauto using nth_error_In. }
    rel r0. destruct (IHev2 ws sk u (q_s w1) ot v1) as (r1 & v2 & k2 & HJ2 & HR2 & HSt2 & HK2); cbn; auto with eqt.
    { eauto with eqt. }
    { eapply store_place; eauto. }
    { eapply mv_shaped; [exact HJ|exact HS]. }
    done_ r1 v2 (k1 ++ k2).
    + rewrite (skipn_cons _ _ _ H). eapply v_any_next; eauto.
    + rewrite <- HSt2. symmetry. eapply store_again; eauto.
    + eapply trace_app; eauto.
  - (* Repeat *)
    begin. assert (r_atomic rq = false) as -> by (destruct (r_atomic rq); auto; discriminate (Ha eq_refl)).
    ih IHev ws sk u um ot ov; [lia|]. done_ r0 v1 k1. now apply v_repeat.
  - (* Repeat: stop *)
    begin. destruct Hok as [Hok _]. cbn [pokr] in Hok. apply andb_prop in Hok. destruct Hok as [Hlh Hok].
    destruct (sound_all env T HT Henv _ _ _ _ _ _ _ _ _ H ws sk u x) as [_ HC]; cbn; auto with eqt; try discriminate.
    { split; auto. discriminate. }
    ih IHev ws sk u x ot ov. { split; auto. discriminate. }
    rel r0. done_ (if lo <=? n then Some u else None) v1 k1; [now apply v_times_stop|].
    destruct (Nat.leb_spec lo n); cbn; auto. apply (eqt_trans _ _ _ _ Hs). apply eqt_sym. apply HC; auto. cbn.
    destruct (Nat.eqb_spec lo hi); cbn; auto. apply Nat.eqb_eq. lia.
  - (* Repeat: full *)
    begin. destruct Hok as [Hok _]. cbn [pokr] in Hok. apply andb_prop in Hok. destruct Hok as [Hlh Hok].
    ih IHev ws sk u x ot ov. { split; auto. discriminate. }
    rel r0. done_ (Some l) v1 k1. apply v_times_full; auto. apply andb_prop in H0. now apply Nat.eqb_eq.
  - (* Repeat: more *)
    begin. assert (Hok' := Hok). destruct Hok as [Hok _]. cbn [pokr] in Hok. apply andb_prop in Hok. destruct Hok as [Hlh Hok].
    pose proof (toks_ev env T _ _ _ _ _ _ _ _ _ H Tx Tw Tx) as Tw1.
    ih IHev1 ws sk u x ot ov. { split; auto. discriminate. }
    rel r0. assert (S n <> hi) as Hn.
    { intros <-. rewrite Nat.eqb_refl in H0. discriminate. }
    destruct (IHev2 ws sk l (q_s w1) ot v1) as (r1 & v2 & k2 & HJ2 & HR2 & HSt2 & HK2); cbn; auto with eqt.
    { lia. } { eapply store_place; eauto. } { eapply mv_shaped; [exact HJ|exact HS]. }
    done_ r1 v2 (k1 ++ k2).
    + eapply v_times; eauto.
    + rewrite <- HSt2. symmetry. eapply store_again; eauto.
    + eapply trace_app; eauto.
  - (* Not *)
    begin. destruct Hok as [Hok _]. destruct Hx as [Hx|Hx]; [discriminate|].
    ih IHev ws sk u x ot ov. { split; auto. discriminate. }
    destruct r; rel r0.
    + done_ (@None (list Z)) v1 k1. eapply v_not. exact HJ.
    + done_ (Some u) v1 k1; [now apply v_not_no|]. cbn. eauto with eqt.
  - (* Opt: match *)
    begin. destruct Hok as [Hok _]. destruct Hx as [Hx|Hx]; [discriminate|].
    ih IHev ws sk u x ot ov. { split; auto. discriminate. }
    rel r0. done_ (Some l) v1 k1. now apply v_opt.
  - (* Opt: no match *)
    begin. destruct Hok as [Hok _]. destruct Hx as [Hx|Hx]; [discriminate|].
    ih IHev ws sk u x ot ov. { split; auto. discriminate. }
    rel r0. done_ (Some u) v1 k1; [now apply v_opt_no|]. cbn. eauto with eqt.
  - (* Discard *)
    begin. ih IHev ws sk u x TNil VNil. cbn in HSt. injection HSt as E.
    done_ r0 ov k1; [eapply v_discard; exact HJ|]. rewrite <- E. eapply store_keep; eauto.
  - (* Lexeme *)
    begin. destruct Hok as [Hok Hr]. cbn [pokr] in Hok. apply andb_prop in Hok. destruct Hok as [Hl Hok].
    assert (trim ws u = q_s w) as Eu by (unfold eqt in Hs; congruence).
    ih IHev nows false (trim ws u) x ot ov.
    { destruct sk; cbn in Hl; auto. rewrite (Hnw eq_refl) in Hx. exact Hx. }
    { intros _. apply trim_nows. }
    { rewrite Eu. auto with eqt. }
    done_ r0 v1 k1; [now apply v_lexeme|]. destruct r; rel r0; auto. apply eqt_nows in HR. subst. auto with eqt.
  - (* WithSkipper *)
    begin. destruct Hok as [Hok Hr]. cbn [pokr] in Hok. 
    rewrite !andb_true_iff, !negb_true_iff in Hok. destruct Hok as (Hf & (((Hcl & Hrc) & He) & Hl) & Hok).
    assert (trim ws u = q_s w) as Eu by (unfold eqt in Hs; congruence).
    assert (Hx' : mk0 rq q = true \/ eqt (passes s) x (q_s w)).
    { destruct sk; cbn in Hl; auto. rewrite (Hnw eq_refl) in Hx. destruct Hx as [Hx|Hx]; [auto|]. apply eqt_nows in Hx. rewrite Hx. auto with eqt. }
    pose proof (skips_passes T HT s (c_bound c) Hf) as HSk.
    ih IHev (passes s) true (trim ws u) x ot ov.
    { congruence. }
    { rewrite Eu. auto with eqt. }
    destruct (sound_exact env T HT Henv _ _ _ _ _ _ _ _ _ H (passes s) true (trim ws u) x) as [(r2 & HJ2 & HR2) _]; cbn; auto with eqt; try discriminate.
    { congruence. }
    { rewrite Eu. auto with eqt. }
    cbn [JV J] in HJ, HJ2. pose proof (m_det _ _ _ _ _ (mv_m _ _ _ _ _ _ _ _ _ HJ) _ HJ2). subst r2.
    done_ r0 v1 k1; [now apply v_skipper|]. destruct r0, r; cbn in *; auto. destruct HR2 as [_ HR2]. rewrite (HR2 He). auto with eqt.
  - (* BindDst *)
    begin. assert (r_atomic rq = false) as -> by (destruct (r_atomic rq); auto; discriminate (Ha eq_refl)).
    destruct Hok as [Hok _]. ih IHev ws sk u x ot ov. { split; auto. discriminate. }
    done_ r0 v1 k1. now apply v_bind.
  - (* Construct: match *)
    begin. destruct Hok as [Hok _]. ih IHev ws sk u x (TTuple args) (value_init (TTuple args)).
    { split; auto. discriminate. } { apply (place_new _ (TTuple args)). } { apply (shaped_init (TTuple args)). }
    cbn [q_c with_c q_t JV] in *. apply (store_new_inv _ (TTuple args)) in HSt as (-> & E1 & _). rewrite (E1 ltac:(discriminate)) in *. rel r0.
    rewrite (place_ty _ _ _ _ HP) in H1.
    pose proof (mv_shaped _ _ _ _ _ _ _ _ _ HJ (shaped_init (TTuple args))) as HSh. apply shaped_tuple in HSh as (xs & -> & _).
    apply made_from in H1. apply (assign_stored _ _ _ _ _ _ HP) in H2 as (v' & HSd & HSt).
    done_ (Some l) v' k1. eapply v_construct; eauto.
  - (* Construct: no match *)
    begin. destruct Hok as [Hok _]. ih IHev ws sk u x (TTuple args) (value_init (TTuple args)).
    { split; auto. discriminate. } { apply (place_new _ (TTuple args)). } { apply (shaped_init (TTuple args)). }
    cbn [q_c with_c q_t JV] in *. apply (store_new_inv _ (TTuple args)) in HSt as (-> & _ & _). rel r0.
    done_ (@None (list Z)) ov k1; [|eapply store_keep; eauto]. eapply v_construct_no; eauto.
  - (* Act: match *)
    begin. destruct Hok as [Hok _]. cbn [simple] in Hsi. apply andb_prop in Hsi as [Hpa Hsi]. apply negb_true_iff in Hpa.
    ih IHev ws sk u x (ac_land a) (default_init (ac_land a)).
    { split; auto. discriminate. } { apply place_new. } { apply shaped_default. }
    cbn [q_c with_c q_t JV] in *. apply store_new_inv in HSt as (-> & E1 & _). rel r0.
    apply (act_called _ _ _ _ _ _ _ _ _ _ Hpa HP) in H1 as (y & v' & cs' & E & HCa & HSt & ->). cbn [q_s q_c q_t] in *.
    done_ (Some l) v' (k1 ++ [Event (ac_id a) y]).
    + eapply v_act; eauto. assert (ac_land a = TNil \/ ac_land a <> TNil) as [N|N] by (destruct (ac_land a); auto; right; discriminate).
      * rewrite N in *. exact E.
      * rewrite <- (E1 N). exact E.
    + rewrite rev_app_distr. cbn. now f_equal.
  - (* Act: no match *)
    begin. destruct Hok as [Hok _]. cbn [simple] in Hsi. apply andb_prop in Hsi as [Hpa Hsi].
    ih IHev ws sk u x (ac_land a) (default_init (ac_land a)).
    { split; auto. discriminate. } { apply place_new. } { apply shaped_default. }
    cbn [q_c with_c q_t JV] in *. apply store_new_inv in HSt as (-> & E1 & _). rel r0.
    done_ (@None (list Z)) ov k1; [|eapply store_keep; eauto]. eapply v_act_no; eauto.
  - (* Except: hit *)
    begin. destruct Hok as [Hok _]. cbn [pokr] in Hok. apply andb_prop in Hok. destruct Hok as [Hok1 Hok2].
    cbn [simple] in Hsi. apply andb_prop in Hsi as [Hs1 Hs2].
    ih IHev ws sk u x TNil VNil. { split; auto. discriminate. }
    cbn in HSt. injection HSt as E. rel r0. done_ (@None (list Z)) ov k1; [eapply v_except; exact HJ|]. rewrite <- E. eapply store_keep; eauto.
  - (* Except: go *)
    begin. destruct Hok as [Hok _]. cbn [pokr] in Hok. apply andb_prop in Hok. destruct Hok as [Hok1 Hok2].
    cbn [simple] in Hsi. apply andb_prop in Hsi as [Hs1 Hs2].
    pose proof (toks_ev env T _ _ _ _ _ _ _ _ _ H Tx Tw Tx) as Tw1.
    destruct (sound_all env T HT Henv _ _ _ _ _ _ _ _ _ H ws sk u x) as [_ HC]; cbn; auto with eqt; try discriminate.
    { split; auto. discriminate. }
    specialize (HC eq_refl eq_refl).
    ih IHev1 ws sk u x TNil VNil. { split; auto. discriminate. }
    cbn in HSt. injection HSt as E. rel r0.
    destruct (IHev2 ws sk u (q_s w1) ot ov) as (r1 & v2 & k2 & HJ2 & HR2 & HSt2 & HK2); cbn; auto with eqt; try discriminate.
    { split; auto. discriminate. }
    { eauto with eqt. }
    { rewrite <- E. exact HP. }
    done_ r1 v2 (k1 ++ k2).
    + eapply v_except_no; eauto.
    + rewrite <- HSt2. now rewrite E.
    + eapply trace_app; eauto.
  - (* PList *)
    begin. assert (r_atomic rq = false) as -> by (destruct (r_atomic rq); auto; discriminate (Ha eq_refl)).
    destruct Hx as [Hx|Hx]; [discriminate|].
    ih IHev ws sk u u ot ov; [eauto with eqt|].
    destruct HJ as [[HJ ->]|(s1 & v2 & k2 & k3 & HJ & HM & ->)].
    + done_ (Some u) v1 k1. now apply v_list_none.
    + done_ r0 v1 (k2 ++ k3). eapply v_list; eauto.
  - (* list: element missing *)
    begin. destruct Hok as [Hok _]. cbn [pokr] in Hok. apply andb_prop in Hok. destruct Hok as [Hok1 Hok2].
    cbn [simple] in Hsi. apply andb_prop in Hsi as [Hs1 Hs2].
    ih IHev ws sk u x ot ov. { split; auto. discriminate. }
    rel r0. done_ (Some um) v1 k1.
  - (* list: element *)
    begin. assert (Hok' := Hok). destruct Hok as [Hok _]. cbn [pokr] in Hok. apply andb_prop in Hok. destruct Hok as [Hok1 Hok2].
    assert (Hsi' := Hsi). cbn [simple] in Hsi. apply andb_prop in Hsi as [Hs1 Hs2].
    pose proof (toks_ev env T _ _ _ _ _ _ _ _ _ H Tx Tw Tx) as Tw1.
    ih IHev1 ws sk u x ot ov. { split; auto. discriminate. }
    rel r0. destruct (IHev2 ws sk l (q_s w1) ot v1) as (r1 & v2 & k2 & HJ2 & HR2 & HSt2 & HK2); cbn; auto with eqt.
    { eapply store_place; eauto. } { eapply mv_shaped; [exact HJ|exact HS]. }
    done_ r1 v2 (k1 ++ k2).
    + right. exists l, v1, k1, k2. auto.
    + rewrite <- HSt2. symmetry. eapply store_again; eauto.
    + eapply trace_app; eauto.
  - (* list: separator missing *)
    begin. destruct Hok as [Hok _]. cbn [pokr] in Hok. apply andb_prop in Hok. destruct Hok as [Hok1 Hok2].
    cbn [simple] in Hsi. apply andb_prop in Hsi as [Hs1 Hs2].
    ih IHev ws sk u x TNil VNil. { split; auto. discriminate. }
    cbn in HSt. injection HSt as E. rel r0. done_ (Some u) ov k1; [eapply v_more_end; exact HJ|cbn; eauto with eqt|].
    rewrite <- E. eapply store_keep; eauto.
  - (* list: separator *)
    begin. assert (Hok' := Hok). destruct Hok as [Hok _]. cbn [pokr] in Hok. apply andb_prop in Hok. destruct Hok as [Hok1 Hok2].
    assert (Hsi' := Hsi). cbn [simple] in Hsi. apply andb_prop in Hsi as [Hs1 Hs2].
    pose proof (toks_ev env T _ _ _ _ _ _ _ _ _ H Tx Tw Tx) as Tw1.
    ih IHev1 ws sk u x TNil VNil. { split; auto. discriminate. }
    cbn in HSt. injection HSt as E. rel r0.
    destruct (IHev2 ws sk l u ot ov) as (r1 & v2 & k2 & HJ2 & HR2 & HSt2 & HK2); cbn; auto with eqt.
    { eauto with eqt. } { rewrite <- E. exact HP. }
    destruct HJ2 as [[HJ2 ->]|(s2 & v3 & k3 & k4 & HJ2 & HM & ->)].
    + done_ (Some u) v2 (k1 ++ k2); [eapply v_more_trailing; eauto|rewrite <- HSt2; now rewrite E|eapply trace_app; eauto].
    + done_ r1 v2 (k1 ++ k3 ++ k4); [eapply v_more; eauto|rewrite <- HSt2; now rewrite E|eapply trace_app; eauto].
  - (* Recur *)
    begin. assert (r_atomic rq = false) as -> by (destruct (r_atomic rq); auto; discriminate (Ha eq_refl)).
    ih IHev ws sk u (q_s w) ot ov.
    { split; [|auto]. destruct sk; [now apply (Henv id)|]. apply peg_ok_mono. now apply (Henv id). }
    { eapply Hsimple; eauto. }
    done_ r0 v1 k1. eapply v_recur; eauto.
Qed.
End Attr.
