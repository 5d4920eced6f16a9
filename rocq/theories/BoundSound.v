(** What runs store and call is what the reading of the pattern with two objects says (for C68). *)
From Coq Require Import List ZArith Bool Arith Lia.
From Verif Require Import Base CharSet Source Dst Pattern Parser Session Rel Big SpecPeg SpecLeaf SpecValue SpecType SpecAttr SpecBound.
From Verif Require Import Leaf Local LocalThms Unary LeafThms PegSound PegTerm AttrMem AttrSound BoundMem.
Import ListNotations.

Lemma tidy_in l p : tidy p = true -> (p = Seq l \/ p = Alt l) -> forall q, In q l -> tidy q = true.
Proof. intros H [->| ->] q Hq; cbn in H; destruct l; try discriminate; rewrite forallb_forall in H; auto. Qed.

Lemma mb_m env ws g tb L t h s r h' k : mb env ws g tb L t h s r h' k -> m env ws (erase g) s r.
Proof. induction 1; cbn [erase] in *; auto; try (econstructor; eauto; fail). Qed.

Section Attr.
Context (env : nat -> option pat) (T : char_ty).
Hypothesis HT : ct_ok T.
Hypothesis Henv : forall id q, env id = Some q -> peg_ok T true recur_req q = true.
Hypothesis Htidy : all_tidy env.
Notation mb := (mb env).

Definition JV (g : stage) (o : bool) (p : pat) (ws : gap) (sm : list Z) (tb : ty) (L : where_) (t : ty) (h : objects) (s : list Z)
           (r : option (list Z)) (h' : objects) (k : list event) : Prop :=
  match g with
  | GSeq i => match p with Seq l => mb ws (VAll (louds_in (firstn i l)) (skipn i l)) tb L t h s r h' k | _ => False end
  | GAlt i => match p with Alt l => mb ws (VAny o (skipn i l)) tb L t h s r h' k | _ => False end
  | GRep n => match p with Repeat lo hi q => mb ws (VTimes lo hi n q) tb L t h s r h' k | _ => False end
  | GElem _ => match p with
               | PList q sep => (mb ws (VOne true q) tb L t h s None h' k /\ r = Some sm)
                                \/ exists s1 h1 k1 k2, mb ws (VOne true q) tb L t h s (Some s1) h1 k1 /\
                                     mb ws (VMore q sep) tb L t h1 s1 r h' k2 /\ k = k1 ++ k2
               | _ => False
               end
  | GSep _ => match p with PList q sep => mb ws (VMore q sep) tb L t h s r h' k | _ => False end
  | _ => mb ws (VOne o p) tb L t h s r h' k
  end.

Definition satom (g : stage) (rq : req) (p : pat) : Prop :=
  match g with GRaw => r_atomic rq = true -> atom p = true | _ => True end.

Definition PV (g : stage) (c : ctx) (rq : req) (d : dst) (p : pat) (x : list Z) (w : sw) (r : bool) (w' : sw) : Prop :=
  forall ws sk s sm tb tx L t h,
  skips T c ws -> (sk = false -> ws = nows) -> spok T sk g rq p ->
  Forall (tok T) x -> Forall (tok T) (q_s w) -> Forall (tok T) (gmark g x) ->
  (smk0 g rq p = true \/ eqt ws x (q_s w)) -> strimmed ws g rq p (q_s w) ->
  eqt ws s (q_s w) -> eqt ws sm (gmark g x) ->
  Rep (q_c w) (c_bound c) d tb tx L t h -> tidy p = true -> satom g rq p ->
  exists r0 h' k, JV g (r_atomic rq) p ws sm tb L t h s r0 h' k /\ related ws r0 r (q_s w') /\
    Wr (q_c w) (c_bound c) d L h' (q_c w') /\ q_t w' = rev k ++ q_t w.

Ltac begin := intros ws sk u um tb tx L ot oh Hsk Hnw Hok Tx Tw Tg Hx Ht Hs Hm HP Hsi Ha;
  cbn [spok smk0 strimmed gmark JV sclean q_s q_c q_t at_ with_c satom] in *.
Ltac rel r0 := destruct r0; cbn [related] in *; try contradiction.
Ltac ih IH a b s m tb tx L t h := destruct (IH a b s m tb tx L t h) as (r0 & h1 & k1 & HJ & HR & HSt & HK);
  cbn; auto with eqt; try discriminate.
Ltac done_ r v k := exists r, v, k; split; [|split; [|split]]; cbn [related negb q_s q_c q_t at_ with_c]; auto with eqt.

Theorem attr_all g c rq d p x w r w' : ev env g c rq d p x w r w' -> PV g c rq d p x w r w'.
Proof.
  induction 1.
  - (* recur *)
    begin. destruct Hok as [Hok Hr]. rewrite peg_ok_eq in Hok. unfold raw_req in Hok. rewrite H in Hok.
    assert (smk0 GRaw rq p = true \/ eqt ws x (q_s w)) as Hx'.
    { destruct Hx as [Hx|]; auto. left. rewrite mk0_eq in Hx. unfold raw_req in Hx. rewrite H in Hx. exact Hx. }
    ih IHev ws sk u um tb tx L ot oh. { rewrite (Hr H). discriminate. } done_ r0 h1 k1.
  - (* no skipper *)
    begin. destruct Hok as [Hok Hr]. assert (ws = nows) as -> by (unfold skips in Hsk; now rewrite H0 in Hsk).
    assert (smk0 GCln rq p = true \/ eqt nows x (q_s w)) as Hx'.
    { destruct Hx as [Hx|]; auto. left. rewrite mk0_eq, H in Hx. cbn in Hx |- *.
      destruct (wants_clean rq p) eqn:E; [discriminate|]. rewrite (raw_noclean _ _ H E) in Hx. exact Hx. }
    ih IHev nows sk u um tb tx L ot oh. { apply trim_nows. } done_ r0 h1 k1.
  - (* skipper *)
    begin. destruct Hok as [Hok Hr]. ih IHev ws sk u um tb tx L ot oh. done_ r0 h1 k1.
  - (* skip more *)
    begin. assert (eqt ws s (q_s w)) as E.
    { apply eqt_sym. eapply skips_more; eauto. }
    ih IHev ws sk u um tb tx L ot oh.
    + apply skip1_suffix in H. destruct H as [k Ek]. rewrite Ek in Tw. now apply suffix_toks in Tw.
    + destruct Hx; eauto with eqt.
    + eauto with eqt.
    + done_ r0 h1 k1.
  - (* skip end *)
    begin. assert (trim ws (q_s w) = q_s w) as E.
    { eapply skips_end; eauto. }
    assert (smk0 GCln rq p = true \/ eqt ws x (q_s w)) as Hx'.
    { destruct Hok as [_ Hr]. destruct Hx as [Hx|]; auto. left. rewrite mk0_eq, Hr in Hx. cbn in Hx |- *.
      destruct (wants_clean rq p) eqn:Ew; [discriminate|]. rewrite (raw_noclean _ _ Hr Ew) in Hx. exact Hx. }
    ih IHev ws sk u um tb tx L ot oh. done_ r0 h1 k1.
  - (* clean not needed *)
    begin. destruct Hok as [Hok Hr]. rewrite peg_ok_eq, (raw_noclean _ _ Hr H) in Hok. rewrite H in Hx. cbn in Hx.
    ih IHev ws sk u um tb tx L ot oh. done_ r0 h1 k1.
  - (* clean, match *)
    begin. destruct Hok as [Hok Hr]. rewrite peg_ok_eq, (raw_clean _ _ Hr H) in Hok. rewrite H in Hx. cbn in Hx.
    destruct Hx as [Hx|Hx]; [discriminate|]. ih IHev ws sk u um tb tx L ot oh. done_ r0 h1 k1.
  - (* clean, no match *)
    begin. destruct Hok as [Hok Hr]. rewrite peg_ok_eq, (raw_clean _ _ Hr H) in Hok. rewrite H in Hx. cbn in Hx.
    destruct Hx as [Hx|Hx]; [discriminate|]. ih IHev ws sk u um tb tx L ot oh. done_ r0 h1 k1.
  - (* atomic not needed *)
    begin. destruct Hok as [Hok Hr]. unfold areq in *. rewrite H in *.
    ih IHev ws sk u um tb tx L ot oh. { split; auto; congruence. } { intros E. eapply areq_eq; eauto. } done_ r0 h1 k1.
  - (* atomic, match *)
    begin. destruct Hok as [Hok Hr]. unfold areq in *. rewrite H in *. apply want_atom in H as [Hat Hp]. rewrite Hat.
    rewrite (rep_value_ty _ _ _ _ _ _ _ _ HP) in *. assert (HPn := rep_new _ _ _ _ _ _ _ _ (value_ty ot) (default_init (value_ty ot)) HP (shaped_default _)).
    ih IHev ws sk u um tb (value_ty ot) (the_own (value_ty ot)) (value_ty ot) (Objects (o_bound oh) (default_init (value_ty ot))).
    { split; auto; discriminate. }
    cbn [q_c with_c q_t JV] in *. destruct (new_step env _ _ _ _ _ _ _ _ _ _ _ _ _ _ _ _ _ HP (shaped_default _) HJ HSt) as (cs9 & y & E9 & HL & E1 & HRn & HWn).
    apply snoc_inj in E9 as [<- <-]. rel r0. apply (assign_wr _ _ _ _ _ _ _ _ HRn) in H2 as (h' & HSd & HSt').
    done_ (Some l) h' k1; [|eapply wr_again; eauto]. destruct h1 as [b1 x1]. cbn [o_bound o_own] in *. apply (b_one env ws p tb L ot oh u l b1 x1); auto.
    destruct (nil_or (value_ty ot)) as [E|E].
    + eapply assigned_any; eauto.
    + rewrite <- (E1 E). exact HSd.
  - (* atomic, no match *)
    begin. destruct Hok as [Hok Hr]. unfold areq in *. rewrite H in *. apply want_atom in H as [Hat Hp]. rewrite Hat.
    rewrite (rep_value_ty _ _ _ _ _ _ _ _ HP) in *. assert (HPn := rep_new _ _ _ _ _ _ _ _ (value_ty ot) (default_init (value_ty ot)) HP (shaped_default _)).
    ih IHev ws sk u um tb (value_ty ot) (the_own (value_ty ot)) (value_ty ot) (Objects (o_bound oh) (default_init (value_ty ot))).
    { split; auto; discriminate. }
    cbn [q_c with_c q_t JV] in *. destruct (new_step env _ _ _ _ _ _ _ _ _ _ _ _ _ _ _ _ _ HP (shaped_default _) HJ HSt) as (cs9 & y & E9 & HL & E1 & HRn & HWn).
    apply snoc_inj in E9 as [<- <-]. rel r0. destruct h1 as [b1 x1]. cbn [o_bound o_own] in *.
    done_ (@None (list Z)) (Objects b1 (o_own oh)) k1. eapply b_one_no; eauto.
  - (* Char *)
    begin. apply (assign_wr _ _ _ _ _ _ _ _ HP) in H0 as (h' & HSd & HSt). done_ (Some t) h' (@nil event).
    destruct Hok as [Hok _]. apply cs_fits_ok in Hok. inversion Tw; subst.
    apply (b_char env ws _ cs tb L ot oh u y t h'); auto; [rewrite Hs; auto|]. now apply (valid_in_set T).
  - begin. done_ (@None (list Z)) oh (@nil event); [|eapply wr_keep; eauto].
    destruct Hok as [Hok _]. apply cs_fits_ok in Hok. apply b_char_no. intros y t E. rewrite Hs, Ht in E.
    rewrite E in *. inversion Tw; subst. intros Hi. apply (valid_in_set T) in Hi; auto. congruence.
  - (* CharSymbol *) begin. destruct Hok. discriminate.
  - begin. destruct Hok. discriminate.
  - (* Eoi *)
    begin. unfold eqt in Hs. rewrite Ht in Hs. assert (HK := wr_keep _ _ _ _ _ _ _ _ HP). destruct (q_s w) eqn:E.
    + done_ (Some (@nil Z)) oh (@nil event). now apply b_eoi.
    + done_ (@None (list Z)) oh (@nil event). apply b_eoi_no. congruence.
  - (* Pass *)
    begin. done_ (Some u) oh (@nil event); [apply b_pass|eapply wr_keep; eauto].
  - (* Fail *)
    begin. done_ (@None (list Z)) oh (@nil event); [apply b_fail|eapply wr_keep; eauto].
  - (* Lit *)
    begin. pose proof (lit_run_ok l (q_s w)) as HLi. rewrite H in HLi. assert (HK := wr_keep _ _ _ _ _ _ _ _ HP).
    unfold eqt in Hs. rewrite Ht in Hs. destruct r.
    + done_ (Some s) oh (@nil event). apply b_lit. congruence.
    + done_ (@None (list Z)) oh (@nil event). apply b_lit_no. intros t. rewrite Hs. apply HLi.
  - (* Symbol *)
    begin. destruct Hok as [Hok _]. cbn [pokr] in Hok.
    unfold eqt in Hs. rewrite Ht in Hs. apply sym_spec in H.
    2:{ unfold keys_ok. rewrite Forall_forall. rewrite forallb_forall in Hok. intros kv Hin N. specialize (Hok _ Hin). rewrite N in Hok. discriminate. }
    destruct H as [_ H]. destruct r.
    + destruct H as (k & v & E & Hin & Has & _ & Hmx). apply (assign_wr _ _ _ _ _ _ _ _ HP) in Has as (h' & HSd & HSt).
      done_ (Some s) h' (@nil event).
      apply (b_sym env ws _ m k v); auto; [congruence|]. rewrite Hs. exact Hmx.
    + destruct H as [-> H]. done_ (@None (list Z)) oh (@nil event); [|eapply wr_keep; eauto]. apply b_sym_no. rewrite Hs. exact H.
  - (* UInt *)
    begin. destruct Hok as [Hok _]. apply num_fits_ok in Hok. destruct Hok as (HTc & Hb & Hlh). 
    assert (Forall (tok ct_char) (q_s w)) as Tw' by (rewrite <- HTc; exact Tw).
    unfold eqt in Hs. rewrite Ht in Hs. assert (r_atomic rq = false) as -> by (destruct (r_atomic rq); auto; discriminate (Ha eq_refl)).
    pose proof (uint_number b lo hi Hb Hlh _ _ _ _ _ _ Tw' H0) as HN.
    destruct (uint_numbered b lo hi Hb Hlh _ _ _ _ _ _ _ _ HP _ _ _ _ _ Tw' H H0) as (h' & HC & HSt).
    done_ (number b lo hi (trim ws u)) h' (@nil event); [apply b_uint; now rewrite Hs|]. rewrite Hs, HN. destruct r; cbn; auto with eqt.
  - (* Int *)
    begin. destruct Hok as [Hok _]. cbn [pokr] in Hok. apply andb_prop in Hok. destruct Hok as [Hok H1].
    apply num_fits_ok in Hok. destruct Hok as (HTc & Hb & Hlh). 
    assert (Forall (tok ct_char) (q_s w)) as Tw' by (rewrite <- HTc; exact Tw).
    unfold eqt in Hs. rewrite Ht in Hs. assert (r_atomic rq = false) as -> by (destruct (r_atomic rq); auto; discriminate (Ha eq_refl)).
    pose proof (int_number b lo hi Hb Hlh _ _ _ _ _ _ Tw' H0) as HN.
    destruct (int_numbered b lo hi Hb Hlh _ _ _ _ _ _ _ _ HP _ _ _ _ _ Tw' H H0) as (h' & HC & HSt).
    done_ (number b lo hi (unsigned (trim ws u))) h' (@nil event); [apply b_int; now rewrite Hs|]. rewrite Hs, HN. destruct r; cbn; auto with eqt.
  - (* Seq *)
    begin. assert (r_atomic rq = false) as -> by (destruct (r_atomic rq); auto; discriminate (Ha eq_refl)).
    ih IHev ws sk u um tb tx L ot oh.
    { destruct Hx as [Hx|Hx]; auto. left. cbn in Hx. destruct l; auto. }
    done_ r0 h1 k1. now apply b_seq.
  - (* Seq: failure *)
    begin. rewrite H in Hx. destruct (rep_part _ _ _ _ _ _ _ _ _ _ _ _ H H0 HP) as (tq & Lq & HA). destruct (part_rep _ _ _ _ _ _ _ _ _ _ _ _ _ H HA HP) as (di9 & E9 & HPq & HPa). rewrite H0 in E9. injection E9 as <-.
    ih IHev ws sk u x tb tx Lq tq oh.
    { destruct Hok as [Hok _]. split; [|discriminate]. cbn in Hok. rewrite forallb_forall in Hok. apply nth_error_In in H. auto. }
    { eapply tidy_in; eauto using nth_error_In. }
    rel r0. destruct (part_step env _ _ _ _ _ _ _ _ _ _ _ _ _ _ _ _ _ _ _ _ HP HA HJ HPa HSt) as [HP1 HSt1]. done_ (@None (list Z)) h1 k1. rewrite (skipn_cons _ _ _ H). eapply b_all_no; eauto.
  - (* Seq: end *)
    begin. rewrite H in Hx. destruct (rep_part _ _ _ _ _ _ _ _ _ _ _ _ H H1 HP) as (tq & Lq & HA). destruct (part_rep _ _ _ _ _ _ _ _ _ _ _ _ _ H HA HP) as (di9 & E9 & HPq & HPa). rewrite H1 in E9. injection E9 as <-.
    ih IHev ws sk u x tb tx Lq tq oh.
    { destruct Hok as [Hok _]. split; [|discriminate]. cbn in Hok. rewrite forallb_forall in Hok. apply nth_error_In in H. auto. }
    { eapply tidy_in; eauto using nth_error_In. }
    rel r0. destruct (part_step env _ _ _ _ _ _ _ _ _ _ _ _ _ _ _ _ _ _ _ _ HP HA HJ HPa HSt) as [HP1 HSt1]. done_ (Some l0) h1 k1. rewrite (skipn_cons _ _ _ H), (skipn_end _ _ H0).
    rewrite <- (app_nil_r k1). eapply b_all; [exact HA|exact HJ|apply b_all_end].
  - (* Seq: next *)
    begin. rewrite H in Hx. pose proof (toks_ev env T _ _ _ _ _ _ _ _ _ H2 Tx Tw Tx) as Tw1.
    destruct (rep_part _ _ _ _ _ _ _ _ _ _ _ _ H H1 HP) as (tq & Lq & HA). destruct (part_rep _ _ _ _ _ _ _ _ _ _ _ _ _ H HA HP) as (di9 & E9 & HPq & HPa). rewrite H1 in E9. injection E9 as <-.
    ih IHev1 ws sk u x tb tx Lq tq oh.
    { destruct Hok as [Hok _]. split; [|discriminate]. cbn in Hok. rewrite forallb_forall in Hok. apply nth_error_In in H. auto. }
    { eapply tidy_in; eauto using nth_error_In. }
    rel r0. destruct (part_step env _ _ _ _ _ _ _ _ _ _ _ _ _ _ _ _ _ _ _ _ HP HA HJ HPa HSt) as [HP1 HSt1].
    destruct (IHev2 ws sk l0 (q_s w1) tb tx L ot h1) as (r1 & h2 & k2 & HJ2 & HR2 & HSt2 & HK2); cbn; auto with eqt.
    done_ r1 h2 (k1 ++ k2).
    + rewrite (skipn_cons _ _ _ H). cbn [JV] in HJ2. rewrite (louds_next _ _ _ H) in HJ2. eapply b_all; eauto.
    + eapply wr_again; eauto.
    + eapply trace_app; eauto.
  - (* Alt *)
    begin. ih IHev ws sk u um tb tx L ot oh.
    { destruct Hx as [Hx|Hx]; auto. left. cbn in Hx. destruct l; auto. }
    done_ r0 h1 k1. now apply b_alt.
  - (* Alt: match *)
    begin. rewrite H in Hx. ih IHev ws sk u x tb tx L ot oh.
    { destruct Hok as [Hok _]. split; [|discriminate]. cbn in Hok. rewrite forallb_forall in Hok. apply nth_error_In in H. auto. }
    { eapply tidy_in; eauto using nth_error_In. }
    rel r0. done_ (Some l0) h1 k1. rewrite (skipn_cons _ _ _ H). now apply b_any.
  - (* Alt: end *)
    begin. rewrite H in Hx. ih IHev ws sk u x tb tx L ot oh.
    { destruct Hok as [Hok _]. split; [|discriminate]. cbn in Hok. rewrite forallb_forall in Hok. apply nth_error_In in H. auto. }
    { eapply tidy_in; eauto using nth_error_In. }
    rel r0. done_ (@None (list Z)) h1 k1. rewrite (skipn_cons _ _ _ H), (skipn_end _ _ H0). rewrite <- (app_nil_r k1).
    eapply b_any_next; [exact HJ|apply b_any_end].
  - (* Alt: next *)
    begin. rewrite H in Hx. pose proof (toks_ev env T _ _ _ _ _ _ _ _ _ H1 Tx Tw Tx) as Tw1.
    assert (spok T sk GRun (alt_req rq) q) as Hokq.
    { destruct Hok as [Hok _]. split; [|discriminate]. cbn in Hok. rewrite forallb_forall in Hok. apply nth_error_In in H. auto. }
    destruct (sound_all env T HT Henv _ _ _ _ _ _ _ _ _ H1 ws sk u x) as [_ HC]; cbn; auto with eqt; try discriminate.
    specialize (HC eq_refl eq_refl).
    ih IHev1 ws sk u x tb tx L ot oh. { eapply tidy_in; eauto using nth_error_In. }
    rel r0. destruct (IHev2 ws sk u (q_s w1) tb tx L ot h1) as (r1 & h2 & k2 & HJ2 & HR2 & HSt2 & HK2); cbn; auto with eqt.
    { eauto with eqt. }
    { eapply rep_step; eauto. }
    done_ r1 h2 (k1 ++ k2).
    + rewrite (skipn_cons _ _ _ H). eapply b_any_next; eauto.
    + eapply wr_again; eauto.
    + eapply trace_app; eauto.
  - (* Repeat *)
    begin. assert (r_atomic rq = false) as -> by (destruct (r_atomic rq); auto; discriminate (Ha eq_refl)).
    ih IHev ws sk u um tb tx L ot oh; [lia|]. done_ r0 h1 k1. now apply b_repeat.
  - (* Repeat: stop *)
    begin. destruct Hok as [Hok _]. cbn [pokr] in Hok. apply andb_prop in Hok. destruct Hok as [Hlh Hok].
    destruct (sound_all env T HT Henv _ _ _ _ _ _ _ _ _ H ws sk u x) as [_ HC]; cbn; auto with eqt; try discriminate.
    { split; auto. discriminate. }
    ih IHev ws sk u x tb tx L ot oh. { split; auto. discriminate. }
    rel r0. done_ (if lo <=? n then Some u else None) h1 k1; [now apply b_times_stop|].
    destruct (Nat.leb_spec lo n); cbn; auto. apply (eqt_trans _ _ _ _ Hs). apply eqt_sym. apply HC; auto. cbn.
    destruct (Nat.eqb_spec lo hi); cbn; auto. apply Nat.eqb_eq. lia.
  - (* Repeat: full *)
    begin. destruct Hok as [Hok _]. cbn [pokr] in Hok. apply andb_prop in Hok. destruct Hok as [Hlh Hok].
    ih IHev ws sk u x tb tx L ot oh. { split; auto. discriminate. }
    rel r0. done_ (Some l) h1 k1. apply b_times_full; auto. apply andb_prop in H0. now apply Nat.eqb_eq.
  - (* Repeat: more *)
    begin. assert (Hok' := Hok). destruct Hok as [Hok _]. cbn [pokr] in Hok. apply andb_prop in Hok. destruct Hok as [Hlh Hok].
    pose proof (toks_ev env T _ _ _ _ _ _ _ _ _ H Tx Tw Tx) as Tw1.
    ih IHev1 ws sk u x tb tx L ot oh. { split; auto. discriminate. }
    rel r0. assert (S n <> hi) as Hn.
    { intros <-. rewrite Nat.eqb_refl in H0. discriminate. }
    destruct (IHev2 ws sk l (q_s w1) tb tx L ot h1) as (r1 & h2 & k2 & HJ2 & HR2 & HSt2 & HK2); cbn; auto with eqt.
    { lia. } { eapply rep_step; eauto. }
    done_ r1 h2 (k1 ++ k2).
    + eapply b_times; eauto.
    + eapply wr_again; eauto.
    + eapply trace_app; eauto.
  - (* Not *)
    begin. destruct Hok as [Hok _]. destruct Hx as [Hx|Hx]; [discriminate|].
    ih IHev ws sk u x tb tx L ot oh. { split; auto. discriminate. }
    destruct r; rel r0.
    + done_ (@None (list Z)) h1 k1. eapply b_not. exact HJ.
    + done_ (Some u) h1 k1; [now apply b_not_no|]. cbn. eauto with eqt.
  - (* Opt: match *)
    begin. destruct Hok as [Hok _]. destruct Hx as [Hx|Hx]; [discriminate|].
    ih IHev ws sk u x tb tx L ot oh. { split; auto. discriminate. }
    rel r0. done_ (Some l) h1 k1. now apply b_opt.
  - (* Opt: no match *)
    begin. destruct Hok as [Hok _]. destruct Hx as [Hx|Hx]; [discriminate|].
    ih IHev ws sk u x tb tx L ot oh. { split; auto. discriminate. }
    rel r0. done_ (Some u) h1 k1; [now apply b_opt_no|]. cbn. eauto with eqt.
  - (* Discard *)
    begin. ih IHev ws sk u x tb tx Nowhere TNil oh. { eapply rep_nil; eauto. }
    done_ r0 h1 k1; [eapply b_discard; exact HJ|]. eapply nil_step; eauto.
  - (* Lexeme *)
    begin. destruct Hok as [Hok Hr]. cbn [pokr] in Hok. apply andb_prop in Hok. destruct Hok as [Hl Hok].
    assert (trim ws u = q_s w) as Eu by (unfold eqt in Hs; congruence).
    ih IHev nows false (trim ws u) x tb tx L ot oh.
    { destruct sk; cbn in Hl; auto. rewrite (Hnw eq_refl) in Hx. exact Hx. }
    { intros _. apply trim_nows. }
    { rewrite Eu. auto with eqt. }
    done_ r0 h1 k1; [now apply b_lexeme|]. destruct r; rel r0; auto. apply eqt_nows in HR. subst. auto with eqt.
  - (* WithSkipper *)
    begin. destruct Hok as [Hok Hr]. cbn [pokr] in Hok. 
    rewrite !andb_true_iff, !negb_true_iff in Hok. destruct Hok as (Hf & (((Hcl & Hrc) & He) & Hl) & Hok).
    assert (trim ws u = q_s w) as Eu by (unfold eqt in Hs; congruence).
    assert (Hx' : mk0 rq q = true \/ eqt (passes s) x (q_s w)).
    { destruct sk; cbn in Hl; auto. rewrite (Hnw eq_refl) in Hx. destruct Hx as [Hx|Hx]; [auto|]. apply eqt_nows in Hx. rewrite Hx. auto with eqt. }
    pose proof (skips_passes T HT s (c_bound c) Hf) as HSk.
    ih IHev (passes s) true (trim ws u) x tb tx L ot oh.
    { congruence. }
    { rewrite Eu. auto with eqt. }
    destruct (sound_exact env T HT Henv _ _ _ _ _ _ _ _ _ H (passes s) true (trim ws u) x) as [(r2 & HJ2 & HR2) _]; cbn; auto with eqt; try discriminate.
    { congruence. }
    { rewrite Eu. auto with eqt. }
    cbn [JV J] in HJ, HJ2. pose proof (m_det _ _ _ _ _ (mb_m _ _ _ _ _ _ _ _ _ _ _ HJ) _ HJ2). subst r2.
    done_ r0 h1 k1; [now apply b_skipper|]. destruct r0, r; cbn in *; auto. destruct HR2 as [_ HR2]. rewrite (HR2 He). auto with eqt.
  - (* BindDst *)
    begin. assert (r_atomic rq = false) as -> by (destruct (r_atomic rq); auto; discriminate (Ha eq_refl)).
    destruct Hok as [Hok _]. destruct (rep_holds _ _ _ _ _ _ _ _ HP) as (v & HH & HPv & _). assert (HPb := rep_bind _ _ _ _ _ _ _ _ _ HP HH).
    ih IHev ws sk u x ot TNil (the_bound ot) ot (Objects v VNil). { split; auto. discriminate. }
    cbn [c_bound] in HSt. apply wr_bind in HSt. destruct h1 as [v1 x1]. cbn [o_bound] in HSt. destruct (becomes_total _ _ _ v1 HH) as [h' Hh'].
    done_ r0 h' k1; [eapply b_bind; eauto|]. now apply (store_wr _ _ _ _ _ _ _ _ HP v v1).
  - (* Construct: match *)
    begin. destruct Hok as [Hok _]. assert (HPn := rep_args _ _ _ _ _ _ _ _ args (value_init (TTuple args)) HP (shaped_init (TTuple args))).
    ih IHev ws sk u x tb (TTuple args) (InOwn []) (TTuple args) (Objects (o_bound oh) (value_init (TTuple args))).
    { split; auto. discriminate. }
    cbn [q_c with_c q_t JV] in *. destruct (args_step env _ _ _ _ _ _ _ _ _ _ _ _ _ _ _ _ _ HP (shaped_init (TTuple args)) HJ HSt) as (cs9 & E9 & HL & (xs & Exs) & HRn & HWn).
    apply snoc_inj in E9 as [<- ->]. rel r0.
    rewrite (rep_ty _ _ _ _ _ _ _ _ HP) in H1. rewrite Exs in H1. apply made_from in H1. apply (assign_wr _ _ _ _ _ _ _ _ HRn) in H2 as (h' & HSd & HSt').
    destruct h1 as [b1 x1]. cbn [o_bound o_own] in *. subst x1.
    done_ (Some l) h' k1; [|eapply wr_again; eauto]. eapply b_construct; eauto.
  - (* Construct: no match *)
    begin. destruct Hok as [Hok _]. assert (HPn := rep_args _ _ _ _ _ _ _ _ args (value_init (TTuple args)) HP (shaped_init (TTuple args))).
    ih IHev ws sk u x tb (TTuple args) (InOwn []) (TTuple args) (Objects (o_bound oh) (value_init (TTuple args))).
    { split; auto. discriminate. }
    cbn [q_c with_c q_t JV] in *. destruct (args_step env _ _ _ _ _ _ _ _ _ _ _ _ _ _ _ _ _ HP (shaped_init (TTuple args)) HJ HSt) as (cs9 & E9 & HL & _ & HRn & HWn).
    apply snoc_inj in E9 as [<- ->]. rel r0. destruct h1 as [b1 x1]. cbn [o_bound o_own] in *.
    done_ (@None (list Z)) (Objects b1 (o_own oh)) k1. eapply b_construct_no; eauto.
  - (* Act: match *)
    begin. destruct Hok as [Hok _]. cbn [tidy] in Hsi. assert (HPn := rep_new _ _ _ _ _ _ _ _ (ac_land a) (default_init (ac_land a)) HP (shaped_default _)).
    ih IHev ws sk u x tb (ac_land a) (the_own (ac_land a)) (ac_land a) (Objects (o_bound oh) (default_init (ac_land a))).
    { split; auto. discriminate. }
    cbn [q_c with_c q_t JV] in *. destruct (new_step env _ _ _ _ _ _ _ _ _ _ _ _ _ _ _ _ _ HP (shaped_default _) HJ HSt) as (cs9 & y9 & E9 & HL & E1 & HRn & HWn).
    apply snoc_inj in E9 as [<- <-]. rel r0. destruct h1 as [b1 x1]. cbn [o_bound o_own] in *.
    apply (act_calls _ _ _ _ _ _ _ _ _ _ _ _ _ HRn) in H1 as (y & h' & cs' & E & HCa & HSt' & ->). cbn [q_s q_c q_t] in *.
    done_ (Some l) h' (k1 ++ [Event (ac_id a) y]).
    + eapply b_act; eauto. destruct (nil_or (ac_land a)) as [N|N].
      * rewrite N in *. exact E.
      * rewrite <- (E1 N). exact E.
    + eapply wr_again; eauto.
    + rewrite rev_app_distr. cbn. now f_equal.
  - (* Act: no match *)
    begin. destruct Hok as [Hok _]. cbn [tidy] in Hsi. assert (HPn := rep_new _ _ _ _ _ _ _ _ (ac_land a) (default_init (ac_land a)) HP (shaped_default _)).
    ih IHev ws sk u x tb (ac_land a) (the_own (ac_land a)) (ac_land a) (Objects (o_bound oh) (default_init (ac_land a))).
    { split; auto. discriminate. }
    cbn [q_c with_c q_t JV] in *. destruct (new_step env _ _ _ _ _ _ _ _ _ _ _ _ _ _ _ _ _ HP (shaped_default _) HJ HSt) as (cs9 & y9 & E9 & HL & E1 & HRn & HWn).
    apply snoc_inj in E9 as [<- <-]. rel r0. destruct h1 as [b1 x1]. cbn [o_bound o_own] in *.
    done_ (@None (list Z)) (Objects b1 (o_own oh)) k1. eapply b_act_no; eauto.
  - (* Except: hit *)
    begin. destruct Hok as [Hok _]. cbn [pokr] in Hok. apply andb_prop in Hok. destruct Hok as [Hok1 Hok2].
    cbn [tidy] in Hsi. apply andb_prop in Hsi as [Hs1 Hs2].
    ih IHev ws sk u x tb tx Nowhere TNil oh. { split; auto. discriminate. } { eapply rep_nil; eauto. }
    destruct (nil_step env _ _ _ _ _ _ _ _ _ _ _ _ _ _ _ HP HJ HSt) as [HP1 HSt1]. rel r0. done_ (@None (list Z)) h1 k1. eapply b_except; exact HJ.
  - (* Except: go *)
    begin. destruct Hok as [Hok _]. cbn [pokr] in Hok. apply andb_prop in Hok. destruct Hok as [Hok1 Hok2].
    cbn [tidy] in Hsi. apply andb_prop in Hsi as [Hs1 Hs2].
    pose proof (toks_ev env T _ _ _ _ _ _ _ _ _ H Tx Tw Tx) as Tw1.
    destruct (sound_all env T HT Henv _ _ _ _ _ _ _ _ _ H ws sk u x) as [_ HC]; cbn; auto with eqt; try discriminate.
    { split; auto. discriminate. }
    specialize (HC eq_refl eq_refl).
    ih IHev1 ws sk u x tb tx Nowhere TNil oh. { split; auto. discriminate. } { eapply rep_nil; eauto. }
    destruct (nil_step env _ _ _ _ _ _ _ _ _ _ _ _ _ _ _ HP HJ HSt) as [HP1 HSt1]. rel r0.
    destruct (IHev2 ws sk u (q_s w1) tb tx L ot h1) as (r1 & h2 & k2 & HJ2 & HR2 & HSt2 & HK2); cbn; auto with eqt; try discriminate.
    { split; auto. discriminate. }
    { eauto with eqt. }
    done_ r1 h2 (k1 ++ k2).
    + eapply b_except_no; eauto.
    + eapply wr_again; eauto.
    + eapply trace_app; eauto.
  - (* PList *)
    begin. assert (r_atomic rq = false) as -> by (destruct (r_atomic rq); auto; discriminate (Ha eq_refl)).
    destruct Hx as [Hx|Hx]; [discriminate|].
    ih IHev ws sk u u tb tx L ot oh; [eauto with eqt|].
    destruct HJ as [[HJ ->]|(s1 & h2 & k2 & k3 & HJ & HM & ->)].
    + done_ (Some u) h1 k1. now apply b_list_none.
    + done_ r0 h1 (k2 ++ k3). eapply b_list; eauto.
  - (* list: element missing *)
    begin. destruct Hok as [Hok _]. cbn [pokr] in Hok. apply andb_prop in Hok. destruct Hok as [Hok1 Hok2].
    cbn [tidy] in Hsi. apply andb_prop in Hsi as [Hs1 Hs2].
    ih IHev ws sk u x tb tx L ot oh. { split; auto. discriminate. }
    rel r0. done_ (Some um) h1 k1.
  - (* list: element *)
    begin. assert (Hok' := Hok). destruct Hok as [Hok _]. cbn [pokr] in Hok. apply andb_prop in Hok. destruct Hok as [Hok1 Hok2].
    assert (Hsi' := Hsi). cbn [tidy] in Hsi. apply andb_prop in Hsi as [Hs1 Hs2].
    pose proof (toks_ev env T _ _ _ _ _ _ _ _ _ H Tx Tw Tx) as Tw1.
    ih IHev1 ws sk u x tb tx L ot oh. { split; auto. discriminate. }
    rel r0. destruct (IHev2 ws sk l (q_s w1) tb tx L ot h1) as (r1 & h2 & k2 & HJ2 & HR2 & HSt2 & HK2); cbn; auto with eqt.
    { eapply rep_step; eauto. }
    done_ r1 h2 (k1 ++ k2).
    + right. exists l, h1, k1, k2. auto.
    + eapply wr_again; eauto.
    + eapply trace_app; eauto.
  - (* list: separator missing *)
    begin. destruct Hok as [Hok _]. cbn [pokr] in Hok. apply andb_prop in Hok. destruct Hok as [Hok1 Hok2].
    cbn [tidy] in Hsi. apply andb_prop in Hsi as [Hs1 Hs2].
    ih IHev ws sk u x tb tx Nowhere TNil oh. { split; auto. discriminate. } { eapply rep_nil; eauto. }
    destruct (nil_step env _ _ _ _ _ _ _ _ _ _ _ _ _ _ _ HP HJ HSt) as [HP1 HSt1]. rel r0. done_ (Some u) h1 k1; [eapply b_more_end; exact HJ|cbn; eauto with eqt].
  - (* list: separator *)
    begin. assert (Hok' := Hok). destruct Hok as [Hok _]. cbn [pokr] in Hok. apply andb_prop in Hok. destruct Hok as [Hok1 Hok2].
    assert (Hsi' := Hsi). cbn [tidy] in Hsi. apply andb_prop in Hsi as [Hs1 Hs2].
    pose proof (toks_ev env T _ _ _ _ _ _ _ _ _ H Tx Tw Tx) as Tw1.
    ih IHev1 ws sk u x tb tx Nowhere TNil oh. { split; auto. discriminate. } { eapply rep_nil; eauto. }
    destruct (nil_step env _ _ _ _ _ _ _ _ _ _ _ _ _ _ _ HP HJ HSt) as [HP1 HSt1]. rel r0.
    destruct (IHev2 ws sk l u tb tx L ot h1) as (r1 & h2 & k2 & HJ2 & HR2 & HSt2 & HK2); cbn; auto with eqt.
    { eauto with eqt. }
    destruct HJ2 as [[HJ2 ->]|(s2 & h3 & k3 & k4 & HJ2 & HM & ->)].
    + done_ (Some u) h2 (k1 ++ k2); [eapply b_more_trailing; eauto|eapply wr_again; eauto|eapply trace_app; eauto].
    + done_ r1 h2 (k1 ++ k3 ++ k4); [eapply b_more; eauto|eapply wr_again; eauto|eapply trace_app; eauto].
  - (* Recur *)
    begin. assert (r_atomic rq = false) as -> by (destruct (r_atomic rq); auto; discriminate (Ha eq_refl)).
    ih IHev ws sk u (q_s w) tb tx L ot oh.
    { split; [|auto]. destruct sk; [now apply (Henv id)|]. apply peg_ok_mono. now apply (Henv id). }
    { eapply Htidy; eauto. }
    done_ r0 h1 k1. eapply b_recur; eauto.
Qed.
End Attr.
