(** Where the next character decides, with skippers of any kind, what is written for a value is
    read as that value (for C59). *)
From Coq Require Import List ZArith Bool Arith Lia.
From Verif Require Import Base CharSet Dst Pattern Parser SpecPeg SpecLeaf SpecValue SpecType SpecAttr SpecLang SpecSpell SpecWrite SpecSpellValue.
From Verif Require Import Rel PegSound PegTerm AttrMem AttrRun SpellThms.
From Verif Require LangThms WriteThms.
Import ListNotations.

Local Arguments SpecPeg.trim : simpl never.

(** ** The text without the values *)
Lemma sv_spells env gp f t v s s' v' k : sv env gp f t v s s' v' k -> spells env gp (WriteThms.bare_form f) s s'.
Proof. induction 1; cbn [WriteThms.bare_form] in *; auto; try (econstructor; eauto; fail). Qed.

(** ** Attempts *)
Section Ahead.
Context (env : nat -> option pat) (nul : nat -> bool) (fst_of : nat -> option Z -> Prop) (fol : bool -> nat -> option Z -> Prop) (rank : nat -> nat) (ws : Z -> bool) (gp : gap).
Context (cal : nat -> ty -> bool -> bool) (tid : nat -> ty -> bool).
Local Notation mv := (SpecAttr.mv env).
Local Notation sv := (sv env).
Local Notation null := (null nul).
Local Notation fst_set := (fst_set nul fst_of).
Local Notation fst_all := (fst_all nul fst_of).
Local Notation ahead := (ahead nul fst_of).
Local Notation ll := (ll nul fst_of fol env ws).
Local Notation ll_all := (ll_all env nul fst_of fol ws).
Local Notation ll_any := (ll_any env nul fst_of fol ws).
Local Notation front := (front nul rank).
Local Notation front_all := (front_all nul rank).
Local Notation calm := (calm nul cal).
Local Notation tidy := (tidy nul cal tid).
Local Notation skip := (skip gp).
Local Notation calm_all := (WriteThms.calm_all nul cal).
Local Notation tidy_all := (WriteThms.tidy_all nul cal tid).
Context (Hall : all_ll nul fst_of fol rank env ws) (Htidy : all_tidy nul cal tid env) (Hgp : starters ws gp).

Lemma onechar_miss q : forall cs sk t v s, onechar q = Some cs -> ~ among cs (upcoming sk s) -> mv sk (VOne false q) t v s None v [].
Proof.
  induction q using pat_ind'; intros c sk t v u E HN; try discriminate; cbn in E.
  - injection E as ->. apply v_char_no. intros y s' Et Hy. apply HN. exists y. unfold upcoming. now rewrite Et.
  - eapply v_discard. eauto.
  - apply v_bind. eauto.
  - eapply v_act_no. eauto.
Qed.
Lemma onechar_hit q : forall cs sk t v s, onechar q = Some cs -> hushed t q = true -> among cs (upcoming sk s) -> exists s', mv sk (VOne false q) t v s (Some s') v [].
Proof.
  induction q using pat_ind'; intros c sk t v u E Hh HN; try discriminate; cbn in E, Hh.
  - injection E as ->. destruct HN as (y & Ey & Hy). unfold upcoming in Ey. destruct (trim sk u) as [|z s'] eqn:Et; [discriminate|]. injection Ey as ->.
    exists s'. eapply v_char; eauto. destruct t; try discriminate. constructor.
  - destruct (IHq _ sk TNil VNil u E Hh HN) as (s' & H). exists s'. eapply v_discard. eauto.
  - destruct (IHq _ sk t v u E Hh HN) as (s' & H). exists s'. now apply v_bind.
Qed.

(** Without a character to start with. *)
Definition idle_v (lex one : bool) (p : pat) (t : ty) (v : val) (waste : bool) (s : list Z) : Prop :=
  exists r v', mv (skip lex) (VOne one p) t v s r v' [] /\ (waste = false -> v' = v) /\
  if null p then exists s', r = Some s' /\ eqt (skip lex) s' s else r = None.
Definition idle_all (lex : bool) (i : nat) (l : list pat) (t : ty) (v : val) (waste : bool) (s : list Z) : Prop :=
  exists r v', mv (skip lex) (VAll i l) t v s r v' [] /\ (waste = false -> v' = v) /\
  if forallb null l then exists s', r = Some s' /\ eqt (skip lex) s' s else r = None.

Definition idle_raw (k : nat) (p : pat) : Prop :=
  front k p = true -> forall lex K u t v waste one, own one p = false -> calm t waste one p = true -> ll lex p K ->
  ~ fst_set p (upcoming (skip lex) u) -> shaped t v = true -> idle_v lex one p t v waste u.
Definition idle_full (k : nat) (p : pat) : Prop :=
  front k p = true -> forall lex K u t v waste one, calm t waste one p = true -> ll lex p K ->
  ~ fst_set p (upcoming (skip lex) u) -> shaped t v = true -> idle_v lex one p t v waste u.
Lemma raw_full k p : idle_raw k p -> idle_full k p.
Proof.
  intros H HF lex K u t v waste one HC HL HN Sh. destruct (own one p) eqn:Eo; [|eapply H; eauto].
  unfold own in Eo. apply andb_prop in Eo as [-> Ea]. apply negb_true_iff in Ea. rewrite (WriteThms.calm_own nul cal _ _ _ Ea) in HC. apply andb_prop in HC as [HC1 HC2].
  destruct (H HF lex K u (value_ty t) (default_init (value_ty t)) true false eq_refl HC2 HL HN (shaped_default _)) as (r & x & HM & _ & HR).
  unfold idle_v. destruct (null p).
  - destruct HR as (s' & -> & E). cbn in HC1. destruct t; try discriminate. exists (Some s'), v. split; [|eauto].
    eapply v_one; [exact Ea|exact HM|constructor].
  - subst r. exists None, v. split; [|auto]. eapply v_one_no; eauto.
Qed.

Ltac open_calm HC Eo := match type of HC with SpecWrite.calm _ _ ?t ?w ?o ?p = true =>
  let E1 := fresh in let E2 := fresh in destruct (WriteThms.own_false o p Eo t w) as [E1 E2]; cbn [SpecWrite.calm] in HC; rewrite ?E1, ?E2, ?Eo in HC; cbn [negb orb andb] in HC; clear E1 E2 end.

Lemma idle_mv k : forall p, idle_raw k p.
Proof.
  induction k as [k IHk] using lt_wf_ind. induction p using pat_ind'; intros HF lex K u t v waste one Eo HC HL HN Sh; unfold idle_v; cbn [SpecLang.null]; open_calm HC Eo;
    repeat match goal with IH : idle_raw _ _ |- _ => apply raw_full in IH end.
  - (* Char *) exists None, v. split; [|auto]. apply v_char_no. intros y t' E Hy. apply HN. exists y. unfold upcoming. now rewrite E.
  - (* CharSymbol *) destruct HL.
  - (* Eoi *) exists None, v. split; [|auto]. apply v_eoi_no. intros E. apply HN. unfold upcoming. cbn. now rewrite E.
  - (* Pass *) exists (Some u), v. split; [constructor|]. split; auto. exists u. split; reflexivity.
  - (* Fail *) exists None, v. split; [constructor|auto].
  - (* Lit *) destruct s as [|z l]; cbn [length Nat.eqb].
    + exists (Some (trim (skip lex) u)), v. split; [now constructor|]. split; auto. eexists. split; [reflexivity|apply eqt_trim].
    + exists None, v. split; [|auto]. apply v_lit_no. intros t' E. apply HN. unfold upcoming. cbn. rewrite E. cbn. split; [discriminate|reflexivity].
  - (* Symbol *) exists None, v. split; [|auto]. apply v_sym_no. intros k0 x t' E Hi. destruct k0 as [|z k0]; [now apply (proj1 HL x)|].
    apply HN. exists (z :: k0), x. split; auto. unfold upcoming. rewrite E. cbn. split; [discriminate|reflexivity].
  - (* UInt *) destruct one; [discriminate|]. apply andb_prop in HC as [HC1 HC2].
    assert (Ed : digits b (trim (skip lex) u) = 0).
    { destruct (trim (skip lex) u) as [|z t'] eqn:E; [reflexivity|]. cbn. destruct (is_digit b z) eqn:Ez; auto. exfalso. apply HN. exists z. unfold upcoming. now rewrite E. }
    assert (Et : taken b hi (trim (skip lex) u) = 0) by (unfold taken; rewrite Ed; destruct (0 <? hi)%Z; lia).
    destruct (WriteThms.counted_none b false t v HC1) as [v' Hv].
    assert (HM : mv (skip lex) (VOne false (UInt b lo hi)) t v u (number b lo hi (trim (skip lex) u)) v' []) by (apply v_uint; rewrite Et; exact Hv).
    unfold number in HM. rewrite Et in HM. cbn [Z.of_nat skipn] in HM. eexists _, v'. split; [exact HM|]. split.
    + intros ->. cbn in HC2. destruct t; try discriminate. eapply WriteThms.counted_nil; eauto.
    + destruct (lo <=? 0)%Z; [|reflexivity]. eexists. split; [reflexivity|apply eqt_trim].
  - (* Int *) destruct one; [discriminate|]. apply andb_prop in HC as [HC1 HC2].
    assert (Eu : unsigned (trim (skip lex) u) = trim (skip lex) u /\ digits b (trim (skip lex) u) = 0).
    { destruct (trim (skip lex) u) as [|z t'] eqn:E; [auto|]. cbn. assert (upcoming (skip lex) u = Some z) as En by (unfold upcoming; now rewrite E). rewrite En in HN. split.
      - destruct ((z =? 45) || (z =? 43))%Z eqn:Ez; auto. exfalso. apply HN. exists z. split; auto. apply orb_prop in Ez. rewrite !Z.eqb_eq in Ez. tauto.
      - destruct (is_digit b z) eqn:Ez; auto. exfalso. apply HN. exists z. auto. }
    destruct Eu as [Eu Ed]. assert (Et : taken b hi (trim (skip lex) u) = 0) by (unfold taken; rewrite Ed; destruct (0 <? hi)%Z; lia).
    destruct (WriteThms.counted_none b (negative (trim (skip lex) u)) t v HC1) as [v' Hv].
    assert (HM : mv (skip lex) (VOne false (Int b lo hi)) t v u (number b lo hi (unsigned (trim (skip lex) u))) v' []) by (apply v_int; rewrite Eu, Et; exact Hv).
    rewrite Eu in HM. unfold number in HM. rewrite Et in HM. cbn [Z.of_nat skipn] in HM. eexists _, v'. split; [exact HM|]. split.
    + intros ->. cbn in HC2. destruct t; try discriminate. eapply WriteThms.counted_nil; eauto.
    + destruct HL as [Hlo _]. destruct (lo <=? 0)%Z eqn:El; [apply Z.leb_le in El; lia|reflexivity].
  - (* Seq *) destruct one; [discriminate|]. rewrite ll_seq in HL. change (front_all k l = true) in HF. change (~ fst_all l (upcoming (skip lex) u)) in HN.
    change (calm_all t waste 0 l = true) in HC.
    assert (G : forall i, calm_all t waste i l = true -> idle_all lex i l t v waste u).
    { clear HC Eo. revert u v HN HF HL Sh. induction H as [|q l Hq Hl IHl]; intros u v HN HF HL Sh i HC.
      { exists (Some u), v. split; [constructor|]. split; auto. exists u. split; reflexivity. }
      apply raw_full in Hq. cbn [WriteThms.calm_all] in HC. destruct (part_ty t i q) as [tq|] eqn:Ep; [|discriminate]. apply andb_prop in HC as [HC1 HC2].
      destruct (WriteThms.part_ex q i t v tq Ep Sh) as (vq & Sq & HP & HP0).
      rewrite fst_all_cons in HN. cbn [SpellThms.front_all] in HF. apply andb_prop in HF as [HF1 HF2]. destruct HL as [HL1 HL2]. unfold idle_all. cbn [forallb].
      destruct (look q) eqn:Elk.
      - rewrite (null_look nul q Elk) in *. rewrite orb_true_r in HF2, HC2. destruct (look_dec env nul fst_of fol ws q (upcoming (skip lex) u) _ _ Elk HL1) as [Hf|Hf].
        + assert (HN' : ~ (forallb null l = true) /\ ~ fst_all l (upcoming (skip lex) u)) by tauto. destruct HN' as [N1 N2].
          destruct (IHl u v N2 HF2 HL2 Sh _ HC2) as (r & v' & M2 & W2 & R2). destruct (forallb null l); [congruence|]. subst r. cbn [andb].
          exists None, v'. split; [|auto]. change (@nil event) with (@nil event ++ []). eapply v_all; [exact HP0| |exact M2].
          destruct q; try discriminate. apply v_not_no. cbn in HL1. destruct HL1 as (cs & Ec & _). eapply onechar_miss; eauto. cbn in Hf. rewrite Ec in Hf. exact Hf.
        + destruct (Hq HF1 lex _ u tq vq waste false HC1 HL1 Hf Sq) as (r & x & M1 & W1 & R1). rewrite (null_look nul q Elk) in R1. subst r. cbn [andb].
          destruct waste.
          * destruct (HP x) as [v1 P1]. exists None, v1. split; [eapply v_all_no; eauto|split; [discriminate|auto]].
          * specialize (W1 eq_refl). subst x. exists None, v. split; [eapply v_all_no; eauto|auto].
      - rewrite orb_false_r in HF2, HC2. assert (N1 : ~ fst_set q (upcoming (skip lex) u)) by tauto.
        destruct (Hq HF1 lex _ u tq vq waste false HC1 HL1 N1 Sq) as (r & x & M1 & W1 & R1).
        assert (G1 : exists v1, part_at q i x t v tq vq v1 /\ (waste = false -> v1 = v)).
        { destruct waste; [destruct (HP x) as [v1 P1]; exists v1; split; [auto|discriminate]|]. specialize (W1 eq_refl). subst x. eauto. }
        destruct G1 as (v1 & P1 & Wv). destruct (null q); cbn [andb].
        + destruct R1 as (s1 & -> & E1). assert (Sh1 : shaped t v1 = true) by (eapply part_shaped; eauto; eapply mv_shaped; eauto).
          assert (N2 : ~ fst_all l (upcoming (skip lex) s1)) by (rewrite (upcoming_eqt _ _ _ E1); tauto).
          destruct (IHl s1 v1 N2 HF2 HL2 Sh1 _ HC2) as (r & v' & M2 & W2 & R2). exists r, v'. split; [change (@nil event) with (@nil event ++ []); eapply v_all; eauto|].
          split; [intros W; rewrite (W2 W); auto|]. destruct (forallb null l); auto. destruct R2 as (s2 & -> & E2). exists s2. split; auto. eapply eqt_trans; eauto.
        + subst r. exists None, v1. split; [eapply v_all_no; eauto|auto]. }
    destruct (G 0 HC) as (r & v' & HM & W & R). exists r, v'. split; [now apply v_seq|auto].
  - (* Alt *) rewrite ll_alt in HL. cbn in HF, HN.
    assert (G : exists r v', mv (skip lex) (VAny one l) t v u r v' [] /\ (waste = false -> v' = v) /\ if existsb null l then exists s', r = Some s' /\ eqt (skip lex) s' u else r = None).
    { clear Eo. revert v HN HF HL HC Sh. induction H as [|q l Hq Hl IHl]; intros v HN HF HL HC Sh; [exists None, v; repeat split; constructor|].
      apply raw_full in Hq. cbn [forallb] in HF, HC. apply andb_prop in HF as [HF1 HF2]. apply andb_prop in HC as [HC1 HC2]. destruct HL as (HL1 & HL2 & _ & HL3). cbn [existsb].
      assert (N1 : ~ fst_set q (upcoming (skip lex) u)) by tauto. destruct (Hq HF1 lex _ u t v waste one HC1 HL1 N1 Sh) as (r & v1 & M1 & W1 & R1).
      destruct (null q); cbn [orb].
      - destruct R1 as (s1 & -> & E1). exists (Some s1), v1. split; [now apply v_any|]. split; auto. eauto.
      - subst r. assert (N2 : ~ (fix go (l : list pat) : Prop := match l with [] => False | q :: t => fst_set q (upcoming (skip lex) u) \/ go t end) l) by tauto.
        destruct (IHl v1 N2 HF2 HL3 HC2 (mv_shaped _ _ _ _ _ _ _ _ _ M1 Sh)) as (r & v' & M2 & W2 & R2). exists r, v'.
        split; [change (@nil event) with (@nil event ++ []); eapply v_any_next; eauto|]. split; [intros W; rewrite (W2 W); auto|auto]. }
    destruct G as (r & v' & HM & W & R). exists r, v'. split; [now apply v_alt|auto].
  - (* Repeat *) destruct one; [discriminate|]. cbn in HF, HN. destruct HL as (HL1 & Hn & _). destruct (IHp HF lex _ u t v waste true HC HL1 HN Sh) as (r & v' & HM & W & R).
    rewrite Hn in R. subst r. pose proof (v_repeat env (skip lex) lo hi p t v u _ _ _ (v_times_stop env (skip lex) lo hi 0 p t v u _ _ HM)) as M.
    exists (if lo <=? 0 then Some u else None), v'. split; [exact M|]. split; auto. destruct lo; cbn; auto. exists u. split; reflexivity.
  - (* Not *) destruct HL as (cs & E & _). cbn in HN. rewrite E in HN. destruct (LangThms.among_dec cs (upcoming (skip lex) u)) as [Ha|Ha]; [|tauto].
    destruct (onechar_hit p cs (skip lex) t v u E HC Ha) as [s' Hs]. exists None, v. split; [eapply v_not; eauto|auto].
  - (* Opt *) cbn in HF, HN. destruct HL as (HL1 & _). destruct (IHp HF lex _ u t v waste true HC HL1 HN Sh) as (r & v' & HM & W & R). destruct (null p).
    + destruct R as (s' & -> & E). exists (Some s'), v'. split; [now apply v_opt|]. eauto.
    + subst r. exists (Some u), v'. split; [now apply v_opt_no|]. split; auto. exists u. split; reflexivity.
  - (* Discard *) cbn in HF, HN, HL. destruct (IHp HF lex _ u TNil VNil waste one HC HL HN eq_refl) as (r & v' & HM & W & R). exists r, v. split; [eapply v_discard; eauto|auto].
  - (* Lexeme *) cbn in HF, HN, HL. assert (N1 : ~ fst_set p (upcoming (skip true) (trim (skip lex) u))) by (unfold upcoming; cbn [SpellThms.skip]; rewrite trim_nows; exact HN).
    destruct (IHp HF true _ (trim (skip lex) u) t v waste one HC HL N1 Sh) as (r & v' & HM & W & R). exists r, v'. split; [now apply v_lexeme|]. split; auto.
    destruct (null p); auto. destruct R as (s' & -> & E). apply eqt_nows in E. subst s'. eexists. split; [reflexivity|apply eqt_trim].
  - (* WithSkipper *) destruct HL.
  - (* BindDst *) destruct one; [discriminate|]. cbn in HF, HN, HL. destruct (IHp HF lex _ u t v waste false HC HL HN Sh) as (r & v' & HM & W & R). exists r, v'. split; [now apply v_bind|auto].
  - (* Construct *) apply andb_prop in HC as [HC1 HC2]. apply negb_true_iff in HC1. rewrite HC1. cbn in HF, HN, HL.
    destruct (IHp HF lex _ u (TTuple args) (value_init (TTuple args)) true false HC2 HL HN (shaped_init _)) as (r & v' & HM & W & R). rewrite HC1 in R. subst r.
    exists None, v. split; [eapply v_construct_no; eauto|auto].
  - (* Act *) apply andb_prop in HC as [HC1 HC2]. apply negb_true_iff in HC1. rewrite HC1. cbn in HF, HN, HL.
    destruct (IHp HF lex _ u (ac_land a) (default_init (ac_land a)) true false HC2 HL HN (shaped_default _)) as (r & v' & HM & W & R). rewrite HC1 in R. subst r.
    exists None, v. split; [eapply v_act_no; eauto|auto].
  - (* Except *) cbn in HF, HN. apply andb_prop in HC as [HC1 HC2]. destruct HL as (HL1 & Hn & _ & cs & E). rewrite E in HN. rewrite Hn. destruct (LangThms.among_dec cs (upcoming (skip lex) u)) as [Ha|Ha].
    + destruct (onechar_hit p2 cs (skip lex) TNil VNil u E HC1 Ha) as [s' Hs]. exists None, v. split; [eapply v_except; eauto|auto].
    + assert (N1 : ~ fst_set p1 (upcoming (skip lex) u)) by tauto. destruct (IHp1 HF lex _ u t v waste one HC2 HL1 N1 Sh) as (r & v' & HM & W & R). rewrite Hn in R.
      exists r, v'. split; [|auto]. change (@nil event) with (@nil event ++ []). eapply v_except_no; eauto. eapply onechar_miss; eauto.
  - (* PList *) destruct one; [discriminate|]. cbn in HF, HN. destruct HL as (HL1 & _ & Hn & _). destruct (IHp1 HF lex _ u t v waste true HC HL1 HN Sh) as (r & v' & HM & W & R). rewrite Hn in R. subst r.
    exists (Some u), v'. split; [now apply v_list_none|]. split; auto. exists u. split; reflexivity.
  - (* Recur *) destruct one; [discriminate|]. cbn in HF, HN. destruct HL as (HD & _). destruct (env id) as [q|] eqn:E; [|congruence]. destruct (Hall id q E) as (Hn & Hf & Hfr & Hl).
    apply Nat.ltb_lt in HF. assert (N1 : ~ fst_set q (upcoming (skip lex) u)) by (intros H; apply HN; auto). destruct (Htidy id q E) as [Hc _].
    destruct (IHk _ HF q Hfr lex _ u t v waste false eq_refl (Hc _ _ HC) (Hl lex) N1 Sh) as (r & v' & HM & W & R). rewrite Hn. exists r, v'. split; [eapply v_recur; eauto|auto].
Qed.

Lemma idle_here p lex K s t v waste one : ll lex p K -> ~ fst_set p (upcoming (skip lex) s) -> calm t waste one p = true -> shaped t v = true -> idle_v lex one p t v waste s.
Proof. intros HL HN HC Sh. destruct (front_ex nul rank p) as [k Hk]. exact (raw_full k p (idle_mv k p) (Hk k (le_n k)) lex K s t v waste one HC HL HN Sh). Qed.
Lemma idle_gone p lex K s t v one : ll lex p K -> null p = false -> ~ fst_set p (upcoming (skip lex) s) -> calm t false one p = true -> shaped t v = true ->
  mv (skip lex) (VOne one p) t v s None v [].
Proof.
  intros HL Hn HN HC Sh. destruct (idle_here p lex K s t v false one HL HN HC Sh) as (r & v' & HM & W & R). rewrite Hn in R. subst r. now rewrite (W eq_refl) in HM.
Qed.

(** ** What can be written is read *)
Definition written_v (lex : bool) (f : vform) (t : ty) (v : val) (s e : list Z) (v' : val) (k : list event) : Prop :=
  forall (K : option Z -> Prop) s0, K (upcoming (skip lex) e) -> eqt (skip lex) s0 s -> shaped t v = true ->
  match f with
  | WOne o p => ll lex p K -> tidy t o p = true -> exists s', mv (skip lex) (VOne o p) t v s0 (Some s') v' k /\ eqt (skip lex) s' e
  | WAll i l => ll_all lex K l -> tidy_all t i l = true -> exists s', mv (skip lex) (VAll i l) t v s0 (Some s') v' k /\ eqt (skip lex) s' e
  | WRow n p => ll lex p (fun o => fst_set p o \/ K o) -> null p = false -> tidy t true p = true -> calm t false true p = true ->
      forall lo hi j, (hi = 0 \/ j < hi) -> lo <= j + n -> (hi <> 0 -> j + n <= hi) -> ((hi <> 0 /\ lo = hi) \/ apart (fst_set p) K) ->
      exists s', mv (skip lex) (VTimes lo hi j p) t v s0 (Some s') v' k /\ eqt (skip lex) s' e
  | WMore p sep =>
      ll lex p (fun o => fst_set sep o \/ null sep = true /\ fst_set p o \/ K o) -> ll lex sep (fst_set p) -> null p = false ->
      apart (fst_set p) K -> apart (fst_set sep) K ->
      tidy t true p = true -> calm t false true p = true -> tidy TNil false sep = true -> calm TNil false false sep = true ->
      exists s', mv (skip lex) (VMore p sep) t v s0 (Some s') v' k /\ eqt (skip lex) s' e
  end.

Lemma spells_starts sk f s t : spells env sk f s t -> forall lex, sk = skip lex -> written env nul fst_of fol ws gp lex f s t.
Proof. exact (spells_written env nul fst_of fol rank ws gp Hall Hgp sk f s t). Qed.
Ltac own_off HT o p t := let Eo := fresh in destruct (WriteThms.own_false o p) with (t := t) (waste := false) as [Eo _]; [unfold own; cbn; apply andb_false_r|]; rewrite Eo in HT; clear Eo.

Lemma sv_written w0 f t v s e v' k : sv w0 f t v s e v' k -> forall lex, w0 = skip lex -> written_v lex f t v s e v' k.
Proof.
  induction 1; intros lex ->; unfold written_v; intros K s0 HK HE Sh;
    repeat match goal with IH : forall lex', skip ?l = skip lex' -> _ |- _ => specialize (IH l eq_refl) end.
  - (* own *) intros HL HT. rewrite (WriteThms.tidy_own nul cal tid _ _ H) in HT. destruct (IHsv K s0 HK HE (shaped_default _) HL HT) as (r & HM & E). exists r. split; auto. eapply v_one; eauto.
  - (* Char *) intros HL HT. exists s'. split; [|reflexivity]. eapply v_char; eauto. now rewrite HE.
  - (* Eoi *) intros HL HT. exists []. split; [|reflexivity]. apply v_eoi. now rewrite HE.
  - (* Pass *) intros HL HT. exists s0. split; [constructor|exact HE].
  - (* Lit *) intros HL HT. exists s'. split; [|reflexivity]. apply v_lit. now rewrite HE.
  - (* Symbol *) intros [HL1 HL2] HT. exists s'. split; [|reflexivity]. eapply v_sym; [now rewrite HE, H|eassumption| |eassumption].
    rewrite HE. intros k' v0' t' Et' Hi. destruct (le_lt_dec (length k') (length key)) as [Hle|Hlt]; auto. exfalso.
    assert (exists c u, k' = key ++ c :: u) as (c & u & Ek).
    { rewrite H in Et'. clear - Et' Hlt. revert k' Et' Hlt. induction key as [|z k IH]; intros [|z' k'] E Hlt; cbn in *; try lia.
      - eauto.
      - injection E as -> E. destruct (IH k' E ltac:(lia)) as (c & u & ->). eauto. }
    subst k'. rewrite H, <- app_assoc in Et'. apply app_inv_head in Et'. cbn in Et'. eapply rest_head; eauto.
  - (* UInt *) intros HL HT. assert (HD := digits_stop ws gp Hgp lex b lo hi K s' HK HL).
    exists s'. split; [|reflexivity]. rewrite <- (LangThms.number_is_read b lo hi ds s'); auto. rewrite <- H, <- HE. apply v_uint. rewrite HE, H.
    replace (firstn (taken b hi (ds ++ s')) (ds ++ s')) with ds; auto. rewrite (WriteThms.taken_all b lo hi ds s'); auto. now rewrite firstn_app, firstn_all, Nat.sub_diag, app_nil_r.
  - (* Int *) intros [HL0 HL] HT. assert (HD := digits_stop ws gp Hgp lex b lo hi K s' HK HL).
    assert (Eu : unsigned (trim (skip lex) s0) = ds ++ s').
    { rewrite HE, H. destruct H0 as [->|[->| ->]]; [|reflexivity|reflexivity]. cbn [app]. destruct ds as [|z ds]; [cbn in *; lia|]. cbn.
      destruct ((z =? 45) || (z =? 43))%Z eqn:Ez; auto. exfalso. inversion H1; subst. apply orb_prop in Ez as [Ez|Ez]; apply Z.eqb_eq in Ez; subst z; discriminate. }
    exists s'. split; [|reflexivity]. rewrite <- (LangThms.number_is_read b lo hi ds s'); auto. rewrite <- Eu. apply v_int. rewrite Eu.
    replace (firstn (taken b hi (ds ++ s')) (ds ++ s')) with ds by (rewrite (WriteThms.taken_all b lo hi ds s'); auto; now rewrite firstn_app, firstn_all, Nat.sub_diag, app_nil_r).
    replace (negative (trim (skip lex) s0)) with (negative (sg ++ ds)); auto. rewrite HE, H. destruct H0 as [->|[->| ->]]; auto. destruct ds; [cbn in *; lia|reflexivity].
  - (* Seq *) intros HL HT. rewrite ll_seq in HL. destruct (IHsv K s0 HK HE Sh HL HT) as (r & H2 & H3). exists r. split; auto. now apply v_seq.
  - (* [] *) intros _ _. exists s0. split; [constructor|exact HE].
  - (* q :: l *) intros [HL1 HL2] HT. cbn [WriteThms.tidy_all] in HT. rewrite (WriteThms.part_at_ty _ _ _ _ _ _ _ _ H) in HT. apply andb_prop in HT as [HT1 HT2].
    destruct (part_shaped _ _ _ _ _ _ _ _ H Sh) as [Sq Sv].
    destruct (spells_starts _ _ _ _ (sv_spells _ _ _ _ _ _ _ _ _ H1) lex eq_refl K s1 HK eq_refl HL2) as [S2 _].
    pose proof (ahead_next nul fst_of gp lex l K s1 s' S2 HK) as HA.
    destruct (IHsv1 (ahead l K) s0 HA HE Sq HL1 HT1) as (x1 & M1 & E1).
    destruct (IHsv2 K x1 HK E1 (Sv (mv_shaped _ _ _ _ _ _ _ _ _ M1 Sq)) HL2 HT2) as (x2 & M2 & E2).
    exists x2. split; auto. eapply v_all; eauto.
  - (* Alt *) intros HL HT. rewrite ll_alt in HL. cbn [SpecWrite.tidy] in HT. own_off HT o (Alt l) t.
    apply andb_prop in HT as [HT1 HT2].
    assert (HLp : ll lex p K) by (clear - H HL; induction l as [|q l IH]; [destruct H|]; destruct HL as (L1 & _ & _ & L2); destruct H as [->|H]; auto).
    assert (HTp : tidy t o p = true) by (rewrite forallb_forall in HT1; auto).
    destruct (spells_starts _ _ _ _ (sv_spells _ _ _ _ _ _ _ _ _ H0) lex eq_refl K s0 HK HE HLp) as [S1 _].
    destruct (IHsv K s0 HK HE Sh HLp HTp) as (r & M1 & E1).
    assert (En : upcoming (skip lex) s0 = upcoming (skip lex) s) by now apply upcoming_eqt.
    exists r. split; auto. apply v_alt. clear HLp IHsv H0 HTp HT1. induction l as [|q l IH]; [destruct H|]. destruct HL as (L1 & L2 & L3 & L4). destruct H as [->|H]; [now apply v_any|].
    destruct l as [|q' l]; [destruct H|]. cbn [removelast forallb] in HT2. apply andb_prop in HT2 as [HT2 HT3].
    change k with ([] ++ k). eapply v_any_next; [|apply IH; auto]. apply (idle_gone q lex K s0 t v o L1); auto.
    + apply L2. discriminate.
    + intros Hq. apply (L3 p H _ Hq). rewrite En. destruct S1 as [S1|[S1 Er]]; auto. right. rewrite (upcoming_eqt _ _ _ Er); auto.
  - (* Repeat *) intros (HL1 & Hn & Hb & Hs) HT. cbn [SpecWrite.tidy own_ty own andb] in HT. apply andb_prop in HT as [HT1 HT2].
    destruct (IHsv K s0 HK HE Sh HL1 Hn HT1 HT2 lo hi 0 ltac:(lia) H0 H1 Hs) as (r & M1 & E1). exists r. split; auto. now apply v_repeat.
  - (* row 0 *) intros HL Hn HT HC lo hi j Hj Hlo Hhi Hs.
    assert (M1 : mv (skip lex) (VOne true p) t v s0 None v []).
    { apply (idle_gone p lex _ s0 t v true HL Hn); auto. rewrite (upcoming_eqt _ _ _ HE). intros Hf. destruct Hs as [Hs|Hs]; [lia|]. eapply Hs; eauto. }
    exists s0. split; [|exact HE]. pose proof (v_times_stop env (skip lex) lo hi j p t v s0 _ _ M1) as M. destruct (lo <=? j) eqn:El; auto. apply Nat.leb_gt in El. lia.
  - (* row S *) intros HL Hn HT HC.
    destruct (spells_starts _ _ _ _ (sv_spells _ _ _ _ _ _ _ _ _ H0) lex eq_refl K s1 HK eq_refl HL Hn) as [S2 _].
    assert (HA : fst_set p (upcoming (skip lex) s1) \/ K (upcoming (skip lex) s1)) by (destruct S2 as [S2|[_ E]]; [now left|right; now rewrite (upcoming_eqt _ _ _ E)]).
    destruct (IHsv1 (fun o => fst_set p o \/ K o) s0 HA HE Sh HL HT) as (x1 & M1 & E1).
    intros lo hi j Hj Hlo Hhi Hs. destruct (Nat.eq_dec (S j) hi) as [Ej|Ej].
    + assert (n = 0) as -> by lia. inversion H0; subst. rewrite app_nil_r in *. exists x1. split; auto. eapply v_times_full; eauto.
    + destruct (IHsv2 K x1 HK E1 (mv_shaped _ _ _ _ _ _ _ _ _ M1 Sh) HL Hn HT HC lo hi (S j) ltac:(lia) ltac:(lia) ltac:(lia) Hs) as (x2 & M2 & E2).
      exists x2. split; auto. eapply v_times; eauto.
  - (* Opt, nothing *) intros [HL Hap] HT. cbn [SpecWrite.tidy] in HT. own_off HT o (Opt p) t.
    apply andb_prop in HT as [HT1 HT2].
    assert (N1 : ~ fst_set p (upcoming (skip lex) s0)) by (rewrite (upcoming_eqt _ _ _ HE); intros Hf; eapply Hap; eauto).
    destruct (idle_here p lex K s0 t v false true HL N1 HT2 Sh) as (r & v' & HM & W & R). rewrite (W eq_refl) in HM. destruct (null p).
    + destruct R as (s' & -> & E). exists s'. split; [now apply v_opt|]. eapply eqt_trans; eauto.
    + subst r. exists s0. split; [now apply v_opt_no|exact HE].
  - (* Opt *) intros [HL Hap] HT. cbn [SpecWrite.tidy] in HT. own_off HT o (Opt p) t.
    apply andb_prop in HT as [HT1 HT2]. destruct (IHsv K s0 HK HE Sh HL HT1) as (r & M1 & E1). exists r. split; auto. now apply v_opt.
  - (* list, nothing *) intros (HL1 & HL2 & Hn & Hap & _) HT. cbn [SpecWrite.tidy own_ty own andb] in HT. apply andb_prop in HT as [HT HT4]. apply andb_prop in HT as [HT HT3]. apply andb_prop in HT as [HT1 HT2].
    exists s0. split; [|exact HE]. apply v_list_none. apply (idle_gone p lex _ s0 t v true HL1 Hn); auto.
    rewrite (upcoming_eqt _ _ _ HE). intros Hf. eapply Hap; eauto.
  - (* list *) intros (HL1 & HL2 & Hn & Hap & Hap') HT. cbn [SpecWrite.tidy own_ty own andb] in HT. apply andb_prop in HT as [HT HT4]. apply andb_prop in HT as [HT HT3]. apply andb_prop in HT as [HT1 HT2].
    destruct (spells_starts _ _ _ _ (sv_spells _ _ _ _ _ _ _ _ _ H0) lex eq_refl K s1 HK eq_refl HL1 HL2 Hn Hap Hap') as [S2 _].
    assert (HA : (fun o => fst_set sep o \/ null sep = true /\ fst_set p o \/ K o) (upcoming (skip lex) s1)).
    { destruct S2 as [[S2|S2]|[_ E]]; [now left|right; now left|right; right; now rewrite (upcoming_eqt _ _ _ E)]. }
    destruct (IHsv1 _ s0 HA HE Sh HL1 HT1) as (x1 & M1 & E1).
    destruct (IHsv2 K x1 HK E1 (mv_shaped _ _ _ _ _ _ _ _ _ M1 Sh) HL1 HL2 Hn Hap Hap' HT1 HT2 HT3 HT4) as (x2 & M2 & E2).
    exists x2. split; auto. eapply v_list; eauto.
  - (* no more *) intros HL1 HL2 Hn Hap Hap' HT1 HT2 HT3 HT4.
    assert (N1 : ~ fst_set sep (upcoming (skip lex) s0)) by (rewrite (upcoming_eqt _ _ _ HE); intros Hf; eapply Hap'; eauto).
    assert (N2 : ~ fst_set p (upcoming (skip lex) s0)) by (rewrite (upcoming_eqt _ _ _ HE); intros Hf; eapply Hap; eauto).
    exists s0. split; [|exact HE]. destruct (idle_here sep lex _ s0 TNil VNil false false HL2 N1 HT4 eq_refl) as (r & v' & HM & W & R). destruct (null sep).
    + destruct R as (s1 & -> & E1). change (@nil event) with (@nil event ++ []). eapply v_more_trailing; eauto. apply (idle_gone p lex _ s1 t v true HL1 Hn); auto. now rewrite (upcoming_eqt _ _ _ E1).
    + subst r. eapply v_more_end; eauto.
  - (* one more *) intros HL1 HL2 Hn Hap Hap' HT1 HT2 HT3 HT4.
    destruct (spells_starts _ _ _ _ (sv_spells _ _ _ _ _ _ _ _ _ H1) lex eq_refl K s2 HK eq_refl HL1 HL2 Hn Hap Hap') as [S3 _].
    assert (HA : (fun o => fst_set sep o \/ null sep = true /\ fst_set p o \/ K o) (upcoming (skip lex) s2)).
    { destruct S3 as [[S3|S3]|[_ E]]; [now left|right; now left|right; right; now rewrite (upcoming_eqt _ _ _ E)]. }
    destruct (spells_starts _ _ _ _ (sv_spells _ _ _ _ _ _ _ _ _ H0) lex eq_refl _ s1 HA eq_refl HL1) as [S2 _].
    assert (F2 : fst_set p (upcoming (skip lex) s1)) by (destruct S2 as [S2|[S2 _]]; [exact S2|congruence]).
    destruct (IHsv1 (fst_set p) s0 F2 HE eq_refl HL2 HT3) as (x1 & M1 & E1).
    destruct (IHsv2 _ x1 HA E1 Sh HL1 HT1) as (x2 & M2 & E2).
    destruct (IHsv3 K x2 HK E2 (mv_shaped _ _ _ _ _ _ _ _ _ M2 Sh) HL1 HL2 Hn Hap Hap' HT1 HT2 HT3 HT4) as (x3 & M3 & E3).
    exists x3. split; auto. eapply v_more; eauto.
  - (* Not *) intros (cs & E & Hap) HT.
    exists s0. split; [|exact HE]. apply v_not_no. eapply onechar_miss; eauto. rewrite (upcoming_eqt _ _ _ HE). auto.
  - (* Except *) intros (HL & Hn & Ht & cs & E) HT. cbn [SpecWrite.tidy] in HT. own_off HT o (Except p q) t.
    destruct (IHsv K s0 HK HE Sh HL HT) as (r & M1 & E1).
    exists r. split; auto. change k with ([] ++ k). eapply v_except_no; [|exact M1]. eapply onechar_miss; eauto. rewrite (upcoming_eqt _ _ _ HE). auto.
  - (* Lexeme *) intros HL HT. cbn in HL. cbn [SpecWrite.tidy] in HT. own_off HT o (Lexeme p) t.
    specialize (IHsv true eq_refl).
    assert (HA : (fun o => K o \/ lex = false /\ exists y, o = Some y /\ ws y = true) (upcoming nows s')).
    { unfold upcoming. rewrite trim_nows. unfold upcoming in HK. destruct s' as [|y u]; [now left|]. cbn [hd_error]. destruct lex.
      - cbn [SpellThms.skip] in HK. rewrite trim_nows in HK. now left.
      - destruct (ws y) eqn:Ey; [right; split; [reflexivity|]; eauto|]. left. now rewrite (no_skip ws gp Hgp false _ _ Ey) in HK. }
    destruct (IHsv _ (trim (skip lex) s) HA eq_refl Sh HL HT) as (r & M1 & E1). cbn [SpellThms.skip] in E1. apply eqt_nows in E1. subst r.
    exists s'. split; [|reflexivity]. apply v_lexeme. rewrite HE. exact M1.
  - (* Discard *) intros HL HT. cbn in HL. cbn [SpecWrite.tidy] in HT. destruct (IHsv K s0 HK HE eq_refl HL HT) as (r & M1 & E1). exists r. split; auto. eapply v_discard; eauto.
  - (* BindDst *) intros HL HT. cbn in HL. cbn [SpecWrite.tidy own_ty own andb] in HT. destruct (IHsv K s0 HK HE Sh HL HT) as (r & M1 & E1). exists r. split; auto. now apply v_bind.
  - (* Construct *) intros HL HT. cbn in HL. cbn [SpecWrite.tidy] in HT. destruct (IHsv K s0 HK HE (shaped_init _) HL HT) as (r & M1 & E1). exists r. split; auto. eapply v_construct; eauto.
  - (* Act *) intros HL HT. cbn in HL. cbn [SpecWrite.tidy] in HT. destruct (IHsv K s0 HK HE (shaped_default _) HL HT) as (r & M1 & E1). exists r. split; auto. eapply v_act; eauto.
  - (* Recur *) intros (_ & HF) HT. cbn [SpecWrite.tidy own_ty own andb] in HT. destruct (Hall id q H) as (Hn & Hf & _ & Hl). destruct (Htidy id q H) as [_ Ht].
    destruct (IHsv (fol lex id) s0 (HF _ HK) HE Sh (Hl lex) (Ht _ HT)) as (r & M1 & E1). exists r. split; auto. eapply v_recur; eauto.
Qed.
End Ahead.
