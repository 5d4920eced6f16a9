(** Where the next character decides, what is written for a value is read as that value (for C59). *)
From Coq Require Import List ZArith Bool Arith Lia.
From Verif Require Import Base CharSet Dst Pattern Parser SpecPeg SpecLeaf SpecValue SpecType SpecAttr SpecLang SpecWrite.
From Verif Require Import Rel PegSound PegTerm LangThms AttrMem AttrRun.
Import ListNotations.

Local Notation trim w := (SpecPeg.trim (chars w)).
Local Notation eqt w := (PegSound.eqt (chars w)).
Local Notation nows := none.
Local Arguments SpecPeg.trim : simpl never.

(** ** The text without the values *)
Definition bare_form (f : vform) : form :=
  match f with
  | WOne _ p => FOne p
  | WAll _ l => FAll l
  | WRow n p => FRow n p
  | WMore p sep => FMore p sep
  end.
Lemma wv_lang env ws f t v w v' k : wv env ws f t v w v' k -> lang env ws (bare_form f) w.
Proof. induction 1; cbn [bare_form] in *; auto; try (econstructor; eauto; fail). Qed.

Lemma taken_all b lo hi ds s : Forall (fun z => is_digit b z = true) ds ->
  (lo <= Z.of_nat (length ds))%Z -> (0 < hi -> Z.of_nat (length ds) <= hi)%Z ->
  ((0 < hi /\ lo = hi)%Z \/ digits b s = 0) -> taken b hi (ds ++ s) = length ds.
Proof.
  intros Hd Hlo Hhi Hs. unfold taken. rewrite digits_app by auto. destruct (0 <? hi)%Z eqn:Eh; [apply Z.ltb_lt in Eh|apply Z.ltb_ge in Eh]; lia.
Qed.

(** ** Attempts *)
Section Ahead.
Context (env : nat -> option pat) (nul : nat -> bool) (fst_of : nat -> option Z -> Prop) (fol : bool -> nat -> option Z -> Prop) (rank : nat -> nat) (ws : Z -> bool).
Context (cal : nat -> ty -> bool -> bool) (tid : nat -> ty -> bool).
Local Notation mv w := (mv env (chars w)).
Local Notation wv := (wv env).
Local Notation null := (null nul).
Local Notation fst_set := (fst_set nul fst_of).
Local Notation fst_all := (fst_all nul fst_of).
Local Notation ahead := (ahead nul fst_of).
Local Notation ll := (ll nul fst_of fol env ws).
Local Notation ll_all := (ll_all env nul fst_of fol ws).
Local Notation ll_any := (ll_any env nul fst_of fol ws).
Local Notation front := (front nul rank).
Local Notation front_all := (front_all nul rank).
Local Notation calm := (calm nul cal).
Local Notation tidy := (tidy nul cal tid).
Local Notation skip := (skip ws).
Context (Hall : all_ll nul fst_of fol rank env ws) (Htidy : all_tidy nul cal tid env).

Lemma onechar_miss q : forall cs sk t v s, onechar q = Some cs -> ~ among cs (next sk s) -> mv sk (VOne false q) t v s None v [].
Proof.
  induction q using pat_ind'; intros c sk t v u E HN; try discriminate; cbn in E.
  - injection E as ->. apply v_char_no. intros y s' Et Hy. apply HN. exists y. unfold next. now rewrite Et.
  - eapply v_discard. eauto.
  - apply v_bind. eauto.
  - eapply v_act_no. eauto.
Qed.
Lemma onechar_hit q : forall cs sk t v s, onechar q = Some cs -> hushed t q = true -> among cs (next sk s) -> exists s', mv sk (VOne false q) t v s (Some s') v [].
Proof.
  induction q using pat_ind'; intros c sk t v u E Hh HN; try discriminate; cbn in E, Hh.
  - injection E as ->. destruct HN as (y & Ey & Hy). unfold next in Ey. destruct (trim sk u) as [|z s'] eqn:Et; [discriminate|]. injection Ey as ->.
    exists s'. eapply v_char; eauto. destruct t; try discriminate. constructor.
  - destruct (IHq _ sk TNil VNil u E Hh HN) as (s' & H). exists s'. eapply v_discard. eauto.
  - destruct (IHq _ sk t v u E Hh HN) as (s' & H). exists s'. now apply v_bind.
Qed.

Lemma counted_none b neg t v : countable t = true -> exists v', counted b neg [] t v v'.
Proof.
  destruct t; try discriminate; intros _; [eexists; constructor|]. eexists. apply cnt_num. unfold safe, wide, value. cbn. intros H. apply andb_prop in H as [-> H].
  apply Z.leb_le in H. unfold ty_max. cbn. assert (0 < 2 ^ (bits - 1))%Z by (apply Z.pow_pos_nonneg; lia). lia.
Qed.
Lemma counted_nil b neg ds v v' : counted b neg ds TNil v v' -> v' = v.
Proof. now inversion 1. Qed.

(** Without a character to start with. *)
Definition idle_v (lex one : bool) (p : pat) (t : ty) (v : val) (waste : bool) (s : list Z) : Prop :=
  exists r v', mv (skip lex) (VOne one p) t v s r v' [] /\ (waste = false -> v' = v) /\
  if null p then exists s', r = Some s' /\ eqt (skip lex) s' s else r = None.
Definition idle_all (lex : bool) (i : nat) (l : list pat) (t : ty) (v : val) (waste : bool) (s : list Z) : Prop :=
  exists r v', mv (skip lex) (VAll i l) t v s r v' [] /\ (waste = false -> v' = v) /\
  if forallb null l then exists s', r = Some s' /\ eqt (skip lex) s' s else r = None.

Definition calm_all (t : ty) (waste : bool) : nat -> list pat -> bool :=
  fix go (i : nat) (l : list pat) : bool :=
    match l with
    | [] => true
    | q :: r => match part_ty t i q with
                | Some tq => calm tq waste false q && (if null q || look q then go (SpecAttr.after q i) r else true)
                | None => false
                end
    end.
Definition tidy_all (t : ty) : nat -> list pat -> bool :=
  fix go (i : nat) (l : list pat) : bool :=
    match l with
    | [] => true
    | q :: r => match part_ty t i q with Some tq => tidy tq false q && go (SpecAttr.after q i) r | None => false end
    end.

Lemma calm_own t waste p : atom p = false -> calm t waste true p = (negb (null p) || nothing t) && calm (value_ty t) true false p.
Proof.
  intros Ha. destruct p; try discriminate Ha; unfold SpecWrite.calm; fold calm; unfold own_ty, own; rewrite ?Ha; cbn [andb negb orb atom]; rewrite ?orb_true_r; try reflexivity.
Qed.
Lemma own_false one p : own one p = false -> forall t waste, own_ty one p t = t /\ waste || own one p = waste.
Proof. intros H t waste. unfold own_ty. rewrite H. split; [reflexivity|apply orb_false_r]. Qed.

(** Where the object of the part of a sequence is. *)
Lemma part_ex q i t v tq : part_ty t i q = Some tq -> shaped t v = true ->
  exists vq, shaped tq vq = true /\ (forall x, exists v1, part_at q i x t v tq vq v1) /\ part_at q i vq t v tq vq v.
Proof.
  unfold part_ty. intros E Sh. destruct (ignores q) eqn:Ei.
  - injection E as <-. exists VNil. split; [reflexivity|]. split; [intros x; eexists|]; now apply pat_quiet.
  - destruct t; try (injection E as <-; exists v; split; [exact Sh|]; split; [intros x; eexists|]; apply pat_whole; auto; discriminate).
    apply shaped_tuple in Sh as (vs & -> & Sh). destruct (shapes_nth _ _ _ _ Sh E) as (vq & Ev & Sq).
    destruct tq; try (exists vq; split; [exact Sq|]; split; [intros x; eexists; eapply pat_slot; eauto; discriminate|];
      assert (E2 : upd vs i vq = vs) by (clear - Ev; revert i Ev; induction vs; intros [|i] Ev; cbn in *; try discriminate; [injection Ev as ->; reflexivity|f_equal; auto]);
      pose proof (pat_slot q i vq l vs _ vq Ei E ltac:(discriminate) Ev) as P; rewrite E2 in P; exact P).
    exists VNil. split; [reflexivity|]. split; [intros x; eexists|]; now apply pat_none.
Qed.

Definition idle_raw (k : nat) (p : pat) : Prop :=
  front k p = true -> forall lex K u t v waste one, own one p = false -> calm t waste one p = true -> ll lex p K ->
  ~ fst_set p (next (skip lex) u) -> shaped t v = true -> idle_v lex one p t v waste u.
Definition idle_full (k : nat) (p : pat) : Prop :=
  front k p = true -> forall lex K u t v waste one, calm t waste one p = true -> ll lex p K ->
  ~ fst_set p (next (skip lex) u) -> shaped t v = true -> idle_v lex one p t v waste u.
Lemma raw_full k p : idle_raw k p -> idle_full k p.
Proof.
  intros H HF lex K u t v waste one HC HL HN Sh. destruct (own one p) eqn:Eo; [|eapply H; eauto].
  unfold own in Eo. apply andb_prop in Eo as [-> Ea]. apply negb_true_iff in Ea. rewrite (calm_own _ _ _ Ea) in HC. apply andb_prop in HC as [HC1 HC2].
  destruct (H HF lex K u (value_ty t) (default_init (value_ty t)) true false eq_refl HC2 HL HN (shaped_default _)) as (r & x & HM & _ & HR).
  unfold idle_v. destruct (null p).
  - destruct HR as (s' & -> & E). cbn in HC1. destruct t; try discriminate. exists (Some s'), v. split; [|eauto].
    eapply v_one; [exact Ea|exact HM|constructor].
  - subst r. exists None, v. split; [|auto]. eapply v_one_no; eauto.
Qed.

Ltac open_calm HC Eo := match type of HC with SpecWrite.calm _ _ ?t ?w ?o ?p = true =>
  let E1 := fresh in let E2 := fresh in destruct (own_false o p Eo t w) as [E1 E2]; cbn [SpecWrite.calm] in HC; rewrite ?E1, ?E2, ?Eo in HC; cbn [negb orb andb] in HC; clear E1 E2 end.

Lemma idle_mv k : forall p, idle_raw k p.
Proof.
  induction k as [k IHk] using lt_wf_ind. induction p using pat_ind'; intros HF lex K u t v waste one Eo HC HL HN Sh; unfold idle_v; cbn [SpecLang.null]; open_calm HC Eo;
    repeat match goal with IH : idle_raw _ _ |- _ => apply raw_full in IH end.
  - (* Char *) exists None, v. split; [|auto]. apply v_char_no. intros y t' E Hy. apply HN. exists y. unfold next. now rewrite E.
  - (* CharSymbol *) destruct HL.
  - (* Eoi *) exists None, v. split; [|auto]. apply v_eoi_no. intros E. apply HN. unfold next. cbn. now rewrite E.
  - (* Pass *) exists (Some u), v. split; [constructor|]. split; auto. exists u. split; reflexivity.
  - (* Fail *) exists None, v. split; [constructor|auto].
  - (* Lit *) destruct s as [|z l]; cbn [length Nat.eqb].
    + exists (Some (trim (skip lex) u)), v. split; [now constructor|]. split; auto. eexists. split; [reflexivity|apply eqt_trim].
    + exists None, v. split; [|auto]. apply v_lit_no. intros t' E. apply HN. unfold next. cbn. rewrite E. cbn. split; [discriminate|reflexivity].
  - (* Symbol *) exists None, v. split; [|auto]. apply v_sym_no. intros k0 x t' E Hi. destruct k0 as [|z k0]; [now apply (proj1 HL x)|].
    apply HN. exists (z :: k0), x. split; auto. unfold next. rewrite E. cbn. split; [discriminate|reflexivity].
  - (* UInt *) destruct one; [discriminate|]. apply andb_prop in HC as [HC1 HC2].
    assert (Ed : digits b (trim (skip lex) u) = 0).
    { destruct (trim (skip lex) u) as [|z t'] eqn:E; [reflexivity|]. cbn. destruct (is_digit b z) eqn:Ez; auto. exfalso. apply HN. exists z. unfold next. now rewrite E. }
    assert (Et : taken b hi (trim (skip lex) u) = 0) by (unfold taken; rewrite Ed; destruct (0 <? hi)%Z; lia).
    destruct (counted_none b false t v HC1) as [v' Hv].
    assert (HM : mv (skip lex) (VOne false (UInt b lo hi)) t v u (number b lo hi (trim (skip lex) u)) v' []) by (apply v_uint; rewrite Et; exact Hv).
    unfold number in HM. rewrite Et in HM. cbn [Z.of_nat skipn] in HM. eexists _, v'. split; [exact HM|]. split.
    + intros ->. cbn in HC2. destruct t; try discriminate. eapply counted_nil; eauto.
    + destruct (lo <=? 0)%Z; [|reflexivity]. eexists. split; [reflexivity|apply eqt_trim].
  - (* Int *) destruct one; [discriminate|]. apply andb_prop in HC as [HC1 HC2].
    assert (Eu : unsigned (trim (skip lex) u) = trim (skip lex) u /\ digits b (trim (skip lex) u) = 0).
    { destruct (trim (skip lex) u) as [|z t'] eqn:E; [auto|]. cbn. assert (next (skip lex) u = Some z) as En by (unfold next; now rewrite E). rewrite En in HN. split.
      - destruct ((z =? 45) || (z =? 43))%Z eqn:Ez; auto. exfalso. apply HN. exists z. split; auto. apply orb_prop in Ez. rewrite !Z.eqb_eq in Ez. tauto.
      - destruct (is_digit b z) eqn:Ez; auto. exfalso. apply HN. exists z. auto. }
    destruct Eu as [Eu Ed]. assert (Et : taken b hi (trim (skip lex) u) = 0) by (unfold taken; rewrite Ed; destruct (0 <? hi)%Z; lia).
    destruct (counted_none b (negative (trim (skip lex) u)) t v HC1) as [v' Hv].
    assert (HM : mv (skip lex) (VOne false (Int b lo hi)) t v u (number b lo hi (unsigned (trim (skip lex) u))) v' []) by (apply v_int; rewrite Eu, Et; exact Hv).
    rewrite Eu in HM. unfold number in HM. rewrite Et in HM. cbn [Z.of_nat skipn] in HM. eexists _, v'. split; [exact HM|]. split.
    + intros ->. cbn in HC2. destruct t; try discriminate. eapply counted_nil; eauto.
    + destruct HL as [Hlo _]. destruct (lo <=? 0)%Z eqn:El; [apply Z.leb_le in El; lia|reflexivity].
  - (* Seq *) destruct one; [discriminate|]. rewrite ll_seq in HL. change (front_all k l = true) in HF. change (~ fst_all l (next (skip lex) u)) in HN.
    change (calm_all t waste 0 l = true) in HC.
    assert (G : forall i, calm_all t waste i l = true -> idle_all lex i l t v waste u).
    { clear HC Eo. revert u v HN HF HL Sh. induction H as [|q l Hq Hl IHl]; intros u v HN HF HL Sh i HC.
      { exists (Some u), v. split; [constructor|]. split; auto. exists u. split; reflexivity. }
      apply raw_full in Hq. cbn [calm_all] in HC. destruct (part_ty t i q) as [tq|] eqn:Ep; [|discriminate]. apply andb_prop in HC as [HC1 HC2].
      destruct (part_ex q i t v tq Ep Sh) as (vq & Sq & HP & HP0).
      rewrite fst_all_cons in HN. cbn [LangThms.front_all] in HF. apply andb_prop in HF as [HF1 HF2]. destruct HL as [HL1 HL2]. unfold idle_all. cbn [forallb].
      destruct (look q) eqn:Elk.
      - rewrite (null_look nul q Elk) in *. rewrite orb_true_r in HF2, HC2. destruct (look_dec env nul fst_of fol ws q (next (skip lex) u) _ _ Elk HL1) as [Hf|Hf].
        + assert (HN' : ~ (forallb null l = true) /\ ~ fst_all l (next (skip lex) u)) by tauto. destruct HN' as [N1 N2].
          destruct (IHl u v N2 HF2 HL2 Sh _ HC2) as (r & v' & M2 & W2 & R2). destruct (forallb null l); [congruence|]. subst r. cbn [andb].
          exists None, v'. split; [|auto]. change (@nil event) with (@nil event ++ []). eapply v_all; [exact HP0| |exact M2].
          destruct q; try discriminate. apply v_not_no. cbn in HL1. destruct HL1 as (cs & Ec & _). eapply onechar_miss; eauto. cbn in Hf. rewrite Ec in Hf. exact Hf.
        + destruct (Hq HF1 lex _ u tq vq waste false HC1 HL1 Hf Sq) as (r & x & M1 & W1 & R1). rewrite (null_look nul q Elk) in R1. subst r. cbn [andb].
          destruct waste.
          * destruct (HP x) as [v1 P1]. exists None, v1. split; [eapply v_all_no; eauto|split; [discriminate|auto]].
          * specialize (W1 eq_refl). subst x. exists None, v. split; [eapply v_all_no; eauto|auto].
      - rewrite orb_false_r in HF2, HC2. assert (N1 : ~ fst_set q (next (skip lex) u)) by tauto.
        destruct (Hq HF1 lex _ u tq vq waste false HC1 HL1 N1 Sq) as (r & x & M1 & W1 & R1).
        assert (G1 : exists v1, part_at q i x t v tq vq v1 /\ (waste = false -> v1 = v)).
        { destruct waste; [destruct (HP x) as [v1 P1]; exists v1; split; [auto|discriminate]|]. specialize (W1 eq_refl). subst x. eauto. }
        destruct G1 as (v1 & P1 & Wv). destruct (null q); cbn [andb].
        + destruct R1 as (s1 & -> & E1). assert (Sh1 : shaped t v1 = true) by (eapply part_shaped; eauto; eapply mv_shaped; eauto).
          assert (N2 : ~ fst_all l (next (skip lex) s1)) by (rewrite (next_eqt _ _ _ E1); tauto).
          destruct (IHl s1 v1 N2 HF2 HL2 Sh1 _ HC2) as (r & v' & M2 & W2 & R2). exists r, v'. split; [change (@nil event) with (@nil event ++ []); eapply v_all; eauto|].
          split; [intros W; rewrite (W2 W); auto|]. destruct (forallb null l); auto. destruct R2 as (s2 & -> & E2). exists s2. split; auto. eapply eqt_trans; eauto.
        + subst r. exists None, v1. split; [eapply v_all_no; eauto|auto]. }
    destruct (G 0 HC) as (r & v' & HM & W & R). exists r, v'. split; [now apply v_seq|auto].
  - (* Alt *) rewrite ll_alt in HL. cbn in HF, HN.
    assert (G : exists r v', mv (skip lex) (VAny one l) t v u r v' [] /\ (waste = false -> v' = v) /\ if existsb null l then exists s', r = Some s' /\ eqt (skip lex) s' u else r = None).
    { clear Eo. revert v HN HF HL HC Sh. induction H as [|q l Hq Hl IHl]; intros v HN HF HL HC Sh; [exists None, v; repeat split; constructor|].
      apply raw_full in Hq. cbn [forallb] in HF, HC. apply andb_prop in HF as [HF1 HF2]. apply andb_prop in HC as [HC1 HC2]. destruct HL as (HL1 & HL2 & _ & HL3). cbn [existsb].
      assert (N1 : ~ fst_set q (next (skip lex) u)) by tauto. destruct (Hq HF1 lex _ u t v waste one HC1 HL1 N1 Sh) as (r & v1 & M1 & W1 & R1).
      destruct (null q); cbn [orb].
      - destruct R1 as (s1 & -> & E1). exists (Some s1), v1. split; [now apply v_any|]. split; auto. eauto.
      - subst r. assert (N2 : ~ (fix go (l : list pat) : Prop := match l with [] => False | q :: t => fst_set q (next (skip lex) u) \/ go t end) l) by tauto.
        destruct (IHl v1 N2 HF2 HL3 HC2 (mv_shaped _ _ _ _ _ _ _ _ _ M1 Sh)) as (r & v' & M2 & W2 & R2). exists r, v'.
        split; [change (@nil event) with (@nil event ++ []); eapply v_any_next; eauto|]. split; [intros W; rewrite (W2 W); auto|auto]. }
    destruct G as (r & v' & HM & W & R). exists r, v'. split; [now apply v_alt|auto].
  - (* Repeat *) destruct one; [discriminate|]. cbn in HF, HN. destruct HL as (HL1 & Hn & _). destruct (IHp HF lex _ u t v waste true HC HL1 HN Sh) as (r & v' & HM & W & R).
    rewrite Hn in R. subst r. pose proof (v_repeat env (chars (skip lex)) lo hi p t v u _ _ _ (v_times_stop env (chars (skip lex)) lo hi 0 p t v u _ _ HM)) as M.
    exists (if lo <=? 0 then Some u else None), v'. split; [exact M|]. split; auto. destruct lo; cbn; auto. exists u. split; reflexivity.
  - (* Not *) destruct HL as (cs & E & _). cbn in HN. rewrite E in HN. destruct (among_dec cs (next (skip lex) u)) as [Ha|Ha]; [|tauto].
    destruct (onechar_hit p cs (skip lex) t v u E HC Ha) as [s' Hs]. exists None, v. split; [eapply v_not; eauto|auto].
  - (* Opt *) cbn in HF, HN. destruct HL as (HL1 & _). destruct (IHp HF lex _ u t v waste true HC HL1 HN Sh) as (r & v' & HM & W & R). destruct (null p).
    + destruct R as (s' & -> & E). exists (Some s'), v'. split; [now apply v_opt|]. eauto.
    + subst r. exists (Some u), v'. split; [now apply v_opt_no|]. split; auto. exists u. split; reflexivity.
  - (* Discard *) cbn in HF, HN, HL. destruct (IHp HF lex _ u TNil VNil waste one HC HL HN eq_refl) as (r & v' & HM & W & R). exists r, v. split; [eapply v_discard; eauto|auto].
  - (* Lexeme *) cbn in HF, HN, HL. assert (N1 : ~ fst_set p (next (skip true) (trim (skip lex) u))) by (unfold next; cbn [LangThms.skip]; rewrite trim_nows; exact HN).
    destruct (IHp HF true _ (trim (skip lex) u) t v waste one HC HL N1 Sh) as (r & v' & HM & W & R). exists r, v'. split; [now apply v_lexeme|]. split; auto.
    destruct (null p); auto. destruct R as (s' & -> & E). apply eqt_nows in E. subst s'. eexists. split; [reflexivity|apply eqt_trim].
  - (* WithSkipper *) destruct HL.
  - (* BindDst *) destruct one; [discriminate|]. cbn in HF, HN, HL. destruct (IHp HF lex _ u t v waste false HC HL HN Sh) as (r & v' & HM & W & R). exists r, v'. split; [now apply v_bind|auto].
  - (* Construct *) apply andb_prop in HC as [HC1 HC2]. apply negb_true_iff in HC1. rewrite HC1. cbn in HF, HN, HL.
    destruct (IHp HF lex _ u (TTuple args) (value_init (TTuple args)) true false HC2 HL HN (shaped_init _)) as (r & v' & HM & W & R). rewrite HC1 in R. subst r.
    exists None, v. split; [eapply v_construct_no; eauto|auto].
  - (* Act *) apply andb_prop in HC as [HC1 HC2]. apply negb_true_iff in HC1. rewrite HC1. cbn in HF, HN, HL.
    destruct (IHp HF lex _ u (ac_land a) (default_init (ac_land a)) true false HC2 HL HN (shaped_default _)) as (r & v' & HM & W & R). rewrite HC1 in R. subst r.
    exists None, v. split; [eapply v_act_no; eauto|auto].
  - (* Except *) cbn in HF, HN. apply andb_prop in HC as [HC1 HC2]. destruct HL as (HL1 & Hn & _ & cs & E). rewrite E in HN. rewrite Hn. destruct (among_dec cs (next (skip lex) u)) as [Ha|Ha].
    + destruct (onechar_hit p2 cs (skip lex) TNil VNil u E HC1 Ha) as [s' Hs]. exists None, v. split; [eapply v_except; eauto|auto].
    + assert (N1 : ~ fst_set p1 (next (skip lex) u)) by tauto. destruct (IHp1 HF lex _ u t v waste one HC2 HL1 N1 Sh) as (r & v' & HM & W & R). rewrite Hn in R.
      exists r, v'. split; [|auto]. change (@nil event) with (@nil event ++ []). eapply v_except_no; eauto. eapply onechar_miss; eauto.
  - (* PList *) destruct one; [discriminate|]. cbn in HF, HN. destruct HL as (HL1 & _ & Hn & _). destruct (IHp1 HF lex _ u t v waste true HC HL1 HN Sh) as (r & v' & HM & W & R). rewrite Hn in R. subst r.
    exists (Some u), v'. split; [now apply v_list_none|]. split; auto. exists u. split; reflexivity.
  - (* Recur *) destruct one; [discriminate|]. cbn in HF, HN. destruct HL as (HD & _). destruct (env id) as [q|] eqn:E; [|congruence]. destruct (Hall id q E) as (Hn & Hf & Hfr & Hl).
    apply Nat.ltb_lt in HF. assert (N1 : ~ fst_set q (next (skip lex) u)) by (intros H; apply HN; auto). destruct (Htidy id q E) as [Hc _].
    destruct (IHk _ HF q Hfr lex _ u t v waste false eq_refl (Hc _ _ HC) (Hl lex) N1 Sh) as (r & v' & HM & W & R). rewrite Hn. exists r, v'. split; [eapply v_recur; eauto|auto].
Qed.

Lemma idle_here p lex K s t v waste one : ll lex p K -> ~ fst_set p (next (skip lex) s) -> calm t waste one p = true -> shaped t v = true -> idle_v lex one p t v waste s.
Proof. intros HL HN HC Sh. destruct (front_ex nul rank p) as [k Hk]. exact (raw_full k p (idle_mv k p) (Hk k (le_n k)) lex K s t v waste one HC HL HN Sh). Qed.
Lemma idle_gone p lex K s t v one : ll lex p K -> null p = false -> ~ fst_set p (next (skip lex) s) -> calm t false one p = true -> shaped t v = true ->
  mv (skip lex) (VOne one p) t v s None v [].
Proof.
  intros HL Hn HN HC Sh. destruct (idle_here p lex K s t v false one HL HN HC Sh) as (r & v' & HM & W & R). rewrite Hn in R. subst r. now rewrite (W eq_refl) in HM.
Qed.

(** ** What can be written is read *)
Lemma tidy_own t p : atom p = false -> tidy t true p = tidy (value_ty t) false p.
Proof.
  intros Ha. destruct p; try discriminate Ha; unfold SpecWrite.tidy; fold tidy; unfold own_ty, own; rewrite ?Ha; cbn [andb negb atom]; reflexivity.
Qed.
Lemma part_at_ty q i x t v tq vq v1 : part_at q i x t v tq vq v1 -> part_ty t i q = Some tq.
Proof.
  unfold part_ty. inversion 1; subst; rewrite ?H0; auto; try (rewrite H0; auto; fail).
  destruct tq; auto. destruct (H1 l eq_refl).
Qed.

Definition written_v (lex : bool) (f : vform) (t : ty) (v : val) (w : list Z) (v' : val) (k : list event) : Prop :=
  forall (K : option Z -> Prop) rest s, K (next (skip lex) rest) -> eqt (skip lex) s (w ++ rest) -> shaped t v = true ->
  match f with
  | WOne o p => ll lex p K -> tidy t o p = true -> exists s', mv (skip lex) (VOne o p) t v s (Some s') v' k /\ eqt (skip lex) s' rest
  | WAll i l => ll_all lex K l -> tidy_all t i l = true -> exists s', mv (skip lex) (VAll i l) t v s (Some s') v' k /\ eqt (skip lex) s' rest
  | WRow n p => ll lex p (fun o => fst_set p o \/ K o) -> null p = false -> tidy t true p = true -> calm t false true p = true ->
      forall lo hi j, (hi = 0 \/ j < hi) -> lo <= j + n -> (hi <> 0 -> j + n <= hi) -> ((hi <> 0 /\ lo = hi) \/ apart (fst_set p) K) ->
      exists s', mv (skip lex) (VTimes lo hi j p) t v s (Some s') v' k /\ eqt (skip lex) s' rest
  | WMore p sep =>
      ll lex p (fun o => fst_set sep o \/ null sep = true /\ fst_set p o \/ K o) -> ll lex sep (fst_set p) -> null p = false ->
      apart (fst_set p) K -> apart (fst_set sep) K ->
      tidy t true p = true -> calm t false true p = true -> tidy TNil false sep = true -> calm TNil false false sep = true ->
      exists s', mv (skip lex) (VMore p sep) t v s (Some s') v' k /\ eqt (skip lex) s' rest
  end.

Lemma lang_starts sk f w : lang env sk f w -> forall lex, sk = skip lex -> written env nul fst_of fol ws lex f w.
Proof. exact (lang_written env nul fst_of fol rank ws Hall sk f w). Qed.
Ltac starts_of H := apply wv_lang in H as ?; match goal with L : lang _ _ _ _ |- _ => pose proof (lang_starts _ _ _ L _ eq_refl) end.

Lemma wv_written w0 f t v w v' k : wv w0 f t v w v' k -> forall lex, w0 = skip lex -> written_v lex f t v w v' k.
Proof.
  induction 1; intros lex ->; unfold written_v; intros K rest s HK HE Sh;
    repeat match goal with IH : forall lex', skip ?l = skip lex' -> _ |- _ => specialize (IH l eq_refl) end.
  - (* own *) intros HL HT. rewrite (tidy_own _ _ H) in HT. destruct (IHwv K rest s HK HE (shaped_default _) HL HT) as (s' & HM & E). exists s'. split; auto. eapply v_one; eauto.
  - (* Char *) intros HL HT. destruct (lead_s ws lex w [y] rest s H HE) as (r' & Et & Er & _). exists r'. split; auto. eapply v_char; eauto.
  - (* Eoi *) intros HL HT. assert (En : next (skip lex) (w ++ rest) = None) by (rewrite (next_lead _ _ _ rest H); auto).
    exists []. rewrite (next_lead _ _ _ rest H) in En. unfold next in En. destruct (trim (skip lex) rest) as [|z t'] eqn:Er; [|discriminate]. split.
    + apply v_eoi. rewrite HE, (lead_trim _ _ _ rest H). exact Er.
    + unfold eqt. rewrite Er. reflexivity.
  - (* Pass *) intros HL HT. exists s. split; [constructor|exact HE].
  - (* Lit *) intros HL HT. destruct (lead_s ws lex w l rest s H HE) as (r' & Et & Er & _). exists r'. split; auto. now apply v_lit.
  - (* Symbol *) intros [HL1 HL2] HT. destruct (lead_s ws lex w key rest s H HE) as (r' & Et & Er & Hr).
    exists r'. split; auto. eapply v_sym; eauto. intros k' v0' t' Et' Hi. destruct (le_lt_dec (length k') (length key)) as [Hle|Hlt]; auto. exfalso.
    assert (exists c u, k' = key ++ c :: u) as (c & u & Ek).
    { rewrite Et in Et'. clear - Et' Hlt. revert k' Et' Hlt. induction key as [|z k IH]; intros [|z' k'] E Hlt; cbn in *; try lia.
      - eauto.
      - injection E as -> E. destruct (IH k' E ltac:(lia)) as (c & u & ->). eauto. }
    subst k'. rewrite Et, <- app_assoc in Et'. apply app_inv_head in Et'. cbn in Et'. eapply rest_head; eauto.
  - (* UInt *) intros HL HT. destruct (lead_s ws lex w ds rest s H HE) as (r' & Et & Er & Hr).
    assert (HD := digits_stop ws lex b lo hi K rest ds r' HK Hr HL).
    exists r'. split; auto. rewrite <- (number_is_read b lo hi ds r'); auto. rewrite <- Et. apply v_uint. rewrite Et.
    replace (firstn (taken b hi (ds ++ r')) (ds ++ r')) with ds; auto. rewrite (taken_all b lo hi ds r'); auto. now rewrite firstn_app, firstn_all, Nat.sub_diag, app_nil_r.
  - (* Int *) intros [HL0 HL] HT. destruct (lead_s ws lex w (sg ++ ds) rest s H HE) as (r' & Et & Er & Hr).
    assert (HD := digits_stop ws lex b lo hi K rest (sg ++ ds) r' HK Hr HL).
    assert (Eu : unsigned (trim (skip lex) s) = ds ++ r').
    { rewrite Et. destruct H0 as [->|[->| ->]]; [|reflexivity|reflexivity]. cbn [app]. destruct ds as [|z ds]; [cbn in *; lia|]. cbn.
      destruct ((z =? 45) || (z =? 43))%Z eqn:Ez; auto. exfalso. inversion H1; subst. apply orb_prop in Ez as [Ez|Ez]; apply Z.eqb_eq in Ez; subst z; discriminate. }
    exists r'. split; auto. rewrite <- (number_is_read b lo hi ds r'); auto. rewrite <- Eu. apply v_int. rewrite Eu.
    replace (firstn (taken b hi (ds ++ r')) (ds ++ r')) with ds by (rewrite (taken_all b lo hi ds r'); auto; now rewrite firstn_app, firstn_all, Nat.sub_diag, app_nil_r).
    replace (negative (trim (skip lex) s)) with (negative (sg ++ ds)); auto. rewrite Et. destruct H0 as [->|[->| ->]]; auto. destruct ds; [cbn in *; lia|reflexivity].
  - (* Seq *) intros HL HT. rewrite ll_seq in HL. destruct (IHwv K rest s HK HE Sh HL HT) as (s' & H2 & H3). exists s'. split; auto. now apply v_seq.
  - (* [] *) intros _ _. exists s. split; [constructor|exact HE].
  - (* q :: l *) intros [HL1 HL2] HT. cbn [tidy_all] in HT. rewrite (part_at_ty _ _ _ _ _ _ _ _ H) in HT. apply andb_prop in HT as [HT1 HT2].
    destruct (part_shaped _ _ _ _ _ _ _ _ H Sh) as [Sq Sv].
    destruct (lang_starts _ _ _ (wv_lang _ _ _ _ _ _ _ _ H1) lex eq_refl K rest (w2 ++ rest) HK eq_refl HL2) as [S2 _]. rewrite <- app_assoc in HE.
    pose proof (ahead_next nul fst_of ws lex l K w2 rest S2 HK) as HA.
    destruct (IHwv1 (ahead l K) (w2 ++ rest) s HA HE Sq HL1 HT1) as (s1 & M1 & E1).
    destruct (IHwv2 K rest s1 HK E1 (Sv (mv_shaped _ _ _ _ _ _ _ _ _ M1 Sq)) HL2 HT2) as (s2 & M2 & E2).
    exists s2. split; auto. eapply v_all; eauto.
  - (* Alt *) intros HL HT. rewrite ll_alt in HL. cbn [SpecWrite.tidy] in HT. destruct (own_false o (Alt l)) with (t := t) (waste := false) as [Eo _]; [unfold own; cbn; apply andb_false_r|]. rewrite Eo in HT. clear Eo.
    apply andb_prop in HT as [HT1 HT2].
    assert (HLp : ll lex p K) by (clear - H HL; induction l as [|q l IH]; [destruct H|]; destruct HL as (L1 & _ & _ & L2); destruct H as [->|H]; auto).
    assert (HTp : tidy t o p = true) by (rewrite forallb_forall in HT1; auto).
    destruct (lang_starts _ _ _ (wv_lang _ _ _ _ _ _ _ _ H0) lex eq_refl K rest s HK HE HLp) as [S1 _].
    destruct (IHwv K rest s HK HE Sh HLp HTp) as (s' & M1 & E1).
    assert (En : next (skip lex) s = next (skip lex) (w ++ rest)) by now apply next_eqt.
    exists s'. split; auto. apply v_alt. clear HLp IHwv H0 HTp HT1. induction l as [|q l IH]; [destruct H|]. destruct HL as (L1 & L2 & L3 & L4). destruct H as [->|H]; [now apply v_any|].
    destruct l as [|q' l]; [destruct H|]. cbn [removelast forallb] in HT2. apply andb_prop in HT2 as [HT2 HT3].
    change k with ([] ++ k). eapply v_any_next; [|apply IH; auto]. apply (idle_gone q lex K s t v o L1); auto.
    + apply L2. discriminate.
    + intros Hq. apply (L3 p H _ Hq). rewrite En. destruct S1 as [S1|[S1 Er]]; auto. right. rewrite blank_next; auto.
  - (* Repeat *) intros (HL1 & Hn & Hb & Hs) HT. cbn [SpecWrite.tidy own_ty own andb] in HT. apply andb_prop in HT as [HT1 HT2].
    destruct (IHwv K rest s HK HE Sh HL1 Hn HT1 HT2 lo hi 0 ltac:(lia) H0 H1 Hs) as (s' & M1 & E1). exists s'. split; auto. now apply v_repeat.
  - (* row 0 *) intros HL Hn HT HC lo hi j Hj Hlo Hhi Hs.
    assert (M1 : mv (skip lex) (VOne true p) t v s None v []).
    { apply (idle_gone p lex _ s t v true HL Hn); auto. rewrite (next_eqt _ _ _ HE). cbn [app]. intros Hf. destruct Hs as [Hs|Hs]; [lia|]. eapply Hs; eauto. }
    exists s. split; [|exact HE]. pose proof (v_times_stop env (chars (skip lex)) lo hi j p t v s _ _ M1) as M. destruct (lo <=? j) eqn:El; auto. apply Nat.leb_gt in El. lia.
  - (* row S *) intros HL Hn HT HC.
    destruct (lang_starts _ _ _ (wv_lang _ _ _ _ _ _ _ _ H0) lex eq_refl K rest (w2 ++ rest) HK eq_refl HL Hn) as [S2 _]. rewrite <- app_assoc in HE.
    assert (HA : fst_set p (next (skip lex) (w2 ++ rest)) \/ K (next (skip lex) (w2 ++ rest))) by (destruct S2 as [S2|[_ E]]; [now left|right; now rewrite blank_next]).
    destruct (IHwv1 (fun o => fst_set p o \/ K o) (w2 ++ rest) s HA HE Sh HL HT) as (s1 & M1 & E1).
    intros lo hi j Hj Hlo Hhi Hs. destruct (Nat.eq_dec (S j) hi) as [Ej|Ej].
    + assert (n = 0) as -> by lia. inversion H0; subst. rewrite app_nil_r in *. exists s1. split; auto. eapply v_times_full; eauto.
    + destruct (IHwv2 K rest s1 HK E1 (mv_shaped _ _ _ _ _ _ _ _ _ M1 Sh) HL Hn HT HC lo hi (S j) ltac:(lia) ltac:(lia) ltac:(lia) Hs) as (s2 & M2 & E2).
      exists s2. split; auto. eapply v_times; eauto.
  - (* Opt, nothing *) intros [HL Hap] HT. cbn [SpecWrite.tidy] in HT. destruct (own_false o (Opt p)) with (t := t) (waste := false) as [Eo _]; [unfold own; cbn; apply andb_false_r|]. rewrite Eo in HT. clear Eo.
    apply andb_prop in HT as [HT1 HT2].
    assert (N1 : ~ fst_set p (next (skip lex) s)) by (rewrite (next_eqt _ _ _ HE); intros Hf; eapply Hap; eauto).
    destruct (idle_here p lex K s t v false true HL N1 HT2 Sh) as (r & v' & HM & W & R). rewrite (W eq_refl) in HM. destruct (null p).
    + destruct R as (s' & -> & E). exists s'. split; [now apply v_opt|]. eapply eqt_trans; eauto.
    + subst r. exists s. split; [now apply v_opt_no|exact HE].
  - (* Opt *) intros [HL Hap] HT. cbn [SpecWrite.tidy] in HT. destruct (own_false o (Opt p)) with (t := t) (waste := false) as [Eo _]; [unfold own; cbn; apply andb_false_r|]. rewrite Eo in HT. clear Eo.
    apply andb_prop in HT as [HT1 HT2]. destruct (IHwv K rest s HK HE Sh HL HT1) as (s' & M1 & E1). exists s'. split; auto. now apply v_opt.
  - (* list, nothing *) intros (HL1 & HL2 & Hn & Hap & _) HT. cbn [SpecWrite.tidy own_ty own andb] in HT. apply andb_prop in HT as [HT HT4]. apply andb_prop in HT as [HT HT3]. apply andb_prop in HT as [HT1 HT2].
    exists s. split; [|exact HE]. apply v_list_none. apply (idle_gone p lex _ s t v true HL1 Hn); auto.
    rewrite (next_eqt _ _ _ HE). intros Hf. eapply Hap; eauto.
  - (* list *) intros (HL1 & HL2 & Hn & Hap & Hap') HT. cbn [SpecWrite.tidy own_ty own andb] in HT. apply andb_prop in HT as [HT HT4]. apply andb_prop in HT as [HT HT3]. apply andb_prop in HT as [HT1 HT2].
    destruct (lang_starts _ _ _ (wv_lang _ _ _ _ _ _ _ _ H0) lex eq_refl K rest (w2 ++ rest) HK eq_refl HL1 HL2 Hn Hap Hap') as [S2 _]. rewrite <- app_assoc in HE.
    assert (HA : (fun o => fst_set sep o \/ null sep = true /\ fst_set p o \/ K o) (next (skip lex) (w2 ++ rest))).
    { destruct S2 as [[S2|S2]|[_ E]]; [now left|right; now left|right; right; now rewrite blank_next]. }
    destruct (IHwv1 _ (w2 ++ rest) s HA HE Sh HL1 HT1) as (s1 & M1 & E1).
    destruct (IHwv2 K rest s1 HK E1 (mv_shaped _ _ _ _ _ _ _ _ _ M1 Sh) HL1 HL2 Hn Hap Hap' HT1 HT2 HT3 HT4) as (s2 & M2 & E2).
    exists s2. split; auto. eapply v_list; eauto.
  - (* no more *) intros HL1 HL2 Hn Hap Hap' HT1 HT2 HT3 HT4. cbn [app] in HE.
    assert (N1 : ~ fst_set sep (next (skip lex) s)) by (rewrite (next_eqt _ _ _ HE); intros Hf; eapply Hap'; eauto).
    assert (N2 : ~ fst_set p (next (skip lex) s)) by (rewrite (next_eqt _ _ _ HE); intros Hf; eapply Hap; eauto).
    exists s. split; [|exact HE]. destruct (idle_here sep lex _ s TNil VNil false false HL2 N1 HT4 eq_refl) as (r & v' & HM & W & R). destruct (null sep).
    + destruct R as (s1 & -> & E1). change (@nil event) with (@nil event ++ []). eapply v_more_trailing; eauto. apply (idle_gone p lex _ s1 t v true HL1 Hn); auto. now rewrite (next_eqt _ _ _ E1).
    + subst r. eapply v_more_end; eauto.
  - (* one more *) intros HL1 HL2 Hn Hap Hap' HT1 HT2 HT3 HT4.
    destruct (lang_starts _ _ _ (wv_lang _ _ _ _ _ _ _ _ H1) lex eq_refl K rest (w3 ++ rest) HK eq_refl HL1 HL2 Hn Hap Hap') as [S3 _]. rewrite <- !app_assoc in HE.
    assert (HA : (fun o => fst_set sep o \/ null sep = true /\ fst_set p o \/ K o) (next (skip lex) (w3 ++ rest))).
    { destruct S3 as [[S3|S3]|[_ E]]; [now left|right; now left|right; right; now rewrite blank_next]. }
    destruct (lang_starts _ _ _ (wv_lang _ _ _ _ _ _ _ _ H0) lex eq_refl _ (w3 ++ rest) (w2 ++ w3 ++ rest) HA eq_refl HL1) as [S2 _].
    assert (F2 : fst_set p (next (skip lex) (w2 ++ w3 ++ rest))) by (destruct S2 as [S2|[S2 _]]; [exact S2|congruence]).
    destruct (IHwv1 (fst_set p) (w2 ++ w3 ++ rest) s F2 HE eq_refl HL2 HT3) as (s1 & M1 & E1).
    destruct (IHwv2 _ (w3 ++ rest) s1 HA E1 Sh HL1 HT1) as (s2 & M2 & E2).
    destruct (IHwv3 K rest s2 HK E2 (mv_shaped _ _ _ _ _ _ _ _ _ M2 Sh) HL1 HL2 Hn Hap Hap' HT1 HT2 HT3 HT4) as (s3 & M3 & E3).
    exists s3. split; auto. eapply v_more; eauto.
  - (* Not *) intros (cs & E & Hap) HT. cbn [app] in HE.
    assert (N1 : ~ among cs (next (skip lex) rest)) by (intros Hf; eapply Hap; eauto).
    exists s. split; [|exact HE]. apply v_not_no. eapply onechar_miss; eauto. now rewrite (next_eqt _ _ _ HE).
  - (* Except *) intros (HL & Hn & Ht & cs & E) HT. cbn [SpecWrite.tidy] in HT.
    destruct (own_false o (Except p q)) with (t := t) (waste := false) as [Eo _]; [unfold own; cbn; apply andb_false_r|]. rewrite Eo in HT. clear Eo.
    destruct (IHwv K rest s HK HE Sh HL HT) as (s' & M1 & E1).
    assert (N1 : ~ among cs (next (skip lex) (w ++ rest))).
    { rewrite next_app. pose proof (lang_takes env _ _ _ (wv_lang _ _ _ _ _ _ _ _ H) Ht) as Hw. destruct (next (skip lex) w) as [y|] eqn:Ey; [now apply H0|congruence]. }
    exists s'. split; auto. change k with ([] ++ k). eapply v_except_no; [|exact M1]. eapply onechar_miss; eauto. now rewrite (next_eqt _ _ _ HE).
  - (* Lexeme *) intros HL HT. cbn in HL. cbn [SpecWrite.tidy] in HT. destruct (own_false o (Lexeme p)) with (t := t) (waste := false) as [Eo _]; [unfold own; cbn; apply andb_false_r|]. rewrite Eo in HT. clear Eo.
    destruct (lead_s ws lex w w' rest s H HE) as (r' & Et & Er & Hr). specialize (IHwv true eq_refl).
    assert (HA : (fun o => K o \/ lex = false /\ exists y, o = Some y /\ ws y = true) (next nows r')).
    { unfold next. rewrite trim_nows. unfold next in HK. destruct w'; subst r'; [now left|]. destruct rest as [|y t']; [now left|]. rewrite trim_chars in HK. cbn [hd_error].
      destruct (skip lex y) eqn:Ey; [right|now left]. destruct lex; [discriminate|]. split; auto. exists y. auto. }
    destruct (IHwv _ r' (w' ++ r') HA eq_refl Sh HL HT) as (s' & M1 & E1). apply eqt_nows in E1. subst s'.
    exists r'. split; auto. apply v_lexeme. rewrite Et. exact M1.
  - (* Discard *) intros HL HT. cbn in HL. cbn [SpecWrite.tidy] in HT. destruct (IHwv K rest s HK HE eq_refl HL HT) as (s' & M1 & E1). exists s'. split; auto. eapply v_discard; eauto.
  - (* BindDst *) intros HL HT. cbn in HL. cbn [SpecWrite.tidy own_ty own andb] in HT. destruct (IHwv K rest s HK HE Sh HL HT) as (s' & M1 & E1). exists s'. split; auto. now apply v_bind.
  - (* Construct *) intros HL HT. cbn in HL. cbn [SpecWrite.tidy] in HT. destruct (IHwv K rest s HK HE (shaped_init _) HL HT) as (s' & M1 & E1). exists s'. split; auto. eapply v_construct; eauto.
  - (* Act *) intros HL HT. cbn in HL. cbn [SpecWrite.tidy] in HT. destruct (IHwv K rest s HK HE (shaped_default _) HL HT) as (s' & M1 & E1). exists s'. split; auto. eapply v_act; eauto.
  - (* Recur *) intros (_ & HF) HT. cbn [SpecWrite.tidy own_ty own andb] in HT. destruct (Hall id q H) as (Hn & Hf & _ & Hl). destruct (Htidy id q H) as [_ Ht].
    destruct (IHwv (fol lex id) rest s (HF _ HK) HE Sh (Hl lex) (Ht _ HT)) as (s' & M1 & E1). exists s'. split; auto. eapply v_recur; eauto.
Qed.
End Ahead.
