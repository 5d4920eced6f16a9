(** Where the next character decides, with skippers of any kind (C57). *)
From Coq Require Import List ZArith Bool Arith Lia.
From Verif Require Import Base CharSet Dst Pattern SpecPeg SpecLang SpecSpell Rel PegSound PegTerm Run.
From Verif Require LangThms.
Import ListNotations.

Local Arguments SpecPeg.trim : simpl never.
Lemma upcoming_eqt gp a b : eqt gp a b -> upcoming gp a = upcoming gp b.
Proof. unfold upcoming, eqt. now intros ->. Qed.
Lemma upcoming_trim gp s : upcoming gp (trim gp s) = upcoming gp s.
Proof. apply upcoming_eqt, eqt_trim. Qed.

(** What can be skipped begins with one of these characters. *)
Definition starters (ws : Z -> bool) (gp : gap) : Prop := forall y u, gp (y :: u) <> 0 -> ws y = true.
Lemma begins_over skp : forall z u t, over skp (z :: u) = Some t -> begins skp z = true.
Proof.
  induction skp using pat_ind'; intros z u t E; cbn [begins]; auto; try (cbn [over] in E; eauto; fail).
  - cbn [over] in E. match type of E with (if ?b then _ else _) = _ => now destruct b end.
  - destruct s as [|c l]; auto. cbn in E. now destruct (c =? z)%Z.
  - destruct H as [|q l Hq _]; auto. cbn [over] in E. destruct (over q (z :: u)) eqn:Eq; [eauto|discriminate].
  - cbn [over] in E. induction H as [|q l Hq _ IH]; [discriminate|]. cbn [existsb]. destruct (over q (z :: u)) eqn:Eq; [now rewrite (Hq _ _ _ Eq)|].
    rewrite (IH E). apply orb_true_r.
Qed.
Lemma begins_starters skp ws : (forall z, begins skp z = true -> ws z = true) -> starters ws (passes skp).
Proof.
  intros H y u. unfold passes. destruct (over skp (y :: u)) as [t|] eqn:E; [|congruence]. intros _. apply H. eapply begins_over; eauto.
Qed.

Section Thms.
Context (env : nat -> option pat).
Local Notation m := (SpecPeg.m env).
Local Notation spells := (spells env).

Lemma onechar_m gp q cs s : onechar q = Some cs ->
  (among cs (upcoming gp s) -> exists t, m gp (One q) s (Some t)) /\ (~ among cs (upcoming gp s) -> m gp (One q) s None).
Proof.
  revert cs. induction q using pat_ind'; intros c E; try discriminate; cbn in E.
  - injection E as ->. unfold upcoming. split.
    + intros (y & Ey & Hy). destruct (trim gp s) as [|z t] eqn:Et; [discriminate|]. injection Ey as ->. exists t. eapply m_char; eauto.
    + intros H. apply m_char_no. intros y t Et Hy. apply H. exists y. now rewrite Et.
  - destruct (IHq _ E) as [H1 H2]. split; [intros H; destruct (H1 H) as [t Ht]; exists t; now constructor|intros H; constructor; auto].
  - destruct (IHq _ E) as [H1 H2]. split; [intros H; destruct (H1 H) as [t Ht]; exists t; now constructor|intros H; constructor; auto].
  - destruct (IHq _ E) as [H1 H2]. split; [intros H; destruct (H1 H) as [t Ht]; exists t; now constructor|intros H; constructor; auto].
Qed.

(** ** What is read can be written *)
(** MIN <= MAX. *)
Fixpoint fair (p : pat) : bool :=
  match p with
  | Repeat lo hi q => ((hi =? 0) || (lo <=? hi)) && fair q
  | Seq l | Alt l => forallb fair l
  | Not q | Opt q | Discard q | Lexeme q | BindDst q | Construct _ q | Act _ q | Except q _ | WithSkipper q _ => fair q
  | PList q sep => fair q && fair sep
  | _ => true
  end.
Definition fair_goal (g : goal) : bool :=
  match g with
  | One p => fair p
  | All l | Any l => forallb fair l
  | Times lo hi _ p => ((hi =? 0) || (lo <=? hi)) && fair p
  | More p sep => fair p && fair sep
  end.
Context (Hfair : forall id q, env id = Some q -> fair q = true).

Definition spelt (gp : gap) (g : goal) (s : list Z) (r : option (list Z)) : Prop :=
  match r with
  | None => True
  | Some t =>
    match g with
    | One p => spells gp (FOne p) s t
    | All l => spells gp (FAll l) s t
    | Any l => exists p, In p l /\ spells gp (FOne p) s t
    | Times lo hi n p => (hi = 0 \/ n < hi) -> exists k, spells gp (FRow k p) s t /\ lo <= n + k /\ (hi <> 0 -> n + k <= hi)
    | More p sep => spells gp (FMore p sep) s t
    end
  end.

Ltac sn := repeat match goal with H : _ && _ = true |- _ => apply andb_prop in H as [? ?] end.
Lemma m_spells gp g s r : m gp g s r -> fair_goal g = true -> spelt gp g s r.
Proof.
  induction 1; cbn [fair_goal fair forallb] in *; intros HS;
    repeat match goal with IH : ?b = true -> spelt _ _ _ _, H : ?b = true |- _ => specialize (IH H) end; sn;
    repeat match goal with IH : ?b = true -> spelt _ _ _ _, H : ?b = true |- _ => specialize (IH H) end; try destruct r as [u|];
    cbn [spelt] in *; auto; try (econstructor; eauto; fail).
  - destruct (number b lo hi (trim ws s)) as [t|] eqn:E; cbn; auto. destruct (LangThms.number_reads _ _ _ _ _ E) as (ds & Es & Hd & Hl & Hh). econstructor; eauto.
  - destruct (number b lo hi (unsigned (trim ws s))) as [t|] eqn:E; cbn; auto. destruct (LangThms.number_reads _ _ _ _ _ E) as (ds & Es & Hd & Hl & Hh).
    assert (exists sg, trim ws s = (sg ++ ds) ++ t /\ (sg = [] \/ sg = [45%Z] \/ sg = [43%Z])) as (sg & Et & Hsg).
    { unfold unsigned in Es. destruct (trim ws s) as [|z u]; [now exists []; auto|].
      destruct ((z =? 45) || (z =? 43))%Z eqn:Ez; [|exists []; auto]. apply orb_prop in Ez as [Ez|Ez]; apply Z.eqb_eq in Ez; subst z; rewrite Es; [exists [45%Z]|exists [43%Z]]; auto. }
    econstructor; eauto.
  - destruct IHm as (p & Hp & Hs). econstructor; eauto.
  - exists p. split; auto. now left.
  - destruct IHm2 as (q & Hq & Hs). exists q. split; auto. now right.
  - destruct (IHm ltac:(lia)) as (k & L1 & L2 & L3). econstructor; eauto.
  - destruct (lo <=? n) eqn:E; cbn; auto. apply Nat.leb_le in E. intros Hn. exists 0. split; [constructor|lia].
  - intros Hn. exists 1. match goal with H : _ || _ = true |- _ => apply orb_prop in H; rewrite Nat.eqb_eq, Nat.leb_le in H end. split; [|lia]. econstructor; eauto. constructor.
  - intros Hn. destruct (IHm2 ltac:(lia)) as (k & L3 & L4). exists (S k). split; [econstructor; eauto|lia].
  - constructor. intros cs Ec Ha. destruct (onechar_m ws p cs s Ec) as [L1 _]. destruct (L1 Ha) as [t Ht]. pose proof (m_det _ _ _ _ _ H _ Ht). discriminate.
  - constructor; auto. intros cs Ec Ha. destruct (onechar_m ws q cs s Ec) as [L1 _]. destruct (L1 Ha) as [t Ht]. pose proof (m_det _ _ _ _ _ H _ Ht). discriminate.
Qed.
End Thms.

(** ** The next character decides *)
Section Ahead.
Context (env : nat -> option pat) (nul : nat -> bool) (fst_of : nat -> option Z -> Prop) (fol : bool -> nat -> option Z -> Prop) (rank : nat -> nat) (ws : Z -> bool) (gp : gap).
Local Notation m := (SpecPeg.m env).
Local Notation null := (null nul).
Local Notation fst_set := (fst_set nul fst_of).
Local Notation fst_all := (fst_all nul fst_of).
Local Notation ahead := (ahead nul fst_of).
Local Notation ll := (ll nul fst_of fol env ws).
Local Notation front := (front nul rank).
Context (Hall : all_ll nul fst_of fol rank env ws) (Hgp : starters ws gp).
Definition skip (lex : bool) : gap := if lex then nows else gp.

Definition ll_all (lex : bool) (K : option Z -> Prop) : list pat -> Prop :=
  fix go (l : list pat) : Prop := match l with [] => True | q :: t => ll lex q (ahead t K) /\ go t end.
Definition ll_any (lex : bool) (K : option Z -> Prop) : list pat -> Prop :=
  fix go (l : list pat) : Prop :=
    match l with
    | [] => True
    | q :: t => ll lex q K /\ (t <> [] -> null q = false) /\
                (forall q', In q' t -> apart (fst_set q) (fun o => fst_set q' o \/ null q' = true /\ K o)) /\ go t
    end.
Definition front_all (k : nat) : list pat -> bool :=
  fix go (l : list pat) : bool := match l with [] => true | q :: t => front k q && (if null q || look q then go t else true) end.

Lemma ll_seq lex l K : ll lex (Seq l) K = ll_all lex K l. Proof. reflexivity. Qed.
Lemma ll_alt lex l K : ll lex (Alt l) K = ll_any lex K l. Proof. reflexivity. Qed.
Lemma fst_all_cons q l o : fst_all (q :: l) o =
  if look q then fst_set q o /\ (forallb null l = true \/ fst_all l o) else fst_set q o \/ null q = true /\ fst_all l o.
Proof. reflexivity. Qed.
Lemma look_dec q o K lex : look q = true -> ll lex q K -> fst_set q o \/ ~ fst_set q o.
Proof.
  destruct q; try discriminate. intros _ (cs & E & _). cbn. rewrite E. destruct (LangThms.among_dec cs o); tauto.
Qed.
Lemma null_look q : look q = true -> null q = false.
Proof. now destruct q. Qed.

(** Without a character to start with: nothing is read, or there is no match. *)
Definition idle (lex : bool) (p : pat) (s : list Z) : Prop :=
  if null p then exists s', m (skip lex) (One p) s (Some s') /\ eqt (skip lex) s' s else m (skip lex) (One p) s None.

Lemma idle_m k : forall p, front k p = true -> forall lex K s, ll lex p K -> ~ fst_set p (upcoming (skip lex) s) -> idle lex p s.
Proof.
  induction k as [k IHk] using lt_wf_ind. induction p using pat_ind'; intros HF lex K u HL HN; unfold idle; cbn [SpecLang.null].
  - (* Char *) apply m_char_no. intros y t E Hy. apply HN. exists y. unfold upcoming. now rewrite E.
  - (* CharSymbol *) destruct HL.
  - (* Eoi *) apply m_eoi_no. intros E. apply HN. unfold upcoming. cbn. now rewrite E.
  - (* Pass *) exists u. split; [constructor|reflexivity].
  - (* Fail *) constructor.
  - (* Lit *) destruct s as [|z l]; cbn [length Nat.eqb].
    + exists (trim (skip lex) u). split; [now constructor|apply eqt_trim].
    + apply m_lit_no. intros t E. apply HN. unfold upcoming. cbn. rewrite E. cbn. split; [discriminate|reflexivity].
  - (* Symbol *) apply m_sym_no. intros k0 v t E Hi. destruct k0 as [|z k0]; [now apply (proj1 HL v)|]. apply HN. exists (z :: k0), v. split; auto. unfold upcoming. rewrite E. cbn. split; [discriminate|reflexivity].
  - (* UInt *)
    assert (Ed : digits b (trim (skip lex) u) = 0).
    { destruct (trim (skip lex) u) as [|z t] eqn:E; [reflexivity|]. cbn. destruct (is_digit b z) eqn:Ez; auto. exfalso. apply HN. exists z. unfold upcoming. now rewrite E. }
    assert (Et : taken b hi (trim (skip lex) u) = 0) by (unfold taken; rewrite Ed; destruct (0 <? hi)%Z; lia).
    pose proof (m_uint env (skip lex) b lo hi u) as HM. unfold number in HM. rewrite Et in HM. cbn [Z.of_nat skipn] in HM.
    destruct (lo <=? 0)%Z; [|exact HM]. eexists. split; [exact HM|apply eqt_trim].
  - (* Int *)
    assert (Eu : unsigned (trim (skip lex) u) = trim (skip lex) u /\ digits b (trim (skip lex) u) = 0).
    { destruct (trim (skip lex) u) as [|z t] eqn:E; [auto|]. cbn. assert (upcoming (skip lex) u = Some z) as En by (unfold upcoming; now rewrite E). rewrite En in HN. split.
      - destruct ((z =? 45) || (z =? 43))%Z eqn:Ez; auto. exfalso. apply HN. exists z. split; auto. apply orb_prop in Ez. rewrite !Z.eqb_eq in Ez. tauto.
      - destruct (is_digit b z) eqn:Ez; auto. exfalso. apply HN. exists z. auto. }
    destruct Eu as [Eu Ed]. assert (Et : taken b hi (trim (skip lex) u) = 0) by (unfold taken; rewrite Ed; destruct (0 <? hi)%Z; lia).
    pose proof (m_int env (skip lex) b lo hi u) as HM. rewrite Eu in HM. unfold number in HM. rewrite Et in HM. cbn [Z.of_nat] in HM. destruct HL as [Hlo _].
    destruct (lo <=? 0)%Z eqn:El; [apply Z.leb_le in El; lia|exact HM].
  - (* Seq *) rewrite ll_seq in HL. change (front_all k l = true) in HF. change (~ fst_all l (upcoming (skip lex) u)) in HN.
    assert (G : if forallb null l then exists s', m (skip lex) (All l) u (Some s') /\ eqt (skip lex) s' u else m (skip lex) (All l) u None).
    { revert u HN HF HL. induction H as [|q l Hq Hl IHl]; intros u HN HF HL; [exists u; split; [constructor|reflexivity]|].
      rewrite fst_all_cons in HN. cbn [front_all] in HF. apply andb_prop in HF as [HF1 HF2]. destruct HL as [HL1 HL2]. cbn [forallb].
      destruct (look q) eqn:Elk.
      - rewrite (null_look q Elk). rewrite orb_true_r in HF2. destruct (look_dec q (upcoming (skip lex) u) _ _ Elk HL1) as [Hf|Hf].
        + assert (HN' : ~ (forallb null l = true) /\ ~ fst_all l (upcoming (skip lex) u)) by tauto. destruct HN' as [N1 N2].
          specialize (IHl u N2 HF2 HL2). destruct (forallb null l); [congruence|]. cbn. eapply m_all; [|exact IHl].
          destruct q; try discriminate. apply m_not_no. cbn in HL1. destruct HL1 as (cs & Ec & _). eapply onechar_m; eauto. cbn in Hf. rewrite Ec in Hf. exact Hf.
        + specialize (Hq HF1 lex _ u HL1 Hf). unfold idle in Hq. rewrite (null_look q Elk) in Hq. cbn. now apply m_all_no.
      - rewrite orb_false_r in HF2. assert (N1 : ~ fst_set q (upcoming (skip lex) u)) by tauto. specialize (Hq HF1 lex _ u HL1 N1). unfold idle in Hq.
        destruct (null q); cbn [andb].
        + destruct Hq as (s1 & M1 & E1). specialize (IHl s1). rewrite (upcoming_eqt _ _ _ E1) in IHl. assert (N2 : ~ fst_all l (upcoming (skip lex) u)) by tauto.
          specialize (IHl N2 HF2 HL2). destruct (forallb null l).
          * destruct IHl as (s2 & M2 & E2). exists s2. split; [eapply m_all; eauto|eapply eqt_trans; eauto].
          * eapply m_all; eauto.
        + now apply m_all_no. }
    destruct (forallb null l); [destruct G as (s' & G & E); exists s'; split; auto; now constructor|now constructor].
  - (* Alt *) rewrite ll_alt in HL. cbn in HF, HN.
    assert (G : if existsb null l then exists s', m (skip lex) (Any l) u (Some s') /\ eqt (skip lex) s' u else m (skip lex) (Any l) u None).
    { revert HN HF HL. induction H as [|q l Hq Hl IHl]; intros HN HF HL; [constructor|].
      cbn [forallb] in HF. apply andb_prop in HF as [HF1 HF2]. destruct HL as (HL1 & HL2 & _ & HL3). cbn [existsb].
      assert (N1 : ~ fst_set q (upcoming (skip lex) u)) by tauto. specialize (Hq HF1 lex _ u HL1 N1). unfold idle in Hq.
      destruct (null q); cbn [orb].
      - destruct Hq as (s1 & M1 & E1). exists s1. split; auto. now apply m_any.
      - assert (N2 : ~ (fix go (l : list pat) : Prop := match l with [] => False | q :: t => fst_set q (upcoming (skip lex) u) \/ go t end) l) by tauto.
        specialize (IHl N2 HF2 HL3). destruct (existsb null l).
        + destruct IHl as (s2 & M2 & E2). exists s2. split; auto. now apply m_any_next.
        + now apply m_any_next. }
    destruct (existsb null l); [destruct G as (s' & G & E); exists s'; split; auto; now constructor|now constructor].
  - (* Repeat *) cbn in HF, HN. destruct HL as (HL1 & Hn & _). specialize (IHp HF lex _ u HL1 HN). unfold idle in IHp. rewrite Hn in IHp.
    pose proof (m_repeat env (skip lex) lo hi p u _ (m_times_stop env (skip lex) lo hi 0 p u IHp)) as M. destruct lo; cbn in *; auto. exists u. split; auto. reflexivity.
  - (* Not *) destruct HL as (cs & E & _). cbn in HN. rewrite E in HN. destruct (LangThms.among_dec cs (upcoming (skip lex) u)) as [Ha|Ha]; [|tauto].
    destruct (onechar_m env (skip lex) p cs u E) as [H1 _]. destruct (H1 Ha) as [t Ht]. eapply m_not; eauto.
  - (* Opt *) cbn in HF, HN. destruct HL as (HL1 & _). specialize (IHp HF lex _ u HL1 HN). unfold idle in IHp. destruct (null p).
    + destruct IHp as (s' & M & E). exists s'. split; auto. now apply m_opt.
    + exists u. split; [now apply m_opt_no|reflexivity].
  - (* Discard *) cbn in HF, HN, HL. specialize (IHp HF lex _ u HL HN). unfold idle in IHp. destruct (null p); [destruct IHp as (s' & M & E); exists s'; split; auto|]; now constructor.
  - (* Lexeme *) cbn in HF, HN, HL. specialize (IHp HF true _ (trim (skip lex) u) HL). unfold upcoming at 1 in IHp. unfold upcoming in HN. cbn [skip] in IHp. rewrite trim_nows in IHp. specialize (IHp HN).
    unfold idle in IHp. destruct (null p).
    + destruct IHp as (s' & M & E). apply eqt_nows in E. subst s'. exists (trim (skip lex) u). split; [now constructor|apply eqt_trim].
    + now constructor.
  - (* WithSkipper *) destruct HL.
  - (* BindDst *) cbn in HF, HN, HL. specialize (IHp HF lex _ u HL HN). unfold idle in IHp. destruct (null p); [destruct IHp as (s' & M & E); exists s'; split; auto|]; now constructor.
  - (* Construct *) cbn in HF, HN, HL. specialize (IHp HF lex _ u HL HN). unfold idle in IHp. destruct (null p); [destruct IHp as (s' & M & E); exists s'; split; auto|]; now constructor.
  - (* Act *) cbn in HF, HN, HL. specialize (IHp HF lex _ u HL HN). unfold idle in IHp. destruct (null p); [destruct IHp as (s' & M & E); exists s'; split; auto|]; now constructor.
  - (* Except *) cbn in HF, HN. destruct HL as (HL1 & Hn & _ & cs & E). rewrite E in HN. rewrite Hn. destruct (LangThms.among_dec cs (upcoming (skip lex) u)) as [Ha|Ha].
    + destruct (onechar_m env (skip lex) p2 cs u E) as [H1 _]. destruct (H1 Ha) as [t Ht]. eapply m_except; eauto.
    + apply m_except_no; [eapply onechar_m; eauto|]. assert (N1 : ~ fst_set p1 (upcoming (skip lex) u)) by tauto.
      specialize (IHp1 HF lex _ u HL1 N1). unfold idle in IHp1. now rewrite Hn in IHp1.
  - (* PList *) cbn in HF, HN. destruct HL as (HL1 & _ & Hn & _). specialize (IHp1 HF lex _ u HL1 HN). unfold idle in IHp1. rewrite Hn in IHp1.
    exists u. split; [now apply m_list_none|reflexivity].
  - (* Recur *) cbn in HF, HN. destruct HL as (HD & _). destruct (env id) as [q|] eqn:E; [|congruence]. destruct (Hall id q E) as (Hn & Hf & Hfr & Hl).
    apply Nat.ltb_lt in HF. assert (N1 : ~ fst_set q (upcoming (skip lex) u)) by (intros H; apply HN; auto).
    pose proof (IHk _ HF q Hfr lex _ u (Hl lex) N1) as G. unfold idle in G. rewrite Hn. destruct (null q); [destruct G as (s' & M & E'); exists s'; split; auto|]; eapply m_recur; eauto.
Qed.
(** Every pattern is in front of some place of the order. *)
Lemma front_ex p : exists k, forall k', k <= k' -> front k' p = true.
Proof.
  induction p using pat_ind'; cbn [SpecLang.front]; try (exists 0; intros; reflexivity); try assumption.
  - assert (G : exists k, forall k', k <= k' -> front_all k' l = true).
    { induction H as [|q l [k1 H1] _ [k2 H2]]; [exists 0; reflexivity|]. exists (Nat.max k1 k2). intros k' Hk. cbn [front_all]. rewrite H1 by lia. rewrite H2 by lia. now destruct (_ || _). }
    exact G.
  - induction H as [|q l [k1 H1] _ [k2 H2]]; [exists 0; reflexivity|]. exists (Nat.max k1 k2). intros k' Hk. cbn [forallb]. now rewrite H1, H2 by lia.
  - exists (S (rank id)). intros k' Hk. apply Nat.ltb_lt. lia.
Qed.

Lemma idle_any p lex K s : ll lex p K -> ~ fst_set p (upcoming (skip lex) s) -> idle lex p s.
Proof. intros HL HN. destruct (front_ex p) as [k Hk]. apply (idle_m k p (Hk k (le_n k)) lex K s HL HN). Qed.
Lemma idle_no p lex K s : ll lex p K -> null p = false -> ~ fst_set p (upcoming (skip lex) s) -> m (skip lex) (One p) s None.
Proof. intros HL Hn HN. pose proof (idle_any p lex K s HL HN) as H. unfold idle in H. now rewrite Hn in H. Qed.

(** ** What can be written is read *)
Definition starts (lex : bool) (F : option Z -> Prop) (n : bool) (s t : list Z) : Prop :=
  F (upcoming (skip lex) s) \/ n = true /\ eqt (skip lex) s t.

Definition written (lex : bool) (f : form) (s t : list Z) : Prop :=
  forall (K : option Z -> Prop) s0, K (upcoming (skip lex) t) -> eqt (skip lex) s0 s ->
  match f with
  | FOne p => ll lex p K -> starts lex (fst_set p) (null p) s t /\ exists s', m (skip lex) (One p) s0 (Some s') /\ eqt (skip lex) s' t
  | FAll l => ll_all lex K l -> starts lex (fst_all l) (forallb null l) s t /\ exists s', m (skip lex) (All l) s0 (Some s') /\ eqt (skip lex) s' t
  | FRow n p => ll lex p (fun o => fst_set p o \/ K o) -> null p = false ->
      starts lex (fst_set p) (n =? 0) s t /\
      forall lo hi j, (hi = 0 \/ j < hi) -> lo <= j + n -> (hi <> 0 -> j + n <= hi) -> ((hi <> 0 /\ lo = hi) \/ apart (fst_set p) K) ->
      exists s', m (skip lex) (Times lo hi j p) s0 (Some s') /\ eqt (skip lex) s' t
  | FMore p sep =>
      ll lex p (fun o => fst_set sep o \/ null sep = true /\ fst_set p o \/ K o) -> ll lex sep (fst_set p) -> null p = false ->
      apart (fst_set p) K -> apart (fst_set sep) K ->
      starts lex (fun o => fst_set sep o \/ null sep = true /\ fst_set p o) true s t /\
      exists s', m (skip lex) (More p sep) s0 (Some s') /\ eqt (skip lex) s' t
  end.

(** A text behind a token whose first character is no starter has nothing to skip. *)
Lemma skip_starters (lex : bool) : starters (if lex then none else ws) (skip lex).
Proof. destruct lex; [|exact Hgp]. intros y u E. exfalso. apply E. reflexivity. Qed.
Lemma no_skip (lex : bool) y t : (if lex then none else ws) y = false -> trim (skip lex) (y :: t) = y :: t.
Proof.
  intros E. rewrite trim_eq. destruct (skip lex (y :: t)) eqn:Es; [reflexivity|]. exfalso. rewrite (skip_starters lex y t) in E; [discriminate|]. now rewrite Es.
Qed.
Lemma rest_head (lex : bool) (K : option Z -> Prop) t y u : K (upcoming (skip lex) t) -> t = y :: u -> not_next (if lex then none else ws) K y -> False.
Proof. intros HK -> [Hs Hn]. apply Hn. unfold upcoming in HK. now rewrite (no_skip _ _ _ Hs) in HK. Qed.
Lemma digits_stop (lex : bool) b lo hi (K : option Z -> Prop) t : K (upcoming (skip lex) t) ->
  ((0 < hi /\ lo = hi)%Z \/ forall y, is_digit b y = true -> not_next (if lex then none else ws) K y) ->
  (0 < hi /\ lo = hi)%Z \/ digits b t = 0.
Proof.
  intros HK [H|H]; auto. right. destruct t as [|y t]; [reflexivity|]. cbn. destruct (is_digit b y) eqn:E; auto. exfalso. eapply rest_head; eauto.
Qed.
Lemma ahead_next lex l (K : option Z -> Prop) s t : starts lex (fst_all l) (forallb null l) s t -> K (upcoming (skip lex) t) ->
  ahead l K (upcoming (skip lex) s).
Proof. intros [H|[H E]] HK; [now left|right]. split; auto. now rewrite (upcoming_eqt _ _ _ E). Qed.

Lemma spells_written w0 f s t : spells env w0 f s t -> forall lex, w0 = skip lex -> written lex f s t.
Proof.
  induction 1; intros lex ->; unfold written; intros K s0 HK HE.
  - (* Char *) intros HL. split.
    + left. exists y. unfold upcoming. rewrite H. auto.
    + exists t. split; [|reflexivity]. eapply m_char; eauto. now rewrite HE.
  - (* Eoi *) intros HL. split.
    + left. unfold upcoming. now rewrite H.
    + exists []. split; [|reflexivity]. apply m_eoi. now rewrite HE.
  - (* Pass *) intros HL. split; [right; split; reflexivity|]. exists s0. split; [constructor|exact HE].
  - (* Lit *) intros HL. split.
    + destruct l as [|z l]; [right; split; [reflexivity|]|left].
      * cbn in H. unfold eqt. rewrite <- H. now rewrite trim_idem.
      * unfold upcoming. rewrite H. split; [discriminate|reflexivity].
    + exists t. split; [|reflexivity]. apply m_lit. now rewrite HE.
  - (* Symbol *) intros [HL1 HL2]. split.
    + left. unfold upcoming. rewrite H. destruct k as [|z k]; [destruct (HL1 v); auto|]. exists (z :: k), v. split; auto. split; [discriminate|reflexivity].
    + exists t. split; [|reflexivity]. eapply m_sym; [now rewrite HE, H|eassumption|]. rewrite HE. intros k' v' t' Et' Hi. destruct (le_lt_dec (length k') (length k)) as [Hle|Hlt]; auto. exfalso.
      assert (exists c u, k' = k ++ c :: u) as (c & u & Ek).
      { rewrite H in Et'. clear - Et' Hlt. revert k' Et' Hlt. induction k as [|z k IH]; intros [|z' k'] E Hlt; cbn in *; try lia.
        - eauto.
        - injection E as -> E. destruct (IH k' E ltac:(lia)) as (c & u & ->). eauto. }
      subst k'. rewrite H, <- app_assoc in Et'. apply app_inv_head in Et'. cbn in Et'. eapply rest_head; eauto.
  - (* UInt *) intros HL. split.
    + destruct ds as [|z ds]; [right; split; [cbn in *; apply Z.leb_le; lia|]|left].
      * cbn in H. unfold eqt. rewrite <- H. now rewrite trim_idem.
      * exists z. unfold upcoming. rewrite H. split; auto. now inversion H0.
    + exists t. split; [|reflexivity]. rewrite <- (LangThms.number_is_read b lo hi ds t); auto; [|eapply digits_stop; eauto]. rewrite <- H, <- HE. apply m_uint.
  - (* Int *) intros [HL0 HL]. split.
    + left. unfold upcoming. rewrite H. destruct H0 as [->|[->| ->]]; cbn [app]; [|exists 45%Z; auto|exists 43%Z; auto].
      destruct ds as [|z ds]; [cbn in *; lia|]. exists z. split; auto. left. now inversion H1.
    + exists t. split; [|reflexivity]. rewrite <- (LangThms.number_is_read b lo hi ds t); auto; [|eapply digits_stop; eauto].
      assert (Eu : ds ++ t = unsigned (trim (skip lex) s0)).
      { rewrite HE, H. destruct H0 as [->|[->| ->]]; [|reflexivity|reflexivity]. cbn [app]. destruct ds as [|z ds]; [cbn in *; lia|]. cbn.
        destruct ((z =? 45) || (z =? 43))%Z eqn:Ez; auto. exfalso. inversion H1; subst. apply orb_prop in Ez as [Ez|Ez]; apply Z.eqb_eq in Ez; subst z; discriminate. }
      rewrite Eu. apply m_int.
  - (* Seq *) intros HL. rewrite ll_seq in HL. destruct (IHspells lex eq_refl K s0 HK HE HL) as [H1 (s' & H2 & H3)]. split; [exact H1|]. exists s'. split; auto. now constructor.
  - (* [] *) intros _. split; [right; split; reflexivity|]. exists s0. split; [constructor|exact HE].
  - (* p :: l *) intros [HL1 HL2]. destruct (IHspells2 lex eq_refl K s1 HK eq_refl HL2) as [S2 _].
    pose proof (ahead_next lex l K s1 t S2 HK) as HA.
    destruct (IHspells1 lex eq_refl (ahead l K) s0 HA HE HL1) as [S1 (x1 & M1 & E1)].
    destruct (IHspells2 lex eq_refl K x1 HK E1 HL2) as [_ (x2 & M2 & E2)]. split.
    + unfold starts in *. rewrite fst_all_cons. cbn [forallb]. destruct (look p) eqn:El.
      * rewrite (null_look p El) in *. left. destruct S1 as [S1|[S1 _]]; [|discriminate]. split; auto.
        assert (Ew : s1 = s) by (destruct p; try discriminate; inversion H; auto). subst s1. destruct S2 as [S2|[S2 _]]; auto.
      * destruct S1 as [S1|[S1 En]]; [left; now left|]. rewrite (upcoming_eqt _ _ _ En). destruct S2 as [S2|[S2 En2]]; [left; right; auto|right]. rewrite S1, S2. split; auto. eapply eqt_trans; eauto.
    + exists x2. split; auto. eapply m_all; eauto.
  - (* Alt *) intros HL. rewrite ll_alt in HL.
    assert (HLp : ll lex p K) by (clear - H HL; induction l as [|q l IH]; [destruct H|]; destruct HL as (L1 & _ & _ & L2); destruct H as [->|H]; auto).
    destruct (IHspells lex eq_refl K s0 HK HE HLp) as [S1 (s' & M1 & E1)].
    assert (En : upcoming (skip lex) s0 = upcoming (skip lex) s) by now apply upcoming_eqt.
    split.
    + clear - H S1. unfold starts in *. cbn [SpecLang.fst_set SpecLang.null]. destruct S1 as [S1|[S1 E]].
      * left. induction l as [|q l IH]; [destruct H|]. destruct H as [->|H]; [now left|right; exact (IH H)].
      * right. split; auto. apply existsb_exists. eauto.
    + exists s'. split; auto. apply m_alt. clear HLp IHspells H0. induction l as [|q l IH]; [destruct H|]. destruct HL as (L1 & L2 & L3 & L4). destruct H as [->|H]; [now apply m_any|].
      apply m_any_next; auto. apply (idle_no q lex K s0 L1).
      * apply L2. intros ->. destruct H.
      * intros Hq. apply (L3 p H _ Hq). rewrite En. destruct S1 as [S1|[S1 Er]]; auto. right. rewrite (upcoming_eqt _ _ _ Er); auto.
  - (* Repeat *) intros (HL1 & Hn & Hb & Hs). destruct (IHspells lex eq_refl K s0 HK HE HL1 Hn) as [S1 G].
    destruct (G lo hi 0 ltac:(lia) H0 H1 Hs) as (s' & M1 & E1). split.
    + destruct S1 as [S1|[S1 E]]; [now left|right]. split; auto. cbn. apply Nat.eqb_eq in S1. apply Nat.eqb_eq. lia.
    + exists s'. split; auto. now constructor.
  - (* row 0 *) intros HL Hn. split; [right; split; reflexivity|]. intros lo hi j Hj Hlo Hhi Hs.
    assert (M1 : m (skip lex) (One p) s0 None).
    { apply (idle_no p lex _ s0 HL Hn). rewrite (upcoming_eqt _ _ _ HE). intros Hf. destruct Hs as [Hs|Hs]; [lia|]. eapply Hs; eauto. }
    exists s0. split; [|exact HE]. pose proof (m_times_stop env (skip lex) lo hi j p s0 M1) as M. destruct (lo <=? j) eqn:El; auto. apply Nat.leb_gt in El. lia.
  - (* row S *) intros HL Hn. destruct (IHspells2 lex eq_refl K s1 HK eq_refl HL Hn) as [S2 _].
    assert (HA : fst_set p (upcoming (skip lex) s1) \/ K (upcoming (skip lex) s1)) by (destruct S2 as [S2|[_ E]]; [now left|right; now rewrite (upcoming_eqt _ _ _ E)]).
    destruct (IHspells1 lex eq_refl (fun o => fst_set p o \/ K o) s0 HA HE HL) as [S1 (x1 & M1 & E1)].
    split; [destruct S1 as [S1|[S1 _]]; [now left|congruence]|].
    intros lo hi j Hj Hlo Hhi Hs. destruct (Nat.eq_dec (S j) hi) as [Ej|Ej].
    + assert (n = 0) as -> by lia. inversion H0; subst. exists x1. split; auto. eapply m_times_full; eauto.
    + destruct (IHspells2 lex eq_refl K x1 HK E1 HL Hn) as [_ G]. destruct (G lo hi (S j) ltac:(lia) ltac:(lia) ltac:(lia) Hs) as (x2 & M2 & E2).
      exists x2. split; auto. eapply m_times; eauto.
  - (* Opt, nothing *) intros [HL Hap]. split; [right; split; reflexivity|].
    assert (N1 : ~ fst_set p (upcoming (skip lex) s0)) by (rewrite (upcoming_eqt _ _ _ HE); intros Hf; eapply Hap; eauto).
    pose proof (idle_any p lex K s0 HL N1) as G. unfold idle in G. destruct (null p).
    + destruct G as (s' & M & E). exists s'. split; [now apply m_opt|]. eapply eqt_trans; eauto.
    + exists s0. split; [now apply m_opt_no|exact HE].
  - (* Opt *) intros [HL Hap]. destruct (IHspells lex eq_refl K s0 HK HE HL) as [S1 (s' & M1 & E1)]. split.
    + destruct S1 as [S1|[S1 E]]; [now left|right; auto].
    + exists s'. split; auto. now apply m_opt.
  - (* list, nothing *) intros (HL1 & HL2 & Hn & Hap & _). split; [right; split; reflexivity|]. exists s0. split; [|exact HE]. apply m_list_none. apply (idle_no p lex _ s0 HL1 Hn).
    rewrite (upcoming_eqt _ _ _ HE). intros Hf. eapply Hap; eauto.
  - (* list *) intros (HL1 & HL2 & Hn & Hap & Hap'). destruct (IHspells2 lex eq_refl K s1 HK eq_refl HL1 HL2 Hn Hap Hap') as [S2 _].
    assert (HA : (fun o => fst_set sep o \/ null sep = true /\ fst_set p o \/ K o) (upcoming (skip lex) s1)).
    { destruct S2 as [[S2|S2]|[_ E]]; [now left|right; now left|right; right; now rewrite (upcoming_eqt _ _ _ E)]. }
    destruct (IHspells1 lex eq_refl _ s0 HA HE HL1) as [S1 (x1 & M1 & E1)].
    destruct (IHspells2 lex eq_refl K x1 HK E1 HL1 HL2 Hn Hap Hap') as [_ (x2 & M2 & E2)].
    split; [destruct S1 as [S1|[S1 _]]; [now left|congruence]|]. exists x2. split; auto. eapply m_list; eauto.
  - (* no more *) intros HL1 HL2 Hn Hap Hap'. split; [right; split; reflexivity|].
    assert (N1 : ~ fst_set sep (upcoming (skip lex) s0)) by (rewrite (upcoming_eqt _ _ _ HE); intros Hf; eapply Hap'; eauto).
    assert (N2 : ~ fst_set p (upcoming (skip lex) s0)) by (rewrite (upcoming_eqt _ _ _ HE); intros Hf; eapply Hap; eauto).
    exists s0. split; [|exact HE]. pose proof (idle_any sep lex _ s0 HL2 N1) as G. unfold idle in G. destruct (null sep).
    + destruct G as (s1 & M1 & E1). eapply m_more_trailing; eauto. apply (idle_no p lex _ s1 HL1 Hn). now rewrite (upcoming_eqt _ _ _ E1).
    + now apply m_more_end.
  - (* one more *) intros HL1 HL2 Hn Hap Hap'. destruct (IHspells3 lex eq_refl K s2 HK eq_refl HL1 HL2 Hn Hap Hap') as [S3 _].
    assert (HA : (fun o => fst_set sep o \/ null sep = true /\ fst_set p o \/ K o) (upcoming (skip lex) s2)).
    { destruct S3 as [[S3|S3]|[_ E]]; [now left|right; now left|right; right; now rewrite (upcoming_eqt _ _ _ E)]. }
    destruct (IHspells2 lex eq_refl _ s1 HA eq_refl HL1) as [S2 _].
    assert (F2 : fst_set p (upcoming (skip lex) s1)) by (destruct S2 as [S2|[S2 _]]; [exact S2|congruence]).
    destruct (IHspells1 lex eq_refl (fst_set p) s0 F2 HE HL2) as [S1 (x1 & M1 & E1)].
    destruct (IHspells2 lex eq_refl _ x1 HA E1 HL1) as [_ (x2 & M2 & E2)].
    destruct (IHspells3 lex eq_refl K x2 HK E2 HL1 HL2 Hn Hap Hap') as [_ (x3 & M3 & E3)]. split.
    + left. destruct S1 as [S1|[S1 E]]; [now left|right]. split; auto. now rewrite (upcoming_eqt _ _ _ E).
    + exists x3. split; auto. eapply m_more; eauto.
  - (* Not *) intros (cs & E & Hap).
    assert (N1 : ~ among cs (upcoming (skip lex) s)) by auto. split.
    + left. cbn. now rewrite E.
    + exists s0. split; [|exact HE]. apply m_not_no. eapply onechar_m; eauto. now rewrite (upcoming_eqt _ _ _ HE).
  - (* Except *) intros (HL & Hn & Ht & cs & E). destruct (IHspells lex eq_refl K s0 HK HE HL) as [S1 (s' & M1 & E1)].
    destruct S1 as [S1|[S1 _]]; [|congruence].
    assert (N1 : ~ among cs (upcoming (skip lex) s)) by auto.
    split; [left; cbn; rewrite E; auto|]. exists s'. split; auto. apply m_except_no; auto. eapply onechar_m; eauto. now rewrite (upcoming_eqt _ _ _ HE).
  - (* WithSkipper *) intros HL. destruct HL.
  - (* Lexeme *) intros HL. cbn in HL. specialize (IHspells true eq_refl).
    assert (HA : (fun o => K o \/ lex = false /\ exists y, o = Some y /\ ws y = true) (upcoming nows t)).
    { unfold upcoming. rewrite trim_nows. unfold upcoming in HK. destruct t as [|y t]; [now left|]. cbn [hd_error]. destruct lex.
      - cbn [skip] in HK. rewrite trim_nows in HK. now left.
      - destruct (ws y) eqn:Ey; [right; split; [reflexivity|]; eauto|]. left. now rewrite (no_skip false _ _ Ey) in HK. }
    destruct (IHspells _ (trim (skip lex) s) HA eq_refl HL) as [S1 (s' & M1 & E1)]. cbn [skip] in E1. apply eqt_nows in E1. subst s'. split.
    + unfold starts in *. cbn [SpecLang.fst_set SpecLang.null]. unfold upcoming in *. cbn [skip] in S1. rewrite !trim_nows in S1.
      destruct S1 as [S1|[S1 E]]; [now left|right]. split; auto. apply eqt_nows in E. rewrite <- E. apply eqt_sym, eqt_trim.
    + exists t. split; [|reflexivity]. apply m_lexeme. rewrite HE. exact M1.
  - intros HL. cbn in HL. destruct (IHspells lex eq_refl K s0 HK HE HL) as [S1 (s' & M1 & E1)]. split; [exact S1|]. exists s'. split; auto. now constructor.
  - intros HL. cbn in HL. destruct (IHspells lex eq_refl K s0 HK HE HL) as [S1 (s' & M1 & E1)]. split; [exact S1|]. exists s'. split; auto. now constructor.
  - intros HL. cbn in HL. destruct (IHspells lex eq_refl K s0 HK HE HL) as [S1 (s' & M1 & E1)]. split; [exact S1|]. exists s'. split; auto. now constructor.
  - intros HL. cbn in HL. destruct (IHspells lex eq_refl K s0 HK HE HL) as [S1 (s' & M1 & E1)]. split; [exact S1|]. exists s'. split; auto. now constructor.
  - (* Recur *) intros (_ & HF). destruct (Hall id q H) as (Hn & Hf & _ & Hl). destruct (IHspells lex eq_refl (fol lex id) s0 (HF _ HK) HE (Hl lex)) as [S1 (s' & M1 & E1)]. split.
    + destruct S1 as [S1|[S1 E]]; [left; now apply Hf|right]. split; auto. cbn. congruence.
    + exists s'. split; auto. eapply m_recur; eauto.
Qed.
End Ahead.
