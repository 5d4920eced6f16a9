(** The nested lists of the user guide: what is accepted. *)
From Coq Require Import String List ZArith Bool Arith Lia.
From Verif Require Import Base CharSet Dst Pattern SpecPeg SpecText SpecGuide Demo PegSound PegTerm.
Import ListNotations.

Scheme nested_ind2 := Minimality for nested_toks Sort Prop
with listed_ind2 := Minimality for listed_toks Sort Prop
with items_ind2 := Minimality for items_toks Sort Prop.
Combined Scheme toks_ind from nested_ind2, listed_ind2, items_ind2.

Section Nest.
Context (ws : Z -> bool).
Local Notation trim w := (SpecPeg.trim (chars w)).
Local Arguments SpecPeg.trim : simpl never.
(** Nothing that is skipped is part of a nested list. *)
Hypothesis Hws : forall z, ws z = true -> is_digit 10 z = false /\ ~ In z (txt "()+-,").
Let bl z := ws z = true.
Let mm := m nest_env (chars ws).
Let recur := Recur 0 true.
Let comma := lc ",".

Lemma trim_word b t : Forall bl b -> (match t with z :: _ => ws z = false | [] => True end) -> trim ws (b ++ t) = t.
Proof.
  intros Hb Ht. induction Hb as [|z b Hz Hb IH]; cbn [app].
  - destruct t as [|z t]; auto. now rewrite trim_chars, Ht.
  - now rewrite trim_chars, Hz.
Qed.
Lemma trim_split s : exists b, s = b ++ trim ws s /\ Forall bl b /\ (match trim ws s with z :: _ => ws z = false | [] => True end).
Proof.
  induction s as [|z s (b & E & Hb & Ht)]; [exists []; change (trim ws []) with (@nil Z); auto|]. pose proof (trim_chars ws z s) as Ec. destruct (ws z) eqn:Ez; rewrite Ec.
  - exists (z :: b). cbn. rewrite <- E. auto.
  - exists []. cbn. auto.
Qed.
Lemma not_ws z : In z (txt "()+-,") \/ is_digit 10 z = true -> ws z = false.
Proof. intros H. destruct (ws z) eqn:E; auto. apply Hws in E. destruct E as [E1 E2], H as [H|H]; [tauto|congruence]. Qed.

(** ** Characters *)
Definition spot (x : string) (s t : list Z) : Prop := trim ws s = chr x :: t.
Lemma lit_yes x s t : mm (One (lc x)) s (Some t) <-> spot x s t.
Proof.
  unfold lc, spot. split; intros H.
  - inversion H; subst. match goal with H : m _ _ (One (Char _)) _ _ |- _ => inversion H; subst end.
    match goal with H : in_set _ _ |- _ => cbn in H; subst end. assumption.
  - apply m_discard. eapply m_char; [exact H|reflexivity].
Qed.
Lemma lit_no x s : (forall t, ~ spot x s t) -> mm (One (lc x)) s None.
Proof. intros H. apply m_discard, m_char_no. intros y t E Hy. cbn in Hy. subst y. now apply (H t). Qed.

(** ** Integers *)
Lemma digits_all ds s : Forall (fun z => is_digit 10 z = true) ds -> match s with z :: _ => is_digit 10 z = false | [] => True end ->
  digits 10 (ds ++ s) = length ds.
Proof. intros Hd Hs. induction Hd; cbn [app digits length]; [destruct s; cbn; auto; now rewrite Hs|]. now rewrite H, IHHd. Qed.
Lemma digits_take s : Forall (fun z => is_digit 10 z = true) (firstn (digits 10 s) s).
Proof. induction s as [|z s IH]; cbn; [constructor|]. destruct (is_digit 10 z) eqn:E; cbn; auto. Qed.

Lemma int_yes s t : mm (One int_) s (Some t) -> exists i, integer i /\ trim ws s = i ++ t.
Proof.
  intros H. assert (number 10 1 0 (unsigned (trim ws s)) = Some t) as E4 by (unfold mm, int_ in H; now inversion H).
  unfold number, taken in E4. cbn [Z.ltb Z.compare] in E4. set (u := unsigned (trim ws s)) in *.
  destruct (1 <=? Z.of_nat (digits 10 u))%Z eqn:E; [|discriminate]. injection E4 as <-. apply Z.leb_le in E.
  pose proof (digits_take u) as Hd. pose proof (firstn_skipn (digits 10 u) u) as Hu.
  assert (firstn (digits 10 u) u <> []) as Hne by (destruct u as [|z u]; [cbn in E; lia|]; destruct (digits 10 (z :: u)); [cbn in E; lia|discriminate]).
  unfold u in *. clear u. destruct (trim ws s) as [|z l] eqn:Et; [cbn in *; congruence|]. cbn [unsigned] in *.
  destruct ((z =? 45) || (z =? 43))%Z eqn:Ez.
  - exists (z :: firstn (digits 10 l) l). cbn [app]. rewrite Hu. split; auto. apply itg_signed; auto.
    apply orb_true_iff in Ez. rewrite !Z.eqb_eq in Ez. exact Ez.
  - exists (firstn (digits 10 (z :: l)) (z :: l)). rewrite Hu. split; auto. now apply itg_plain.
Qed.
Lemma int_no s c t : trim ws s = c :: t -> is_digit 10 c = false -> c <> 45%Z -> c <> 43%Z -> mm (One int_) s None.
Proof.
  intros E Hc H1 H2. replace None with (number 10 1 0 (unsigned (trim ws s))); [apply m_int|].
  rewrite E. apply Z.eqb_neq in H1. apply Z.eqb_neq in H2. unfold unsigned. rewrite H1, H2. cbn [orb]. unfold number, taken. cbn [Z.ltb Z.compare digits]. now rewrite Hc.
Qed.
Lemma int_no_end s : trim ws s = [] -> mm (One int_) s None.
Proof. intros E. replace None with (number 10 1 0 (unsigned (trim ws s))); [apply m_int|]. now rewrite E. Qed.
Lemma integer_here s i t : integer i -> trim ws s = i ++ t -> match t with z :: _ => is_digit 10 z = false | [] => True end -> mm (One int_) s (Some t).
Proof.
  intros Hi E Ht. replace (Some t) with (number 10 1 0 (unsigned (trim ws s))); [apply m_int|].
  assert (exists ds, ds <> [] /\ Forall (fun z => is_digit 10 z = true) ds /\ unsigned (i ++ t) = ds ++ t) as (ds & Hne & Hd & Eu).
  { destruct Hi as [ds Hne Hd|c ds Hc Hne Hd]; exists ds; split; auto; split; auto.
    - destruct Hd as [|z ds Hz Hd]; [congruence|]. cbn [app unsigned]. destruct ((z =? 45) || (z =? 43))%Z eqn:E1; auto.
      apply orb_true_iff in E1. rewrite !Z.eqb_eq in E1. destruct E1; subst z; discriminate.
    - cbn [app unsigned]. destruct Hc as [-> | ->]; reflexivity. }
  rewrite E, Eu. unfold number, taken. cbn [Z.ltb Z.compare]. rewrite digits_all by auto.
  rewrite (proj2 (Z.leb_le _ _)) by (destruct ds; [congruence|cbn; lia]). rewrite skipn_app, Nat.sub_diag, skipn_all. reflexivity.
Qed.
Lemma integer_starts i t : integer i -> match i ++ t with z :: _ => ws z = false | [] => False end.
Proof.
  intros [ds Hne Hd|c ds Hc Hne Hd]; cbn [app].
  - destruct Hd as [|z ds Hz Hd]; [congruence|]. apply not_ws. auto.
  - apply not_ws. left. cbn. destruct Hc as [-> | ->]; cbn; tauto.
Qed.

(** ** Completeness *)
Lemma nest_no s c t : trim ws s = c :: t -> is_digit 10 c = false -> c <> 45%Z -> c <> 43%Z -> c <> 40%Z -> mm (One recur) s None.
Proof.
  intros E Hc H1 H2 H3. eapply m_recur; [reflexivity|]. apply m_alt, m_any_next; [eapply int_no; eauto|]. apply m_any_next; [|constructor].
  apply m_seq, m_all_no. apply lit_no. intros t' H. unfold spot in H. rewrite E in H. injection H as H _. now apply H3.
Qed.

(** What follows an item. *)
Definition behind (rest : list Z) : Prop := exists t, spot ")" rest t \/ spot "," rest t.
Definition fresh (rest : list Z) : Prop := match rest with z :: _ => is_digit 10 z = false | [] => True end.
Lemma spot_fresh x rest t : is_digit 10 (chr x) = false -> spot x rest t -> fresh rest.
Proof.
  intros Hx H. unfold spot in H. destruct rest as [|z rest]; [exact I|]. rewrite trim_chars in H. cbn in *. destruct (ws z) eqn:E; [now apply Hws in E|]. now injection H as -> _.
Qed.

Lemma spaced_cons t ts text rest : spaced bl (t :: ts) text rest <-> exists b text1, text = b ++ t ++ text1 /\ Forall bl b /\ spaced bl ts text1 rest.
Proof.
  split.
  - intros H. inversion H; subst. eauto.
  - intros (b & text1 & -> & Hb & H). now constructor.
Qed.
Lemma spaced_app ts1 : forall ts2 text rest, spaced bl (ts1 ++ ts2) text rest <-> exists mid, spaced bl ts1 text mid /\ spaced bl ts2 mid rest.
Proof.
  induction ts1 as [|t ts1 IH]; intros ts2 text rest; cbn [app]; split.
  - intros H. exists text. split; [constructor|auto].
  - intros (mid & A & B). now inversion A; subst.
  - intros H. inversion H as [|b t' ts' text1 rest' Hb H1]; subst. apply IH in H1. destruct H1 as (mid & A & B). exists mid. split; auto. now constructor.
  - intros (mid & A & B). inversion A as [|b t' ts' text1 rest' Hb H1]; subst. constructor; auto. apply IH. eauto.
Qed.
Lemma spaced_char x ts text rest : ws (chr x) = false -> txt x = [chr x] -> spaced bl (txt x :: ts) text rest ->
  exists t, spot x text t /\ spaced bl ts t rest.
Proof.
  intros Hx E H. apply spaced_cons in H. destruct H as (b & text1 & -> & Hb & H). exists text1. split; auto.
  unfold spot. rewrite E. now apply trim_word.
Qed.

Lemma nest_complete :
  (forall ts, nested_toks ts -> forall text rest, spaced bl ts text rest -> fresh rest -> mm (One recur) text (Some rest)) /\
  (forall ts, listed_toks ts -> forall text rest t, spaced bl ts text rest -> spot ")" rest t -> exists rest', spot ")" rest' t /\ mm (One (PList recur comma)) text (Some rest')) /\
  (forall ts, items_toks ts -> forall text rest t, spaced bl ts text rest -> spot ")" rest t ->
     exists s1, mm (One recur) text (Some s1) /\ mm (More recur comma) s1 (Some rest)).
Proof.
  apply toks_ind.
  - (* integer *) intros i Hi text rest H Hr. apply spaced_cons in H. destruct H as (b & text1 & -> & Hb & H). inversion H; subst.
    eapply m_recur; [reflexivity|]. apply m_alt, m_any. eapply integer_here; eauto. apply trim_word; auto.
    pose proof (integer_starts i rest Hi) as Hs. destruct (i ++ rest); auto.
  - (* list *) intros ts _ IH text rest H Hr. apply (spaced_char "(" (ts ++ [txt ")"])) in H; [|apply not_ws; cbn; tauto|reflexivity].
    destruct H as (t & H1 & H). apply spaced_app in H. destruct H as (mid & H2 & H3).
    apply (spaced_char ")" []) in H3; [|apply not_ws; cbn; tauto|reflexivity]. destruct H3 as (t2 & H3 & H4). inversion H4; subst.
    destruct (IH _ _ _ H2 H3) as (rest' & H5 & H6).
    eapply m_recur; [reflexivity|]. apply m_alt, m_any_next; [eapply int_no; [exact H1| | |]; [reflexivity|discriminate|discriminate]|].
    apply m_any, m_seq. eapply m_all; [apply (proj2 (lit_yes _ _ _)); eassumption|]. eapply m_all; [exact H6|]. eapply m_all; [apply (proj2 (lit_yes _ _ _)); eassumption|]. constructor.
  - (* nothing *) intros text rest t H Hr. inversion H; subst. exists rest. split; auto. apply m_list_none. eapply nest_no; [exact Hr|reflexivity|discriminate|discriminate|discriminate].
  - (* something *) intros ts _ IH text rest t H Hr. destruct (IH _ _ _ H Hr) as (s1 & A & B). exists rest. split; auto. eapply m_list; eauto.
  - (* the last one *) intros ts _ IH text rest t H Hr. exists rest. split.
    + apply IH; auto. now apply (spot_fresh ")" rest t).
    + apply m_more_end. apply lit_no. intros t' H'. unfold spot in *. rewrite Hr in H'. discriminate.
  - (* one more *) intros ts us _ IH1 _ IH2 text rest t H Hr. apply spaced_app in H. destruct H as (mid & H1 & H2).
    apply (spaced_char "," us) in H2; [|apply not_ws; cbn; tauto|reflexivity]. destruct H2 as (t2 & H2 & H3).
    exists mid. split; [apply IH1; auto; now apply (spot_fresh "," mid t2)|]. destruct (IH2 _ _ _ H3 Hr) as (s1 & A & B).
    eapply m_more; [apply (proj2 (lit_yes _ _ _)); eassumption| |]; eauto.
Qed.

(** ** Soundness *)
Lemma trim_len s : length (trim ws s) <= length s.
Proof. destruct (trim_split s) as (b & E & _). rewrite E at 2. rewrite app_length. lia. Qed.
Lemma spot_len x s t : spot x s t -> length t < length s.
Proof. unfold spot. intros E. pose proof (trim_len s). rewrite E in H. cbn in H. lia. Qed.
Lemma spot_spaced x s t ts rest : txt x = [chr x] -> spot x s t -> spaced bl ts t rest -> spaced bl (txt x :: ts) s rest.
Proof. unfold spot. intros Hx E H. destruct (trim_split s) as (b & Es & Hb & _). rewrite Es, E. rewrite Hx. apply spaced_cons. exists b, t. auto. Qed.

Ltac inv H := inversion H; subst; clear H.

Lemma nest_sound n : forall s s', length s <= n -> mm (One recur) s (Some s') -> exists ts, nested_toks ts /\ spaced bl ts s s' /\ length s' < length s.
Proof.
  induction n as [n IH] using lt_wf_ind. intros s s' Hn H. unfold mm, recur in H. inv H. match goal with H : nest_env 0 = Some _ |- _ => injection H as <- end.
  match goal with H : m _ _ (One nest_def) _ _ |- _ => unfold nest_def in H; inv H end.
  match goal with H : m _ _ (Any _) _ _ |- _ => inv H end.
  - match goal with H : m _ _ (One int_) _ _ |- _ => apply int_yes in H; destruct H as (i & Hi & E) end.
    exists [i]. split; [now constructor|]. destruct (trim_split s) as (b & Es & Hb & _). rewrite E in Es. split.
    + rewrite Es. apply spaced_cons. exists b, s'. repeat split; auto. constructor.
    + rewrite Es, !app_length. destruct Hi as [ds Hne Hd|c ds Hc Hne Hd]; [destruct ds; [congruence|]|]; cbn; lia.
  - match goal with H : m _ _ (Any _) _ _ |- _ => inv H end; [|match goal with H : m _ _ (Any []) _ _ |- _ => inv H end].
    match goal with H : m _ _ (One (Seq _)) _ _ |- _ => inv H end.
    match goal with H : m _ _ (All _) _ _ |- _ => inv H end.
    match goal with H : m _ _ (One (lc "(")) _ _ |- _ => apply lit_yes in H; rename H into K1 end.
    match goal with H : m _ _ (All _) _ _ |- _ => inv H end.
    match goal with H : m _ _ (One (PList _ _)) _ _ |- _ => rename H into K2 end.
    match goal with H : m _ _ (All _) _ _ |- _ => inv H end.
    match goal with H : m _ _ (One (lc ")")) _ _ |- _ => apply lit_yes in H; rename H into K3 end.
    match goal with H : m _ _ (All []) _ _ |- _ => inv H end.
    pose proof (spot_len _ _ _ K1) as L1. pose proof (spot_len _ _ _ K3) as L3.
    assert (forall k, k < n -> forall s s', length s <= k -> m nest_env (chars ws) (More recur comma) s (Some s') ->
      s' = s \/ exists ts, items_toks ts /\ spaced bl (txt "," :: ts) s s' /\ length s' < length s) as HM.
    { clear -IH. intros k. induction k as [k IHk] using lt_wf_ind. intros Hk s s' Hs H. unfold comma in H. inv H; auto. right.
      match goal with H : m _ _ (One (lc ",")) _ _ |- _ => apply lit_yes in H; rename H into K1 end.
      match goal with H : m _ _ (One recur) _ _ |- _ => rename H into K2 end.
      match goal with H : m _ _ (More _ _) _ _ |- _ => rename H into K3 end.
      pose proof (spot_len _ _ _ K1) as L1. edestruct (IH k Hk) as (ts & A & B & C); [|exact K2|]; [lia|].
      edestruct (IHk (k - 1) ltac:(lia) ltac:(lia)) as [Eq|(us & D & E & F)]; [|exact K3| |]; [lia| |].
      - subst. exists ts. split; [now constructor|]. split; [|lia]. eapply spot_spaced; eauto.
      - exists (ts ++ txt "," :: us). split; [now constructor|]. split; [|lia]. eapply spot_spaced; eauto. apply spaced_app. eauto. }
    assert (exists ts, listed_toks ts /\ spaced bl ts s1 s2 /\ length s2 <= length s1) as (ts & T1 & T2 & T3).
    { inv K2.
      - exists []. split; [constructor|]. split; [constructor|lia].
      - match goal with H : m _ _ (One (Recur 0 true)) _ _ |- _ => rename H into K2 end.
        match goal with H : m _ _ (More _ _) _ _ |- _ => rename H into K4 end.
        edestruct (IH (n - 1) ltac:(lia)) as (ts & A & B & C); [|exact K2|]; [lia|].
        edestruct (HM (n - 1) ltac:(lia)) as [Eq|(us & D & E & F)]; [|exact K4| |]; [lia| |].
        + subst. exists ts. split; [now apply lsd_some, its_last|]. split; [auto|lia].
        + exists (ts ++ txt "," :: us). split; [now apply lsd_some, its_more|]. split; [apply spaced_app; eauto|lia]. }
    exists (txt "(" :: ts ++ [txt ")"]). split; [now constructor|]. split; [|lia].
    eapply spot_spaced; eauto. apply spaced_app. exists s2. split; auto. eapply spot_spaced; eauto. constructor.
Qed.

Theorem nest_doc_grammar s : (exists s', mm (One (Seq [recur; Eoi])) s (Some s')) <-> exists ts b, nested_toks ts /\ spaced bl ts s b /\ Forall bl b.
Proof.
  split.
  - intros (s' & H). unfold mm, recur in H. inv H. match goal with H : m _ _ (All _) _ _ |- _ => inv H end.
    match goal with H : m _ _ (All _) _ _ |- _ => inv H end. match goal with H : m _ _ (One Eoi) _ _ |- _ => inv H end.
    match goal with H : m _ _ (One (Recur _ _)) _ _ |- _ => rename H into K1 end.
    destruct (nest_sound _ _ _ (le_n _) K1) as (ts & A & B & _). exists ts. eexists. split; [exact A|]. split; [exact B|].
    match goal with H : trim ws ?x = [] |- _ => destruct (trim_split x) as (b & E & Hb & _); rewrite H, app_nil_r in E; rewrite E end. exact Hb.
  - intros (ts & b & A & B & C). exists []. apply m_seq. eapply m_all; [|eapply m_all; [|constructor]].
    + eapply (proj1 nest_complete); eauto. destruct C as [|z b Hz _]; cbn; auto. now apply Hws in Hz.
    + apply m_eoi. rewrite <- (app_nil_r b). now apply trim_word.
Qed.
End Nest.
