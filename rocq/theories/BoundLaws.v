(** The laws of SpecValueLaws hold of the reading with two objects, hence of what is stored
    when callbacks are given the bound destination. *)
From Coq Require Import List ZArith Bool Arith Lia.
From Verif Require Import Base CharSet Source Dst Pattern Parser Session SpecSession SpecPeg SpecRun SpecValue SpecLeaf SpecType SpecAttr SpecBound SpecValueLaws.
From Verif Require Import Rel Leaf PegSound Run Comb LawsThms AttrRun BoundRun ValueLaws.
Import ListNotations.

Section Laws.
Context (env : nat -> option pat).
Notation V := (mb env).
Definition bsame (o : bool) (t : ty) (p q : pat) : Prop :=
  forall ws tb L v s r v' k, V ws (VOne o p) tb L t v s r v' k <-> V ws (VOne o q) tb L t v s r v' k.

Lemma bsame_sym o t p q : bsame o t p q -> bsame o t q p.
Proof. intros H ws tb L v s r v' k. symmetry. apply H. Qed.

(** ** One step back *)
Lemma i_seq ws l tb L t v s r v' k : V ws (VOne false (Seq l)) tb L t v s r v' k <-> V ws (VAll 0 l) tb L t v s r v' k.
Proof. split; [intros H; now inversion H|now constructor]. Qed.
Lemma i_alt ws o l tb L t v s r v' k : V ws (VOne o (Alt l)) tb L t v s r v' k <-> V ws (VAny o l) tb L t v s r v' k.
Proof. split; [intros H; inversion H; subst; auto; discriminate|now constructor]. Qed.
Lemma i_repeat ws lo hi p tb L t v s r v' k : V ws (VOne false (Repeat lo hi p)) tb L t v s r v' k <-> V ws (VTimes lo hi 0 p) tb L t v s r v' k.
Proof. split; [intros H; now inversion H|now constructor]. Qed.
Lemma i_nil ws i tb L t v s r v' k : V ws (VAll i []) tb L t v s r v' k <-> r = Some s /\ v' = v /\ k = [].
Proof. split; [intros H; now inversion H|intros (-> & -> & ->); constructor]. Qed.
Lemma i_none ws o tb L t v s r v' k : V ws (VAny o []) tb L t v s r v' k <-> r = None /\ v' = v /\ k = [].
Proof. split; [intros H; now inversion H|intros (-> & -> & ->); constructor]. Qed.
Lemma i_pass ws o tb L t v s r v' k : V ws (VOne o Pass) tb L t v s r v' k <-> r = Some s /\ v' = v /\ k = [].
Proof. split; [intros H; inversion H; subst; auto; discriminate|intros (-> & -> & ->); constructor]. Qed.
Lemma i_fail ws o tb L t v s r v' k : V ws (VOne o Fail) tb L t v s r v' k <-> r = None /\ v' = v /\ k = [].
Proof. split; [intros H; inversion H; subst; auto; discriminate|intros (-> & -> & ->); constructor]. Qed.
Lemma i_lexeme ws o p tb L t v s r v' k : V ws (VOne o (Lexeme p)) tb L t v s r v' k <-> V nows (VOne o p) tb L t v (trim ws s) r v' k.
Proof. split; [intros H; inversion H; subst; auto; discriminate|now constructor]. Qed.
Lemma i_discard ws o p tb L t v s r v' k : V ws (VOne o (Discard p)) tb L t v s r v' k <-> V ws (VOne o p) tb Nowhere TNil v s r v' k.
Proof. split; [intros H; inversion H; subst; auto; discriminate|now constructor]. Qed.
Lemma i_bind ws p tb L t v s r v' k : V ws (VOne false (BindDst p)) tb L t v s r v' k <->
  exists y y' x, holds L v y /\ V ws (VOne false p) t (the_bound t) t (Objects y VNil) s r (Objects y' x) k /\ becomes y' L v v'.
Proof. split; [intros H; inversion H; subst; eauto 10|intros (y & y' & x & H1 & H2 & H3); econstructor; eauto]. Qed.
Lemma i_not ws o p tb L t v s r v' k : V ws (VOne o (Not p)) tb L t v s r v' k <->
  (exists s1, V ws (VOne false p) tb L t v s (Some s1) v' k) /\ r = None \/ V ws (VOne false p) tb L t v s None v' k /\ r = Some s.
Proof.
  split; [intros H; inversion H; subst; try discriminate; eauto|].
  intros [[[s1 H] ->]|[H ->]]; [eapply b_not; eauto|now constructor].
Qed.
Lemma i_opt ws o p tb L t v s r v' k : V ws (VOne o (Opt p)) tb L t v s r v' k <->
  (exists s1, V ws (VOne true p) tb L t v s (Some s1) v' k /\ r = Some s1) \/ V ws (VOne true p) tb L t v s None v' k /\ r = Some s.
Proof.
  split; [intros H; inversion H; subst; try discriminate; eauto|].
  intros [(s1 & H & ->)|[H ->]]; [now constructor|now apply b_opt_no].
Qed.
Lemma i_except ws o p q tb L t v s r v' k : V ws (VOne o (Except p q)) tb L t v s r v' k <->
  (exists s1, V ws (VOne false q) tb Nowhere TNil v s (Some s1) v' k) /\ r = None \/
  exists v1 k1 k2, V ws (VOne false q) tb Nowhere TNil v s None v1 k1 /\ V ws (VOne o p) tb L t v1 s r v' k2 /\ k = k1 ++ k2.
Proof.
  split; [intros H; inversion H; subst; try discriminate; eauto 10|].
  intros [[[s1 H] ->]|(x & k1 & k2 & H1 & H2 & ->)]; [eapply b_except; eauto|eapply b_except_no; eauto].
Qed.
Lemma i_or ws o p l tb L t v s r v' k : V ws (VAny o (p :: l)) tb L t v s r v' k <->
  (exists s1, V ws (VOne o p) tb L t v s (Some s1) v' k /\ r = Some s1) \/
  exists v1 k1 k2, V ws (VOne o p) tb L t v s None v1 k1 /\ V ws (VAny o l) tb L t v1 s r v' k2 /\ k = k1 ++ k2.
Proof.
  split; [intros H; inversion H; subst; try discriminate; eauto 10|].
  intros [(s1 & H & ->)|(v1 & k1 & k2 & H1 & H2 & ->)]; [now constructor|eapply b_any_next; eauto].
Qed.
Lemma i_cons ws i p l tb L t v s r v' k : V ws (VAll i (p :: l)) tb L t v s r v' k <->
  (exists tq Lq, part_in p i t L tq Lq /\ V ws (VOne false p) tb Lq tq v s None v' k) /\ r = None \/
  exists tq Lq v1 s1 k1 k2, part_in p i t L tq Lq /\ V ws (VOne false p) tb Lq tq v s (Some s1) v1 k1 /\
     V ws (VAll (after p i) l) tb L t v1 s1 r v' k2 /\ k = k1 ++ k2.
Proof.
  split; [intros H; inversion H; subst; try discriminate; eauto 15|].
  intros [[(tq & Lq & H1 & H2) ->]|(tq & Lq & v1 & s1 & k1 & k2 & H1 & H2 & H3 & ->)]; [eapply b_all_no; eauto|eapply b_all; eauto].
Qed.
Lemma i_times ws lo hi n p tb L t v s r v' k : V ws (VTimes lo hi n p) tb L t v s r v' k <->
  V ws (VOne true p) tb L t v s None v' k /\ r = (if lo <=? n then Some s else None) \/
  (exists s1, V ws (VOne true p) tb L t v s (Some s1) v' k /\ S n = hi /\ r = Some s1) \/
  exists s1 v1 k1 k2, V ws (VOne true p) tb L t v s (Some s1) v1 k1 /\ S n <> hi /\ V ws (VTimes lo hi (S n) p) tb L t v1 s1 r v' k2 /\ k = k1 ++ k2.
Proof.
  split; [intros H; inversion H; subst; try discriminate; eauto 15|].
  intros [[H ->]|[(s1 & H & E & ->)|(s1 & v1 & k1 & k2 & H1 & E & H2 & ->)]]; [now constructor|now apply b_times_full|eapply b_times; eauto].
Qed.
Lemma i_boxed ws p tb L t v s r v' k : atom p = false -> V ws (VOne true p) tb L t v s r v' k <->
  (exists s' b x, V ws (VOne false p) tb (the_own (value_ty t)) (value_ty t) (Objects (o_bound v) (default_init (value_ty t))) s (Some s') (Objects b x) k
     /\ assigned t L x (Objects b (o_own v)) v' /\ r = Some s') \/
  (exists b x, V ws (VOne false p) tb (the_own (value_ty t)) (value_ty t) (Objects (o_bound v) (default_init (value_ty t))) s None (Objects b x) k
     /\ v' = Objects b (o_own v)) /\ r = None.
Proof.
  intros A. split; [intros H; inversion H; subst; try discriminate; eauto 12; exfalso; cbn in A;
    match goal with E : true = true -> _ |- _ => rewrite E in A by reflexivity end; discriminate|].
  intros [(s' & b & x & H1 & H2 & ->)|((b & x & H & ->) & ->)]; [eapply b_one; eauto|eapply b_one_no; eauto].
Qed.

(** ** Lists, cut in two *)
Lemma b_all_app ws l1 l2 tb L t r v' : forall i v s k, V ws (VAll i (l1 ++ l2)) tb L t v s r v' k <->
  V ws (VAll i l1) tb L t v s None v' k /\ r = None \/
  exists s1 v1 k1 k2, V ws (VAll i l1) tb L t v s (Some s1) v1 k1 /\ V ws (VAll (afters l1 i) l2) tb L t v1 s1 r v' k2 /\ k = k1 ++ k2.
Proof.
  induction l1 as [|p l1 IH]; intros i v s k; cbn [app afters fold_left].
  - split.
    + intros H. right. exists s, v, [], k. split; [constructor|auto].
    + intros [[H _]|(s1 & v1 & k1 & k2 & H1 & H2 & ->)]; [inversion H|]. apply i_nil in H1. destruct H1 as ([= ->] & -> & ->). exact H2.
  - rewrite i_cons. split.
    + intros [[H ->]|(tq & Lq & v1 & s1 & k1 & k2 & H1 & H2 & H3 & ->)]; [left; split; auto; apply i_cons; auto|].
      apply IH in H3. destruct H3 as [[H3 ->]|(s2 & v2 & k3 & k4 & H3 & H4 & ->)].
      * left. split; auto. apply i_cons. right. do 6 eexists. eauto.
      * right. exists s2, v2, (k1 ++ k3), k4. rewrite <- app_assoc. split; auto. apply i_cons. right. do 6 eexists. eauto.
    + intros [[H ->]|(s1 & v1 & k1 & k2 & H1 & H2 & ->)].
      * apply i_cons in H. destruct H as [[H _]|(tq & Lq & v1 & s1 & k1 & k2 & H1 & H2 & H3 & ->)]; [left; auto|].
        right. do 6 eexists. split; [exact H1|]. split; [exact H2|]. split; [apply IH; left; eauto|reflexivity].
      * apply i_cons in H1. destruct H1 as [[_ E]|(tq & Lq & v2 & s2 & k3 & k4 & H3 & H4 & H5 & ->)]; [discriminate|].
        right. do 6 eexists. split; [exact H3|]. split; [exact H4|]. split; [apply IH; right; do 4 eexists; eauto|]. now rewrite app_assoc.
Qed.

Lemma b_any_app ws o l1 l2 tb L t s r v' : forall v k, V ws (VAny o (l1 ++ l2)) tb L t v s r v' k <->
  (exists s1, V ws (VAny o l1) tb L t v s (Some s1) v' k /\ r = Some s1) \/
  exists v1 k1 k2, V ws (VAny o l1) tb L t v s None v1 k1 /\ V ws (VAny o l2) tb L t v1 s r v' k2 /\ k = k1 ++ k2.
Proof.
  induction l1 as [|p l1 IH]; intros v k; cbn [app].
  - split.
    + intros H. right. exists v, [], k. split; [constructor|auto].
    + intros [(s1 & H & _)|(v1 & k1 & k2 & H1 & H2 & ->)]; [inversion H|]. apply i_none in H1. destruct H1 as (_ & -> & ->). exact H2.
  - rewrite i_or. split.
    + intros [(s1 & H & ->)|(v1 & k1 & k2 & H1 & H2 & ->)]; [left; exists s1; split; auto; apply i_or; eauto|].
      apply IH in H2. destruct H2 as [(s1 & H2 & ->)|(v2 & k3 & k4 & H2 & H3 & ->)].
      * left. exists s1. split; auto. apply i_or. right. do 3 eexists. eauto.
      * right. exists v2, (k1 ++ k3), k4. rewrite <- app_assoc. split; auto. apply i_or. right. do 3 eexists. eauto.
    + intros [(s1 & H & ->)|(v1 & k1 & k2 & H1 & H2 & ->)].
      * apply i_or in H. destruct H as [(s2 & H & E)|(v1 & k1 & k2 & H1 & H2 & ->)]; [left; eauto|].
        right. do 3 eexists. split; [exact H1|]. split; [apply IH; left; eauto|reflexivity].
      * apply i_or in H1. destruct H1 as [(s2 & _ & E)|(v2 & k3 & k4 & H3 & H4 & ->)]; [discriminate|].
        right. do 3 eexists. split; [exact H3|]. split; [apply IH; right; do 3 eexists; eauto|]. now rewrite app_assoc.
Qed.

(** ** Contexts *)
Lemma c_any o tb L t l1 l2 p q ws v s r v' k : bsame o t p q -> V ws (VAny o (l1 ++ p :: l2)) tb L t v s r v' k -> V ws (VAny o (l1 ++ q :: l2)) tb L t v s r v' k.
Proof.
  intros Hs H. apply b_any_app in H. apply b_any_app. destruct H as [H|(v1 & k1 & k2 & H1 & H2 & ->)]; [auto|right].
  exists v1, k1, k2. split; auto. split; auto. apply i_or in H2. apply i_or.
  destruct H2 as [(s1 & H & ->)|(v2 & k3 & k4 & H3 & H4 & ->)]; [left; exists s1|right; exists v2, k3, k4]; intuition; now apply Hs.
Qed.
Lemma part_swap p q i t L tq Lq : ignores p = ignores q -> part_in p i t L tq Lq -> part_in q i t L tq Lq.
Proof. intros E H. destruct H; [apply pin_quiet|apply pin_whole|apply pin_none|eapply pin_slot]; eauto; congruence. Qed.
Lemma after_swap p q i : ignores p = ignores q -> after p i = after q i.
Proof. unfold after. now intros ->. Qed.
Lemma c_all tb L t l1 l2 p q ws i v s r v' k : ignores p = ignores q ->
  (forall i L tq Lq, part_in p i t L tq Lq -> bsame false tq p q) ->
  V ws (VAll i (l1 ++ p :: l2)) tb L t v s r v' k -> V ws (VAll i (l1 ++ q :: l2)) tb L t v s r v' k.
Proof.
  intros E Hs H. apply b_all_app in H. apply b_all_app. destruct H as [H|(s1 & v1 & k1 & k2 & H1 & H2 & ->)]; [auto|right].
  exists s1, v1, k1, k2. split; auto. split; auto. apply i_cons in H2. apply i_cons.
  destruct H2 as [[(tq & Lq & H2 & H3) ->]|(tq & Lq & v2 & s2 & k3 & k4 & H2 & H3 & H4 & ->)].
  - left. split; auto. exists tq, Lq. split; [now apply (part_swap p)|]. now apply (Hs _ _ _ _ H2).
  - right. exists tq, Lq, v2, s2, k3, k4. rewrite <- (after_swap p q) by exact E.
    split; [now apply (part_swap p)|]. split; [now apply (Hs _ _ _ _ H2)|auto].
Qed.
Lemma c_times tb L t p q lo hi ws n v s r v' k : bsame true t p q -> V ws (VTimes lo hi n p) tb L t v s r v' k -> V ws (VTimes lo hi n q) tb L t v s r v' k.
Proof.
  intros Hs H. remember (VTimes lo hi n p) as g eqn:E. revert n E. induction H; intros n0 E; try discriminate; injection E as -> -> <- ->.
  - constructor. now apply Hs.
  - apply b_times_full; auto. now apply Hs.
  - eapply b_times; eauto. now apply Hs.
Qed.
Lemma c_more tb L t p q sp sq ws v s r v' k : bsame true t p q -> bsame false TNil sp sq -> V ws (VMore p sp) tb L t v s r v' k -> V ws (VMore q sq) tb L t v s r v' k.
Proof.
  intros Hs Hq H. remember (VMore p sp) as g eqn:E. revert E. induction H; intros E; try discriminate; injection E as -> ->.
  - eapply b_more_end. apply Hq. eassumption.
  - eapply b_more_trailing; [apply Hq|apply Hs]; eassumption.
  - eapply b_more; [apply Hq|apply Hs|]; eauto.
Qed.

(** ** The ways of storing *)
Lemma whole_same p : whole p = true -> forall o o' ws tb L t v s r v' k, V ws (VOne o p) tb L t v s r v' k -> V ws (VOne o' p) tb L t v s r v' k.
Proof.
  induction p using pat_ind'; intros W o o' ws tb L t0 v0 s0 r0 v0' k0 HV; cbn [whole] in W; try discriminate;
    try (inversion HV; subst; try discriminate; econstructor; now eauto).
  apply i_alt in HV. apply i_alt. revert v0 k0 HV. induction H as [|p l Hp Hl IH]; intros v0 k0 HV.
  - apply i_none in HV. now apply i_none.
  - cbn in W. apply andb_prop in W. destruct W as [W1 W2]. apply i_or in HV. apply i_or.
    destruct HV as [(s1 & H1 & ->)|(v1 & k1 & k2 & H1 & H2 & ->)].
    + left. exists s1. split; auto. now apply (Hp W1 o).
    + right. exists v1, k1, k2. split; [now apply (Hp W1 o)|]. split; auto.
Qed.

(** ** Patterns that look once *)
Lemma look_none p : one_look p = true -> forall o ws tb L t v s v' k, V ws (VOne o p) tb L t v s None v' k ->
  v' = v /\ k = [] /\ forall o2 tb2 L2 t2 v2, V ws (VOne o2 p) tb2 L2 t2 v2 s None v2 [].
Proof.
  induction p; intros P o ws tb L t0 v0 s0 v0' k0 HV; cbn [one_look] in P; try discriminate;
    try (inversion HV; subst; try discriminate; split; [reflexivity|split; [reflexivity|]]; intros; econstructor; now eauto).
  - apply i_pass in HV. destruct HV; discriminate.
  - apply i_discard in HV. destruct (IHp P _ _ _ _ _ _ _ _ _ HV) as (-> & -> & H).
    split; [reflexivity|split; [reflexivity|]]. intros. now apply i_discard.
  - apply i_lexeme in HV. destruct (IHp P _ _ _ _ _ _ _ _ _ HV) as (-> & -> & H).
    split; [reflexivity|split; [reflexivity|]]. intros. now apply i_lexeme.
Qed.
Lemma look_some p : one_look p = true -> forall o ws tb L t v s s' v' k, V ws (VOne o p) tb L t v s (Some s') v' k ->
  k = [] /\ forall o2 tb2 L2 t2 v2 r2 v2' k2, V ws (VOne o2 p) tb2 L2 t2 v2 s r2 v2' k2 -> r2 = Some s'.
Proof.
  induction p; intros P o ws tb L t0 v0 s0 s0' v0' k0 HV; cbn [one_look] in P; try discriminate;
    try (inversion HV; subst; try discriminate; split; [reflexivity|]; intros o2 tb2 L2 t2 v2 r2 v2' k2 HX; inversion HX; subst; try discriminate; try congruence).
  - exfalso. match goal with H : forall _ _, trim _ _ = _ -> ~ _ |- _ => eapply H; eauto end.
  - apply i_fail in HV. destruct HV; discriminate.
  - f_equal. eapply app_inv_head. etransitivity; [symmetry|]; eassumption.
  - match goal with A : trim ws s0 = ?key ++ s0', C : In (?key, _) _, E : forall _ _ _, _ -> _ -> length _ <= length ?key |- _ => rename key into k1; rename A into A0; rename C into C0; rename E into E0 end.
    match goal with A : trim ws s0 = ?key ++ ?s3, C : In (?key, _) _, E : forall _ _ _, _ -> _ -> length _ <= length ?key |- Some ?s3 = _ => rename key into k3; rename A into B0; rename C into D0; rename E into F0 end.
    pose proof (E0 _ _ _ B0 D0); pose proof (F0 _ _ _ A0 C0). rewrite A0 in B0. f_equal. symmetry.
    assert (length k1 = length k3) as Le by lia. clear - B0 Le.
    revert k3 B0 Le; induction k1 as [|a k1 IH]; intros [|b k3] B Le; cbn in *; try discriminate; [exact B|].
    injection B as -> B. injection Le as Le. eauto.
  - exfalso. match goal with N : forall _ _ _, _ -> ~ In _ _ |- _ => eapply N; eauto end.
  - apply i_discard in HV. destruct (IHp P _ _ _ _ _ _ _ _ _ _ HV) as (-> & H).
    split; [reflexivity|]. intros o2 tb2 L2 t2 v2 r2 v2' k2 H2. apply i_discard in H2. eauto.
  - apply i_lexeme in HV. destruct (IHp P _ _ _ _ _ _ _ _ _ _ HV) as (-> & H).
    split; [reflexivity|]. intros o2 tb2 L2 t2 v2 r2 v2' k2 H2. apply i_lexeme in H2. eauto.
Qed.
Lemma assigned_nowhere x h h' : assigned TNil Nowhere x h h' <-> h' = h.
Proof.
  split.
  - intros (v & v' & _ & _ & H). now inversion H.
  - intros ->. exists VNil, VNil. repeat constructor.
Qed.
(** Where nothing is stored. *)
Lemma look_quiet p : one_look p = true -> forall o ws tb v s r v' k, V ws (VOne o p) tb Nowhere TNil v s r v' k ->
  v' = v /\ k = [] /\ forall v0, V ws (VOne o p) tb Nowhere TNil v0 s r v0 [].
Proof.
  induction p; intros P o ws tb v0 s0 r0 v0' k0 HV; cbn [one_look] in P; try discriminate;
    try (inversion HV; subst; try discriminate; split; [reflexivity|split; [reflexivity|]]; intros v9; econstructor; eassumption).
  - inversion HV; subst; try discriminate.
    + match goal with H : assigned TNil Nowhere _ _ _ |- _ => apply assigned_nowhere in H; subst end.
      split; [reflexivity|split; [reflexivity|]]. intros v9. eapply b_char; try eassumption. now apply assigned_nowhere.
    + split; [reflexivity|split; [reflexivity|]]. intros v9. now apply b_char_no.
  - inversion HV; subst; try discriminate; (split; [reflexivity|split; [reflexivity|]]; intros v9); [now apply b_eoi|now apply b_eoi_no].
  - inversion HV; subst; try discriminate; (split; [reflexivity|split; [reflexivity|]]; intros v9); [now apply b_lit|now apply b_lit_no].
  - inversion HV; subst; try discriminate.
    + match goal with H : assigned TNil Nowhere _ _ _ |- _ => apply assigned_nowhere in H; subst end.
      split; [reflexivity|split; [reflexivity|]]. intros v9. eapply b_sym; try eassumption. now apply assigned_nowhere.
    + split; [reflexivity|split; [reflexivity|]]. intros v9. eapply b_sym_no; eassumption.
  - apply i_discard in HV. destruct (IHp P _ _ _ _ _ _ _ _ HV) as (-> & -> & H).
    split; [reflexivity|split; [reflexivity|]]. intros. now apply i_discard.
  - apply i_lexeme in HV. destruct (IHp P _ _ _ _ _ _ _ _ HV) as (-> & -> & H).
    split; [reflexivity|split; [reflexivity|]]. intros. now apply i_lexeme.
Qed.

(** ** Objects that are shared *)
Lemma part_flat t p i L tq Lq : flat t = true -> ignores p = false -> part_in p i t L tq Lq <-> tq = t /\ Lq = L.
Proof.
  intros F E. split; [intros H; destruct H; auto; try congruence; discriminate|].
  intros (-> & ->). apply pin_whole; auto. now apply flat_no.
Qed.
Lemma part_quiet t p i L tq Lq : ignores p = true -> part_in p i t L tq Lq <-> tq = TNil /\ Lq = Nowhere.
Proof.
  intros E. split; [intros H; destruct H; auto; congruence|]. intros (-> & ->). now apply pin_quiet.
Qed.
Lemma f_cons ws i p l tb L t v s r v' k : flat t = true -> ignores p = false -> V ws (VAll i (p :: l)) tb L t v s r v' k <->
  V ws (VOne false p) tb L t v s None v' k /\ r = None \/
  exists s1 v1 k1 k2, V ws (VOne false p) tb L t v s (Some s1) v1 k1 /\ V ws (VAll (S i) l) tb L t v1 s1 r v' k2 /\ k = k1 ++ k2.
Proof.
  intros F E. rewrite i_cons. replace (after p i) with (S i) by (unfold after; now rewrite E). split.
  - intros [[(tq & Lq & H1 & H2) ->]|(tq & Lq & v1 & s1 & k1 & k2 & H1 & H2 & H3 & ->)];
      apply part_flat in H1; auto; destruct H1 as (-> & ->); [left; auto|right]. exists s1, v1, k1, k2. auto.
  - intros [[H ->]|(s1 & v1 & k1 & k2 & H1 & H2 & ->)].
    + left. split; auto. exists t, L. split; auto. now apply part_flat.
    + right. exists t, L, v1, s1, k1, k2. split; auto. now apply part_flat.
Qed.
Lemma q_cons ws i p l tb L t v s r v' k : ignores p = true -> V ws (VAll i (p :: l)) tb L t v s r v' k <->
  V ws (VOne false p) tb Nowhere TNil v s None v' k /\ r = None \/
  exists s1 v1 k1 k2, V ws (VOne false p) tb Nowhere TNil v s (Some s1) v1 k1 /\ V ws (VAll i l) tb L t v1 s1 r v' k2 /\ k = k1 ++ k2.
Proof.
  intros E. rewrite i_cons. replace (after p i) with i by (unfold after; now rewrite E). split.
  - intros [[(tq & Lq & H1 & H2) ->]|(tq & Lq & v1 & s1 & k1 & k2 & H1 & H2 & H3 & ->)];
      apply part_quiet in H1; auto; destruct H1 as (-> & ->); [left; eauto|right]. exists s1, v1, k1, k2. auto.
  - intros [[H ->]|(s1 & v1 & k1 & k2 & H1 & H2 & ->)].
    + left. split; auto. exists TNil, Nowhere. split; auto. now apply part_quiet.
    + right. exists TNil, Nowhere, v1, s1, k1, k2. split; auto. now apply part_quiet.
Qed.
Lemma f_index ws l tb L t r v' : flat t = true -> forall i j v s k, V ws (VAll i l) tb L t v s r v' k -> V ws (VAll j l) tb L t v s r v' k.
Proof.
  intros F. induction l as [|p l IH]; intros i j v s k H; [apply i_nil in H; now apply i_nil|].
  destruct (ignores p) eqn:E.
  - apply q_cons in H; auto. apply q_cons; auto. destruct H as [H|(s1 & x & k1 & k2 & H1 & H2 & ->)]; [now left|right].
    exists s1, x, k1, k2. eauto.
  - apply f_cons in H; auto. apply f_cons; auto. destruct H as [H|(s1 & x & k1 & k2 & H1 & H2 & ->)]; [now left|right].
    exists s1, x, k1, k2. eauto.
Qed.
Lemma f_one ws i p tb L t v s r v' k : flat t = true -> ignores p = false -> V ws (VAll i [p]) tb L t v s r v' k <-> V ws (VOne false p) tb L t v s r v' k.
Proof.
  intros F E. rewrite f_cons by auto. split.
  - intros [[H ->]|(s1 & v1 & k1 & k2 & H1 & H2 & ->)]; auto. apply i_nil in H2. destruct H2 as (-> & -> & ->). now rewrite app_nil_r.
  - intros H. destruct r as [s1|]; [right|now left]. exists s1, v', k, []. rewrite app_nil_r. split; auto. split; auto. constructor.
Qed.

(** ** Repetitions *)
Lemma b_floor ws p tb L t lo n lo' n' v s r v' k : lo <= n -> lo' <= n' -> V ws (VTimes lo 0 n p) tb L t v s r v' k -> V ws (VTimes lo' 0 n' p) tb L t v s r v' k.
Proof.
  intros Hn Hn' H. remember (VTimes lo 0 n p) as g eqn:E. revert n n' Hn Hn' E. induction H; intros n0 n0' Hn Hn' E; try discriminate; injection E as -> -> <- ->.
  - rewrite (proj2 (Nat.leb_le lo n)) by lia. replace (Some s) with (if lo' <=? n0' then Some s else None) by (rewrite (proj2 (Nat.leb_le lo' n0')) by lia; reflexivity).
    now constructor.
  - discriminate.
  - eapply (b_times env ws lo' 0 n0' p); [eassumption|discriminate|]. apply (IHmb2 (S n)); auto; lia.
Qed.
Lemma b_star_some ws p tb L t n v s v' k : ~ V ws (VTimes 0 0 n p) tb L t v s None v' k.
Proof.
  intros H. remember (VTimes 0 0 n p) as g eqn:E. remember None as r eqn:R. revert n E R.
  induction H; intros n0 E R; try discriminate; injection E as -> -> <- ->; try discriminate; eauto.
Qed.
Lemma b_at_least ws p tb L t lo : flat t = true -> whole p = true -> ignores p = false -> forall j n i v s r v' k, lo = n + j ->
  (V ws (VTimes lo 0 n p) tb L t v s r v' k <-> V ws (VAll i (List.repeat p j ++ [Repeat 0 0 p])) tb L t v s r v' k).
Proof.
  intros F W E. pose proof (whole_same p W) as WS. induction j as [|j IH]; intros n i v s r v' k Le; cbn [List.repeat app].
  - rewrite f_one by auto. rewrite i_repeat. split; apply b_floor; lia.
  - rewrite f_cons by auto. rewrite i_times. split.
    + intros [[H ->]|[(s1 & _ & H & _)|(s1 & v1 & k1 & k2 & H1 & _ & H2 & ->)]]; [left|discriminate|right].
      * split; [now apply (WS true)|]. now rewrite (proj2 (Nat.leb_gt lo n)) by lia.
      * exists s1, v1, k1, k2. split; [now apply (WS true)|]. split; auto. apply (IH (S n)); auto. lia.
    + intros [[H ->]|(s1 & v1 & k1 & k2 & H1 & H2 & ->)]; [left|right; right].
      * split; [now apply (WS false)|]. now rewrite (proj2 (Nat.leb_gt lo n)) by lia.
      * exists s1, v1, k1, k2. split; [now apply (WS false)|]. split; [discriminate|]. split; auto. apply (IH (S n) (S i)); auto. lia.
Qed.
Lemma b_exact ws p tb L t hi : flat t = true -> whole p = true -> ignores p = false -> forall j n i v s r v' k, hi = n + S j ->
  (V ws (VTimes hi hi n p) tb L t v s r v' k <-> V ws (VAll i (List.repeat p (S j))) tb L t v s r v' k).
Proof.
  intros F W E. pose proof (whole_same p W) as WS. induction j as [|j IH]; intros n i v s r v' k Le.
  - cbn [List.repeat]. rewrite f_one by auto. rewrite i_times. split.
    + intros [[H ->]|[(s1 & H & _ & ->)|(s1 & v1 & k1 & k2 & _ & H & _)]]; [|now apply (WS true)|lia].
      rewrite (proj2 (Nat.leb_gt hi n)) by lia. now apply (WS true).
    + intros H. apply (WS false true) in H. destruct r as [s1|]; [right; left; exists s1; intuition lia|left; split; auto].
      now rewrite (proj2 (Nat.leb_gt hi n)) by lia.
  - change (List.repeat p (S (S j))) with (p :: List.repeat p (S j)). rewrite f_cons by auto. rewrite i_times. split.
    + intros [[H ->]|[(s1 & _ & H & _)|(s1 & v1 & k1 & k2 & H1 & _ & H2 & ->)]]; [left|lia|right].
      * split; [now apply (WS true)|]. now rewrite (proj2 (Nat.leb_gt hi n)) by lia.
      * exists s1, v1, k1, k2. split; [now apply (WS true)|]. split; auto. apply (IH (S n)); auto. lia.
    + intros [[H ->]|(s1 & v1 & k1 & k2 & H1 & H2 & ->)]; [left|right; right].
      * split; [now apply (WS false)|]. now rewrite (proj2 (Nat.leb_gt hi n)) by lia.
      * exists s1, v1, k1, k2. split; [now apply (WS false)|]. split; [lia|]. split; auto. apply (IH (S n) (S i)); auto. lia.
Qed.

Ltac both := intros ws tb L v s r v' k; split.

(** ** The laws *)
Lemma bs_factor t p a b : flat t = true -> one_look p = true -> ignores p = true ->
  bsame false t (Alt [Seq (p :: a); Seq (p :: b)]) (Seq [p; Alt [Seq a; Seq b]]).
Proof.
  intros F P E ws tb L v s r v' k. rewrite i_alt, i_seq, q_cons by auto. split.
  - intros H. apply i_or in H. destruct H as [(s1 & H & ->)|(v1 & k1 & k2 & H1 & H2 & ->)].
    + rewrite i_seq, q_cons in H by auto. destruct H as [[_ H]|(s2 & x & k1 & k2 & H1 & H2 & ->)]; [discriminate|].
      right. exists s2, x, k1, k2. split; auto. split; auto. apply f_one; auto. apply i_alt, i_or. left. exists s1. split; auto. now apply i_seq.
    + rewrite i_seq, q_cons in H1 by auto. apply i_or in H2.
      assert (H3 : V ws (VAll 0 (p :: b)) tb L t v1 s r v' k2).
      { destruct H2 as [(s1 & H2 & ->)|(v2 & k3 & k4 & H2 & H3 & ->)]; [now apply i_seq in H2|].
        apply i_none in H3. destruct H3 as (-> & -> & ->). rewrite app_nil_r. now apply i_seq in H2. }
      apply q_cons in H3; auto. destruct H1 as [[H1 _]|(s2 & x & k3 & k4 & H1 & H4 & ->)].
      * destruct (look_none p P _ _ _ _ _ _ _ _ _ H1) as (-> & -> & _). destruct H3 as [H3|(s2 & y & k3 & k4 & H3 & _)]; [auto|].
        destruct (look_some p P _ _ _ _ _ _ _ _ _ _ H3) as [_ D]. specialize (D _ _ _ _ _ _ _ _ H1). discriminate.
      * destruct (look_some p P _ _ _ _ _ _ _ _ _ _ H1) as [_ D]. destruct (look_quiet p P _ _ _ _ _ _ _ _ H1) as (-> & -> & _).
        destruct H3 as [[H3 _]|(s3 & y & k5 & k6 & H3 & H5 & ->)];
          pose proof (D _ _ _ _ _ _ _ _ H3) as D2; [discriminate|injection D2 as ->].
        destruct (look_quiet p P _ _ _ _ _ _ _ _ H3) as (-> & -> & _).
        right. exists s2, v, [], (k4 ++ k6). split; auto. split; auto. apply f_one; auto. apply i_alt, i_or.
        right. exists v1, k4, k6. split; [now apply i_seq|]. split; auto. apply i_or.
        destruct r as [s4|]; [left; exists s4; split; auto; now apply i_seq|right]. exists v', k6, []. rewrite app_nil_r.
        split; [now apply i_seq|]. split; auto. constructor.
  - intros [[H ->]|(s1 & x & k1 & k2 & H1 & H2 & ->)].
    + destruct (look_none p P _ _ _ _ _ _ _ _ _ H) as (-> & -> & _). apply i_or. right. exists v, [], [].
      assert (N : forall l, V ws (VOne false (Seq (p :: l))) tb L t v s None v []) by (intros l; apply i_seq, q_cons; auto; left; eauto).
      split; auto. split; auto. apply i_or. right. exists v, [], []. split; auto. split; auto. constructor.
    + destruct (look_quiet p P _ _ _ _ _ _ _ _ H1) as (-> & -> & Q). apply f_one in H2; auto. apply i_alt, i_or in H2. cbn [app].
      assert (G : forall l v0 r0 v0' k0, V ws (VOne false (Seq l)) tb L t v0 s1 r0 v0' k0 -> V ws (VOne false (Seq (p :: l))) tb L t v0 s r0 v0' k0).
      { intros l v0 r0 v0' k0 H. apply i_seq, q_cons; auto. right. exists s1, v0, [], k0. split; auto. split; auto. now apply i_seq. }
      apply i_or. destruct H2 as [(s2 & H2 & ->)|(v1 & k3 & k4 & H2 & H3 & ->)]; [left; eauto|right].
      exists v1, k3, k4. split; auto. split; auto. apply i_or in H3. apply i_or.
      destruct H3 as [(s2 & H3 & ->)|(v2 & k5 & k6 & H3 & H4 & ->)]; [left; eauto|right].
      apply i_none in H4. destruct H4 as (-> & -> & ->). exists v2, k5, []. split; auto. split; auto. constructor.
Qed.

Lemma bs_again o t l1 l2 l3 p : one_look p = true -> bsame o t (Alt (l1 ++ p :: l2 ++ p :: l3)) (Alt (l1 ++ p :: l2 ++ l3)).
Proof.
  intros P ws tb L v s r v' k. rewrite !i_alt.
  assert (G : forall v r v' k, V ws (VOne o p) tb L t v s None v [] ->
    (V ws (VAny o (l2 ++ p :: l3)) tb L t v s r v' k <-> V ws (VAny o (l2 ++ l3)) tb L t v s r v' k)).
  { intros v0 r0 v0' k0 N. rewrite !b_any_app.
    assert (N2 : forall v1, V ws (VOne o p) tb L t v1 s None v1 []) by (intros v1; now apply (look_none p P _ _ _ _ _ _ _ _ _ N)).
    assert (Q : forall v1 k2, V ws (VAny o (p :: l3)) tb L t v1 s r0 v0' k2 <-> V ws (VAny o l3) tb L t v1 s r0 v0' k2).
    { intros v1 k2. rewrite i_or. split.
      - intros [(s1 & H & _)|(v2 & k3 & k4 & H1 & H2 & ->)].
        + destruct (look_some p P _ _ _ _ _ _ _ _ _ _ H) as [_ D]. specialize (D _ _ _ _ _ _ _ _ N). discriminate.
        + destruct (look_none p P _ _ _ _ _ _ _ _ _ H1) as (-> & -> & _). exact H2.
      - intros H. right. exists v1, [], k2. auto. }
    split; (intros [H|(v1 & k1 & k2 & H1 & H2 & ->)]; [left; exact H|right; exists v1, k1, k2; split; [exact H1|split; [now apply Q|reflexivity]]]). }
  rewrite !(b_any_app ws o l1). split;
    (intros [H|(v1 & k1 & k2 & H1 & H2 & ->)]; [left; exact H|right; exists v1, k1, k2; split; [exact H1|split; [|reflexivity]]];
     apply i_or in H2; apply i_or; destruct H2 as [H2|(v2 & k3 & k4 & H2 & H3 & ->)]; [left; exact H2|right];
     exists v2, k3, k4; destruct (look_none p P _ _ _ _ _ _ _ _ _ H2) as (-> & -> & N); split; [exact H2|split; [now apply G|reflexivity]]).
Qed.

(** Binding what is bound. *)
Lemma bind_bound ws p t b x0 s r h' k : t <> TNil ->
  V ws (VOne false (BindDst p)) t (the_bound t) t (Objects b x0) s r h' k <->
  exists b' x, V ws (VOne false p) t (the_bound t) t (Objects b VNil) s r (Objects b' x) k /\ h' = Objects b' x0.
Proof.
  intros N. replace (the_bound t) with (InBound []) by (destruct t; auto; congruence). rewrite i_bind.
  replace (the_bound t) with (InBound []) by (destruct t; auto; congruence). split.
  - intros (y & y' & x & G1 & G2 & G3). inversion G1 as [|? ? ? ? G4|]; subst. inversion G4; subst. inversion G3 as [|? ? ? ? G5|]; subst. inversion G5; subst. eauto.
  - intros (b' & x & G & ->). exists b, b', x. split; [repeat constructor|]. split; auto. repeat constructor.
Qed.
Lemma bs_bind t p : t <> TNil -> bsame false t (BindDst (BindDst p)) (BindDst p).
Proof.
  intros N ws tb L v s r v' k. rewrite !i_bind. split; intros (y & y' & x & G1 & G2 & G3).
  - apply bind_bound in G2; auto. destruct G2 as (b' & x' & G2 & [= -> ->]). eauto 10.
  - exists y, y', VNil. split; auto. split; auto. apply bind_bound; eauto.
Qed.

Theorem vlaw_bsame o t p q : vlaw true env o t p q -> bsame o t p q.
Proof.
  induction 1.
  - both; auto.
  - now apply bsame_sym.
  - intros ws tb L v s r0 v' k. rewrite (IHvlaw1 ws tb L v s r0 v' k). apply IHvlaw2.
  - pose proof (whole_same p H) as Wp. pose proof (whole_same q H0) as Wq. both; intros G.
    + apply (Wq o). apply IHvlaw. now apply (Wp o').
    + apply (Wp o). apply IHvlaw. now apply (Wq o').
  - intros ws tb L v s r v' k. rewrite !i_boxed by auto. split;
      (intros [(s' & b & x & H2 & H3 & ->)|((b & x & H2 & ->) & ->)]; [left; exists s', b, x|right; split; auto; exists b, x]; intuition; now apply IHvlaw).
  - (* seq *) intros ws tb L v s r v' k. rewrite !i_seq. split; apply c_all; auto; intros; apply bsame_sym; auto.
  - intros ws tb L v s r v' k. rewrite !i_seq.
    split; apply c_all; auto; intros i L0 tq Lq P; destruct (ignores p) eqn:E.
    + apply part_quiet in P; auto. now destruct P as (-> & _).
    + apply part_flat in P; auto. now destruct P as (-> & _).
    + apply part_quiet in P; [|congruence]. destruct P as (-> & _). now apply bsame_sym.
    + apply part_flat in P; [|auto|congruence]. destruct P as (-> & _). now apply bsame_sym.
  - (* alt *) intros ws tb L v s r v' k. rewrite !i_alt. split; apply c_any; auto. now apply bsame_sym.
  - intros ws tb L v s r v' k. rewrite !i_repeat. split; apply c_times; auto. now apply bsame_sym.
  - intros ws tb L v s r v' k. rewrite !i_not. rewrite (IHvlaw ws tb L v s None v' k).
    split; (intros [[[s1 H1] ->]|H1]; [left; split; auto; exists s1; now apply IHvlaw|auto]).
  - intros ws tb L v s r v' k. rewrite !i_opt. rewrite (IHvlaw ws tb L v s None v' k).
    split; (intros [(s1 & H1 & ->)|H1]; [left; exists s1; split; auto; now apply IHvlaw|auto]).
  - intros ws tb L v s r v' k. rewrite !i_except.
    split; (intros [([s1 H1] & H2)|(x & k1 & k2 & H1 & H2 & ->)]; [left; split; auto; exists s1; now apply IHvlaw2|right]);
      exists x, k1, k2; (split; [now apply IHvlaw2|split; [now apply IHvlaw1|auto]]).
  - (* list *) both; intros G; inversion G; subst;
      [eapply b_list_none; now apply IHvlaw1|eapply b_list; [apply IHvlaw1; eassumption|eapply c_more; eauto]
      |eapply b_list_none; now apply IHvlaw1|eapply b_list; [apply IHvlaw1; eassumption|eapply c_more; eauto; now apply bsame_sym]].
  - intros ws tb L v s r v' k. rewrite !i_lexeme. apply IHvlaw.
  - both; intros G; inversion G; subst; try discriminate; (constructor; [discriminate|]; now apply IHvlaw).
  - intros ws tb L v s r v' k. rewrite !i_discard. apply IHvlaw.
  - intros ws tb L v s r v' k. rewrite !i_bind. split; intros (y & y' & x & G1 & G2 & G3); exists y, y', x; (split; [auto|split; [now apply IHvlaw|auto]]).
  - both; intros G; inversion G; subst; try discriminate;
      solve [eapply b_construct; [apply IHvlaw; eassumption|eassumption|eassumption]|eapply b_construct_no; apply IHvlaw; eassumption].
  - both; intros G; inversion G; subst; try discriminate;
      solve [eapply b_act; [apply IHvlaw; eassumption|eassumption|eassumption]|eapply b_act_no; apply IHvlaw; eassumption].
  - (* bind_dst *) discriminate.
  - now apply bs_bind.
  - both; intros G; [inversion G; subst; congruence|econstructor; eauto].
  - (* alt *) intros ws tb L v s r v' k. rewrite i_alt, i_or. split.
    + intros [(s1 & G & ->)|(v1 & k1 & k2 & G & G2 & ->)]; auto. apply i_none in G2. destruct G2 as (-> & -> & ->). now rewrite app_nil_r.
    + intros G. destruct r as [s1|]; [left; eauto|right]. exists v', k, []. rewrite app_nil_r. split; auto. split; auto. constructor.
  - intros ws tb L v s r v' k. rewrite !i_alt, !(b_any_app ws o l1). split;
      (intros [G|(v1 & k1 & k2 & G1 & G2 & ->)]; [left; exact G|right; exists v1, k1, k2; split; [exact G1|split; [|reflexivity]]]).
    + apply i_or in G2. apply b_any_app. destruct G2 as [(s1 & G & ->)|(v2 & k3 & k4 & G & G2 & ->)]; rewrite i_alt in G; [left; eauto|right; eauto 8].
    + apply b_any_app in G2. apply i_or. destruct G2 as [(s1 & G & ->)|(v2 & k3 & k4 & G & G2 & ->)]; [left|right];
        [exists s1; split; auto; now apply i_alt|exists v2, k3, k4; split; [now apply i_alt|auto]].
  - intros ws tb L v s r v' k. rewrite !i_alt, !(b_any_app ws o l1). split;
      (intros [G|(v1 & k1 & k2 & G1 & G2 & ->)]; [left; exact G|right; exists v1, k1, k2; split; [exact G1|split; [|reflexivity]]]).
    + apply i_or in G2. destruct G2 as [(s1 & G & ->)|(v2 & k3 & k4 & G & G2 & ->)]; apply i_fail in G; destruct G as (G & E1 & E2); [discriminate|subst; exact G2].
    + apply i_or. right. exists v1, [], k2. split; [apply i_fail; auto|auto].
  - intros ws tb L v s r v' k. rewrite !i_alt, !(b_any_app ws o l1). split;
      (intros [G|(v1 & k1 & k2 & G1 & G2 & ->)]; [left; exact G|right; exists v1, k1, k2; split; [exact G1|split; [|reflexivity]]]);
      apply i_or in G2; apply i_or; (destruct G2 as [G|(v2 & k3 & k4 & G & G2 & ->)]; [left; exact G|apply i_pass in G; destruct G; discriminate]).
  - now apply bs_again.
  - (* seq *) intros ws tb L v s r v' k. rewrite i_seq. now apply f_one.
  - intros ws tb L v s r v' k. rewrite !i_seq, !(b_all_app ws l1). split;
      (intros [G|(s1 & v1 & k1 & k2 & G1 & G2 & ->)]; [left; exact G|right; exists s1, v1, k1, k2; split; [exact G1|split; [|reflexivity]]]).
    + apply f_cons in G2; auto. apply b_all_app. rewrite i_seq in G2. destruct G2 as [[G ->]|(s2 & v2 & k3 & k4 & G & G2 & ->)].
      * left. split; auto. eapply f_index; eauto.
      * right. exists s2, v2, k3, k4. apply i_seq in G. split; [eapply f_index; eauto|]. split; auto. eapply f_index; eauto.
    + apply b_all_app in G2. apply f_cons; auto. destruct G2 as [[G ->]|(s2 & v2 & k3 & k4 & G & G2 & ->)].
      * left. split; auto. apply i_seq. eapply f_index; eauto.
      * right. exists s2, v2, k3, k4. split; [apply i_seq; eapply f_index; eauto|]. split; auto. eapply f_index; eauto.
  - intros ws tb L v s r v' k. rewrite !i_seq, !(b_all_app ws l1). split;
      (intros [G|(s1 & v1 & k1 & k2 & G1 & G2 & ->)]; [left; exact G|right; exists s1, v1, k1, k2; split; [exact G1|split; [|reflexivity]]]).
    + apply q_cons in G2; auto. destruct G2 as [[G _]|(s2 & x & k3 & k4 & G & G2 & ->)]; apply i_pass in G; destruct G as (G & E1 & E2);
        [discriminate|injection G as ->; subst; exact G2].
    + apply q_cons; auto. right. exists s1, v1, [], k2. split; [apply i_pass; auto|auto].
  - now apply bs_factor.
  - (* repetitions *) intros ws tb L v s r v' k. rewrite i_repeat, i_seq. now apply (b_at_least ws p tb L t 1 H H0 H1 1 0 0).
  - intros ws tb L v s r v' k. rewrite i_repeat, i_alt, i_or, i_times. split.
    + intros [[G ->]|[(s1 & _ & E & _)|(s1 & v1 & k1 & k2 & G & _ & G2 & ->)]]; [right|discriminate|left].
      * exists v', k, []. rewrite app_nil_r. split; [apply i_seq, f_cons; auto; left; split; auto; now apply (whole_same p H0 true)|].
        split; auto. apply i_or. left. exists s. split; auto. apply i_pass. auto.
      * destruct r as [s2|]; [exists s2; split; auto|exfalso].
        -- apply i_seq, f_cons; auto. right. exists s1, v1, k1, k2. split; [now apply (whole_same p H0 true)|]. split; auto.
           apply f_one; auto. apply i_repeat. eapply b_floor; [| |exact G2]; lia.
        -- exact (b_star_some _ _ _ _ _ _ _ _ _ _ G2).
    + intros [(s1 & G & ->)|(v1 & k1 & k2 & G & G2 & ->)].
      * apply i_seq, f_cons in G; auto. destruct G as [[_ E]|(s2 & v2 & k1 & k2 & G1 & G2 & ->)]; [discriminate|].
        apply f_one in G2; auto. apply i_repeat in G2. right. right. exists s2, v2, k1, k2. split; [now apply (whole_same p H0 false)|].
        split; [discriminate|]. split; auto. eapply b_floor; [| |exact G2]; lia.
      * apply i_or in G2. destruct G2 as [(s1 & G2 & ->)|(v2 & k3 & k4 & G2 & _)]; apply i_pass in G2; destruct G2 as (E & E1 & E2); [|discriminate].
        injection E as ->. subst. rewrite app_nil_r. apply i_seq, f_cons in G; auto. destruct G as [[G _]|(s2 & v2 & k2 & k3 & G1 & G2 & ->)].
        -- left. split; auto. now apply (whole_same p H0 false).
        -- exfalso. apply f_one in G2; auto. apply i_repeat in G2. exact (b_star_some _ _ _ _ _ _ _ _ _ _ G2).
  - intros ws tb L v s r v' k. rewrite i_repeat, i_seq. now apply (b_at_least ws p tb L t n H H0 H1 n 0 0).
  - intros ws tb L v s r v' k. rewrite i_repeat, i_seq. now apply (b_exact ws p tb L t (S n) H H0 H1 n 0 0).
  - intros ws tb L v s r v' k. rewrite i_repeat, i_opt, i_times. split.
    + intros [[G ->]|[(s1 & G & _ & ->)|(s1 & v1 & k1 & k2 & _ & E & _)]]; [right; auto|left; eauto|lia].
    + intros [(s1 & G & ->)|[G ->]]; [right; left; eauto|left; auto].
  - intros ws tb L v s r v' k. rewrite i_opt, i_alt, i_or. split.
    + intros [G|[G ->]]; [left; exact G|right]. exists v', k, []. rewrite app_nil_r. split; auto. split; auto. apply i_or. left. exists s. split; auto. now apply i_pass.
    + intros [G|(v1 & k1 & k2 & G & G2 & ->)]; [left; exact G|right]. apply i_or in G2.
      destruct G2 as [(s1 & G2 & ->)|(v2 & k3 & k4 & G2 & _)]; apply i_pass in G2; destruct G2 as (E & E1 & E2); [|discriminate].
      injection E as ->. subst. now rewrite app_nil_r.
  - (* not *) intros ws tb L v s r v' k. rewrite (i_not ws o (Not (Not p))), (i_not ws o p). split.
    + intros [[[s1 G] ->]|[G ->]]; apply i_not in G.
      * destruct G as [[_ E]|[G _]]; [discriminate|]. apply i_not in G. destruct G as [[G _]|[_ E]]; [left; auto|discriminate].
      * destruct G as [[[s2 G] _]|[_ E]]; [|discriminate]. apply i_not in G. destruct G as [[_ E]|[G _]]; [discriminate|right; auto].
    + intros [[[s1 G] ->]|[G ->]].
      * left. split; auto. exists s. apply i_not. right. split; auto. apply i_not. left. eauto.
      * right. split; auto. apply i_not. left. split; auto. exists s. apply i_not. auto.
  - intros ws tb L v s r v' k. rewrite i_except, i_seq, q_cons by auto. split.
    + intros [([s1 G] & ->)|(x & k1 & k2 & G1 & G2 & ->)].
      * left. split; auto. apply i_discard, i_not. left. eauto.
      * right. exists s, x, k1, k2. split; [apply i_discard, i_not; auto|]. split; auto. now apply f_one.
    + intros [[G ->]|(s1 & x & k1 & k2 & G & G2 & ->)]; apply i_discard, i_not in G.
      * left. split; auto. destruct G as [[[s1 G] _]|[_ E]]; [exists s1; exact G|discriminate].
      * right. destruct G as [[_ E]|[G E]]; [discriminate|injection E as ->].
        exists x, k1, k2. split; auto. split; auto. now apply f_one in G2.
  - (* lexeme *) intros ws tb L v s r v' k. now rewrite !i_lexeme, trim_nows.
  - both.
    + intros G. apply i_alt, i_or in G. destruct G as [(s1 & G & ->)|(v1 & k1 & k2 & G & G2 & ->)].
      * inversion G; subst; try discriminate. eapply b_char; eauto. cbn. auto.
      * inversion G; subst; try discriminate. apply i_or in G2. destruct G2 as [(s1 & G2 & ->)|(v2 & k3 & k4 & G2 & G3 & ->)].
        -- inversion G2; subst; try discriminate. eapply b_char; eauto. cbn. auto.
        -- apply i_none in G3. destruct G3 as (-> & -> & ->). inversion G2; subst; try discriminate. apply b_char_no.
           intros y s' E [C|C]; [match goal with N : forall _ _, _ -> ~ in_set a _ |- _ => exact (N _ _ E C) end|match goal with N : forall _ _, _ -> ~ in_set b _ |- _ => exact (N _ _ E C) end].
    + intros G. apply i_alt, i_or.
      assert (D : (exists y s', trim ws s = y :: s' /\ in_set a y) \/ forall y s', trim ws s = y :: s' -> ~ in_set a y).
      { destruct (trim ws s) as [|y s'] eqn:Et; [right; discriminate|]. destruct (in_set_dec a y); [left; eauto|right; intros ? ? [= <- <-]; auto]. }
      inversion G; subst; try discriminate; destruct D as [(y1 & s1' & E1 & E2)|N].
      * left. assert (y1 = y /\ s1' = s') as [-> ->] by (split; congruence). exists s'. split; auto. eapply b_char; eauto.
      * right. exists v, [], []. split; [now apply b_char_no|]. split; auto. apply i_or. left. exists s'. split; auto. eapply b_char; eauto.
        match goal with I : in_set (COr a b) y |- _ => destruct I as [I|I]; auto end. exfalso. eapply N; eauto.
      * exfalso. match goal with I : forall _ _, _ -> ~ in_set (COr a b) _ |- _ => apply (I _ _ E1) end. cbn. auto.
      * right. exists v', [], []. split; [now apply b_char_no|]. split; auto. apply i_or. right. exists v', [], []. split; [|split; auto; constructor].
        apply b_char_no. intros y s' E C. match goal with I : forall _ _, _ -> ~ in_set (COr a b) _ |- _ => apply (I _ _ E) end. cbn. auto.
  - (* discard *) intros ws tb L v s r v' k. now rewrite !i_discard.
  - intros ws tb L v s r v' k. now rewrite i_discard, !i_lexeme, i_discard.
  - intros ws tb L v s r v' k. rewrite i_discard. split; intros G; (inversion G; subst; try discriminate; [now constructor|now apply b_lit_no]).
  - intros ws tb L v s r v' k. rewrite i_discard. split; intros G; (inversion G; subst; try discriminate; [now constructor|now apply b_eoi_no]).
  - intros ws tb L v s r v' k. now rewrite i_discard, !i_pass.
  - intros ws tb L v s r v' k. now rewrite i_discard, !i_fail.
Qed.
End Laws.

(** ** Hence of what is stored and who is called *)
Section Run.
Context (T : char_ty) (env : nat -> option pat) (Hk : known T env) (He : all_tidy env).

Lemma vlaw_reads p q t : vlaw true env false t p q -> forall ws v s r v' k, reads env ws p t v s r v' k <-> reads env ws q t v s r v' k.
Proof. intros H ws v s r v' k. split; intros [x G]; exists x; now apply (vlaw_bsame env _ _ _ _ H). Qed.

(** At the top the object is the bound one. *)
Lemma bind_reads p t : t <> TNil -> forall ws v s r v' k, reads env ws (BindDst p) t v s r v' k <-> reads env ws p t v s r v' k.
Proof.
  intros N ws v s r v' k. split.
  - intros [x G]. apply bind_bound in G; auto. destruct G as (b & y & G & [= -> ->]). now exists y.
  - intros [x G]. exists VNil. apply bind_bound; eauto.
Qed.

Theorem same_parse p q t : (forall ws v s r v' k, reads env ws p t v s r v' k <-> reads env ws q t v s r v' k) ->
  inclass T false p = true -> tidy p = true -> inclass T false q = true -> tidy q = true ->
  forall v inp, Forall (tok T) inp -> shaped t v = true ->
  (forall s v' k, does env p t v inp SUCCESS s v' k <-> does env q t v inp SUCCESS s v' k) /\
  (forall v' k, (exists s, does env p t v inp FAILURE s v' k) <-> (exists s, does env q t v inp FAILURE s v' k)).
Proof.
  intros E Cp Sp Cq Sq v inp F Sh.   destruct (does_reads T env Hk He p t v inp Cp Sp F Sh) as [A1 A2]. destruct (does_reads T env Hk He q t v inp Cq Sq F Sh) as [B1 B2]. split; intros.
  - rewrite A1, B1. apply E.
  - rewrite A2, B2. apply E.
Qed.
Theorem same_session p q t : (forall ws v s r v' k, reads env ws p t v s r v' k <-> reads env ws q t v s r v' k) ->
  inclass T false p = true -> tidy p = true -> inclass T false q = true -> tidy q = true ->
  forall v l, complete l -> Forall (tok T) (fed l) -> shaped t v = true ->
  forall r v' k, r <> PARTIAL -> delivers env p t v l r v' k <-> delivers env q t v l r v' k.
Proof.
  intros E Cp Sp Cq Sq v l Hl F Sh.   destruct (delivers_reads T env Hk He p t v l Cp Sp Hl F Sh) as [A1 A2]. destruct (delivers_reads T env Hk He q t v l Cq Sq Hl F Sh) as [B1 B2]. intros [] v' k NP; [| |congruence].
  - rewrite A1, B1. split; intros [s G]; exists s; now apply E.
  - rewrite A2, B2. apply E.
Qed.

Context (skp : pat) (ws : gap) (Hf : skipper T skp = true) (Hw : forall s, Forall (tok T) s -> ws s = passes skp s).
Theorem same_parse_sk p q t : (forall ws v s r v' k, reads env ws p t v s r v' k <-> reads env ws q t v s r v' k) ->
  inclass T true p = true -> tidy p = true -> inclass T true q = true -> tidy q = true ->
  forall v inp, Forall (tok T) inp -> shaped t v = true ->
  (forall s v' k, does env (WithSkipper p skp) t v inp SUCCESS s v' k ->
     exists s', does env (WithSkipper q skp) t v inp SUCCESS s' v' k /\ trim ws s = trim ws s') /\
  (forall v' k, (exists s, does env (WithSkipper p skp) t v inp FAILURE s v' k) <-> (exists s, does env (WithSkipper q skp) t v inp FAILURE s v' k)).
Proof.
  intros E Cp Sp Cq Sq v inp F Sh.   destruct (does_reads_sk T env Hk He skp ws Hf Hw p t v inp Cp Sp F Sh) as (A1 & _ & A3).
  destruct (does_reads_sk T env Hk He skp ws Hf Hw q t v inp Cq Sq F Sh) as (_ & B2 & B3). split.
  - intros s v' k H. destruct (A1 _ _ _ H) as (s1 & H1 & E1). apply E in H1. destruct (B2 _ _ _ H1) as (s2 & H2 & E2).
    exists s2. split; [exact H2|congruence].
  - intros v' k. rewrite A3, B3. apply E.
Qed.
Theorem same_session_sk p q t : (forall ws v s r v' k, reads env ws p t v s r v' k <-> reads env ws q t v s r v' k) ->
  inclass T true p = true -> tidy p = true -> inclass T true q = true -> tidy q = true ->
  forall v l, complete l -> Forall (tok T) (fed l) -> shaped t v = true ->
  forall r v' k, r <> PARTIAL -> delivers env (WithSkipper p skp) t v l r v' k <-> delivers env (WithSkipper q skp) t v l r v' k.
Proof.
  intros E Cp Sp Cq Sq v l Hl F Sh.   destruct (delivers_reads_sk T env Hk He skp ws Hf Hw p t v l Cp Sp Hl F Sh) as [A1 A2].
  destruct (delivers_reads_sk T env Hk He skp ws Hf Hw q t v l Cq Sq Hl F Sh) as [B1 B2]. intros [] v' k NP; [| |congruence].
  - rewrite A1, B1. split; intros [s G]; exists s; now apply E.
  - rewrite A2, B2. apply E.
Qed.
End Run.
