(** The laws of SpecValueLaws hold of the reading with values, hence of what is stored. *)
From Coq Require Import List ZArith Bool Arith Lia.
From Verif Require Import Base CharSet Source Dst Pattern Parser Session SpecSession SpecPeg SpecRun SpecValue SpecLeaf SpecType SpecAttr SpecValueLaws.
From Verif Require Import Rel Leaf PegSound Run Comb LawsThms AttrRun.
Import ListNotations.

Section Laws.
Context (env : nat -> option pat).
Notation V := (mv env).
Definition vsame (o : bool) (t : ty) (p q : pat) : Prop :=
  forall ws v s r v' k, V ws (VOne o p) t v s r v' k <-> V ws (VOne o q) t v s r v' k.

Lemma vsame_sym o t p q : vsame o t p q -> vsame o t q p.
Proof. intros H ws v s r v' k. symmetry. apply H. Qed.

(** ** One step back *)
Lemma i_seq ws l t v s r v' k : V ws (VOne false (Seq l)) t v s r v' k <-> V ws (VAll 0 l) t v s r v' k.
Proof. split; [intros H; now inversion H|now constructor]. Qed.
Lemma i_alt ws o l t v s r v' k : V ws (VOne o (Alt l)) t v s r v' k <-> V ws (VAny o l) t v s r v' k.
Proof. split; [intros H; inversion H; subst; auto; discriminate|now constructor]. Qed.
Lemma i_repeat ws lo hi p t v s r v' k : V ws (VOne false (Repeat lo hi p)) t v s r v' k <-> V ws (VTimes lo hi 0 p) t v s r v' k.
Proof. split; [intros H; now inversion H|now constructor]. Qed.
Lemma i_nil ws i t v s r v' k : V ws (VAll i []) t v s r v' k <-> r = Some s /\ v' = v /\ k = [].
Proof. split; [intros H; now inversion H|intros (-> & -> & ->); constructor]. Qed.
Lemma i_none ws o t v s r v' k : V ws (VAny o []) t v s r v' k <-> r = None /\ v' = v /\ k = [].
Proof. split; [intros H; now inversion H|intros (-> & -> & ->); constructor]. Qed.
Lemma i_pass ws o t v s r v' k : V ws (VOne o Pass) t v s r v' k <-> r = Some s /\ v' = v /\ k = [].
Proof. split; [intros H; inversion H; subst; auto; discriminate|intros (-> & -> & ->); constructor]. Qed.
Lemma i_fail ws o t v s r v' k : V ws (VOne o Fail) t v s r v' k <-> r = None /\ v' = v /\ k = [].
Proof. split; [intros H; inversion H; subst; auto; discriminate|intros (-> & -> & ->); constructor]. Qed.
Lemma i_lexeme ws o p t v s r v' k : V ws (VOne o (Lexeme p)) t v s r v' k <-> V nows (VOne o p) t v (trim ws s) r v' k.
Proof. split; [intros H; inversion H; subst; auto; discriminate|now constructor]. Qed.
Lemma i_discard ws o p t v s r v' k : V ws (VOne o (Discard p)) t v s r v' k <-> v' = v /\ exists x, V ws (VOne o p) TNil VNil s r x k.
Proof. split; [intros H; inversion H; subst; [discriminate|discriminate|eauto]|intros (-> & x & H); econstructor; eauto]. Qed.
Lemma i_bind ws p t v s r v' k : V ws (VOne false (BindDst p)) t v s r v' k <-> V ws (VOne false p) t v s r v' k.
Proof. split; [intros H; now inversion H|now constructor]. Qed.
Lemma i_not ws o p t v s r v' k : V ws (VOne o (Not p)) t v s r v' k <->
  (exists s1, V ws (VOne false p) t v s (Some s1) v' k) /\ r = None \/ V ws (VOne false p) t v s None v' k /\ r = Some s.
Proof.
  split; [intros H; inversion H; subst; try discriminate; eauto|].
  intros [[[s1 H] ->]|[H ->]]; [eapply v_not; eauto|now constructor].
Qed.
Lemma i_opt ws o p t v s r v' k : V ws (VOne o (Opt p)) t v s r v' k <->
  (exists s1, V ws (VOne true p) t v s (Some s1) v' k /\ r = Some s1) \/ V ws (VOne true p) t v s None v' k /\ r = Some s.
Proof.
  split; [intros H; inversion H; subst; try discriminate; eauto|].
  intros [(s1 & H & ->)|[H ->]]; [now constructor|now apply v_opt_no].
Qed.
Lemma i_except ws o p q t v s r v' k : V ws (VOne o (Except p q)) t v s r v' k <->
  (exists s1 x, V ws (VOne false q) TNil VNil s (Some s1) x k) /\ r = None /\ v' = v \/
  exists x k1 k2, V ws (VOne false q) TNil VNil s None x k1 /\ V ws (VOne o p) t v s r v' k2 /\ k = k1 ++ k2.
Proof.
  split; [intros H; inversion H; subst; try discriminate; eauto 10|].
  intros [((s1 & x & H) & -> & ->)|(x & k1 & k2 & H1 & H2 & ->)]; [eapply v_except; eauto|eapply v_except_no; eauto].
Qed.
Lemma i_or ws o p l t v s r v' k : V ws (VAny o (p :: l)) t v s r v' k <->
  (exists s1, V ws (VOne o p) t v s (Some s1) v' k /\ r = Some s1) \/
  exists v1 k1 k2, V ws (VOne o p) t v s None v1 k1 /\ V ws (VAny o l) t v1 s r v' k2 /\ k = k1 ++ k2.
Proof.
  split; [intros H; inversion H; subst; try discriminate; eauto 10|].
  intros [(s1 & H & ->)|(v1 & k1 & k2 & H1 & H2 & ->)]; [now constructor|eapply v_any_next; eauto].
Qed.
Lemma i_cons ws i p l t v s r v' k : V ws (VAll i (p :: l)) t v s r v' k <->
  (exists tq vq x, part_at p i x t v tq vq v' /\ V ws (VOne false p) tq vq s None x k) /\ r = None \/
  exists tq vq x v1 s1 k1 k2, part_at p i x t v tq vq v1 /\ V ws (VOne false p) tq vq s (Some s1) x k1 /\
     V ws (VAll (after p i) l) t v1 s1 r v' k2 /\ k = k1 ++ k2.
Proof.
  split; [intros H; inversion H; subst; try discriminate; eauto 15|].
  intros [[(tq & vq & x & H1 & H2) ->]|(tq & vq & x & v1 & s1 & k1 & k2 & H1 & H2 & H3 & ->)]; [eapply v_all_no; eauto|eapply v_all; eauto].
Qed.
Lemma i_times ws lo hi n p t v s r v' k : V ws (VTimes lo hi n p) t v s r v' k <->
  V ws (VOne true p) t v s None v' k /\ r = (if lo <=? n then Some s else None) \/
  (exists s1, V ws (VOne true p) t v s (Some s1) v' k /\ S n = hi /\ r = Some s1) \/
  exists s1 v1 k1 k2, V ws (VOne true p) t v s (Some s1) v1 k1 /\ S n <> hi /\ V ws (VTimes lo hi (S n) p) t v1 s1 r v' k2 /\ k = k1 ++ k2.
Proof.
  split; [intros H; inversion H; subst; try discriminate; eauto 15|].
  intros [[H ->]|[(s1 & H & E & ->)|(s1 & v1 & k1 & k2 & H1 & E & H2 & ->)]]; [now constructor|now apply v_times_full|eapply v_times; eauto].
Qed.
Lemma i_boxed ws p t v s r v' k : atom p = false -> V ws (VOne true p) t v s r v' k <->
  (exists s' x, V ws (VOne false p) (value_ty t) (default_init (value_ty t)) s (Some s') x k /\ stored t v x v' /\ r = Some s') \/
  (exists x, V ws (VOne false p) (value_ty t) (default_init (value_ty t)) s None x k) /\ v' = v /\ r = None.
Proof.
  intros A. split; [intros H; inversion H; subst; try discriminate; eauto 10; exfalso; cbn in A;
    match goal with E : true = true -> _ |- _ => rewrite E in A by reflexivity end; discriminate|].
  intros [(s' & x & H1 & H2 & ->)|((x & H) & -> & ->)]; [eapply v_one; eauto|eapply v_one_no; eauto].
Qed.

(** ** Lists, cut in two *)
Definition afters (l : list pat) (i : nat) : nat := fold_left (fun i p => after p i) l i.

Lemma v_all_app ws l1 l2 t r v' : forall i v s k, V ws (VAll i (l1 ++ l2)) t v s r v' k <->
  V ws (VAll i l1) t v s None v' k /\ r = None \/
  exists s1 v1 k1 k2, V ws (VAll i l1) t v s (Some s1) v1 k1 /\ V ws (VAll (afters l1 i) l2) t v1 s1 r v' k2 /\ k = k1 ++ k2.
Proof.
  induction l1 as [|p l1 IH]; intros i v s k; cbn [app afters fold_left].
  - split.
    + intros H. right. exists s, v, [], k. split; [constructor|auto].
    + intros [[H _]|(s1 & v1 & k1 & k2 & H1 & H2 & ->)]; [inversion H|]. apply i_nil in H1. destruct H1 as ([= ->] & -> & ->). exact H2.
  - rewrite i_cons. split.
    + intros [[H ->]|(tq & vq & x & v1 & s1 & k1 & k2 & H1 & H2 & H3 & ->)]; [left; split; auto; apply i_cons; auto|].
      apply IH in H3. destruct H3 as [[H3 ->]|(s2 & v2 & k3 & k4 & H3 & H4 & ->)].
      * left. split; auto. apply i_cons. right. do 7 eexists. eauto.
      * right. exists s2, v2, (k1 ++ k3), k4. rewrite <- app_assoc. split; auto. apply i_cons. right. do 7 eexists. eauto.
    + intros [[H ->]|(s1 & v1 & k1 & k2 & H1 & H2 & ->)].
      * apply i_cons in H. destruct H as [[H _]|(tq & vq & x & v1 & s1 & k1 & k2 & H1 & H2 & H3 & ->)]; [left; auto|].
        right. do 7 eexists. split; [exact H1|]. split; [exact H2|]. split; [apply IH; left; eauto|reflexivity].
      * apply i_cons in H1. destruct H1 as [[_ E]|(tq & vq & x & v2 & s2 & k3 & k4 & H3 & H4 & H5 & ->)]; [discriminate|].
        right. do 7 eexists. split; [exact H3|]. split; [exact H4|]. split; [apply IH; right; do 4 eexists; eauto|]. now rewrite app_assoc.
Qed.

Lemma v_any_app ws o l1 l2 t s r v' : forall v k, V ws (VAny o (l1 ++ l2)) t v s r v' k <->
  (exists s1, V ws (VAny o l1) t v s (Some s1) v' k /\ r = Some s1) \/
  exists v1 k1 k2, V ws (VAny o l1) t v s None v1 k1 /\ V ws (VAny o l2) t v1 s r v' k2 /\ k = k1 ++ k2.
Proof.
  induction l1 as [|p l1 IH]; intros v k; cbn [app].
  - split.
    + intros H. right. exists v, [], k. split; [constructor|auto].
    + intros [(s1 & H & _)|(v1 & k1 & k2 & H1 & H2 & ->)]; [inversion H|]. apply i_none in H1. destruct H1 as (_ & -> & ->). exact H2.
  - rewrite i_or. split.
    + intros [(s1 & H & ->)|(v1 & k1 & k2 & H1 & H2 & ->)]; [left; exists s1; split; auto; apply i_or; eauto|].
      apply IH in H2. destruct H2 as [(s1 & H2 & ->)|(v2 & k3 & k4 & H2 & H3 & ->)].
      * left. exists s1. split; auto. apply i_or. right. do 3 eexists. eauto.
      * right. exists v2, (k1 ++ k3), k4. rewrite <- app_assoc. split; auto. apply i_or. right. do 3 eexists. eauto.
    + intros [(s1 & H & ->)|(v1 & k1 & k2 & H1 & H2 & ->)].
      * apply i_or in H. destruct H as [(s2 & H & E)|(v1 & k1 & k2 & H1 & H2 & ->)]; [left; eauto|].
        right. do 3 eexists. split; [exact H1|]. split; [apply IH; left; eauto|reflexivity].
      * apply i_or in H1. destruct H1 as [(s2 & _ & E)|(v2 & k3 & k4 & H3 & H4 & ->)]; [discriminate|].
        right. do 3 eexists. split; [exact H3|]. split; [apply IH; right; do 3 eexists; eauto|]. now rewrite app_assoc.
Qed.

(** ** Contexts *)
Lemma c_any o t l1 l2 p q ws v s r v' k : vsame o t p q -> V ws (VAny o (l1 ++ p :: l2)) t v s r v' k -> V ws (VAny o (l1 ++ q :: l2)) t v s r v' k.
Proof.
  intros Hs H. apply v_any_app in H. apply v_any_app. destruct H as [H|(v1 & k1 & k2 & H1 & H2 & ->)]; [auto|right].
  exists v1, k1, k2. split; auto. split; auto. apply i_or in H2. apply i_or.
  destruct H2 as [(s1 & H & ->)|(v2 & k3 & k4 & H3 & H4 & ->)]; [left; exists s1|right; exists v2, k3, k4]; intuition; now apply Hs.
Qed.
Lemma part_swap p q i x t v tq vq v' : ignores p = ignores q -> part_at p i x t v tq vq v' -> part_at q i x t v tq vq v'.
Proof. intros E H. destruct H; [apply pat_quiet|apply pat_whole|apply pat_none|eapply pat_slot]; eauto; congruence. Qed.
Lemma after_swap p q i : ignores p = ignores q -> after p i = after q i.
Proof. unfold after. now intros ->. Qed.
Lemma c_all t l1 l2 p q ws i v s r v' k : ignores p = ignores q ->
  (forall i x v tq vq v', part_at p i x t v tq vq v' -> vsame false tq p q) ->
  V ws (VAll i (l1 ++ p :: l2)) t v s r v' k -> V ws (VAll i (l1 ++ q :: l2)) t v s r v' k.
Proof.
  intros E Hs H. apply v_all_app in H. apply v_all_app. destruct H as [H|(s1 & v1 & k1 & k2 & H1 & H2 & ->)]; [auto|right].
  exists s1, v1, k1, k2. split; auto. split; auto. apply i_cons in H2. apply i_cons.
  destruct H2 as [[(tq & vq & x & H2 & H3) ->]|(tq & vq & x & v2 & s2 & k3 & k4 & H2 & H3 & H4 & ->)].
  - left. split; auto. exists tq, vq, x. split; [now apply (part_swap p)|]. now apply (Hs _ _ _ _ _ _ H2).
  - right. exists tq, vq, x, v2, s2, k3, k4. rewrite <- (after_swap p q) by exact E.
    split; [now apply (part_swap p)|]. split; [now apply (Hs _ _ _ _ _ _ H2)|auto].
Qed.
Lemma c_times t p q lo hi ws n v s r v' k : vsame true t p q -> V ws (VTimes lo hi n p) t v s r v' k -> V ws (VTimes lo hi n q) t v s r v' k.
Proof.
  intros Hs H. remember (VTimes lo hi n p) as g eqn:E. revert n E. induction H; intros n0 E; try discriminate; injection E as -> -> <- ->.
  - constructor. now apply Hs.
  - apply v_times_full; auto. now apply Hs.
  - eapply v_times; eauto. now apply Hs.
Qed.
Lemma c_more t p q sp sq ws v s r v' k : vsame true t p q -> vsame false TNil sp sq -> V ws (VMore p sp) t v s r v' k -> V ws (VMore q sq) t v s r v' k.
Proof.
  intros Hs Hq H. remember (VMore p sp) as g eqn:E. revert E. induction H; intros E; try discriminate; injection E as -> ->.
  - eapply v_more_end. apply Hq. eassumption.
  - eapply v_more_trailing; [apply Hq|apply Hs]; eassumption.
  - eapply v_more; [apply Hq|apply Hs|]; eauto.
Qed.

(** ** The ways of storing *)
Lemma whole_same p : whole p = true -> forall o o' ws t v s r v' k, V ws (VOne o p) t v s r v' k -> V ws (VOne o' p) t v s r v' k.
Proof.
  induction p using pat_ind'; intros W o o' ws t0 v0 s0 r0 v0' k0 HV; cbn [whole] in W; try discriminate;
    try (inversion HV; subst; try discriminate; econstructor; now eauto).
  apply i_alt in HV. apply i_alt. revert v0 k0 HV. induction H as [|p l Hp Hl IH]; intros v0 k0 HV.
  - apply i_none in HV. now apply i_none.
  - cbn in W. apply andb_prop in W. destruct W as [W1 W2]. apply i_or in HV. apply i_or.
    destruct HV as [(s1 & H1 & ->)|(v1 & k1 & k2 & H1 & H2 & ->)].
    + left. exists s1. split; auto. now apply (Hp W1 o).
    + right. exists v1, k1, k2. split; [now apply (Hp W1 o)|]. split; auto.
Qed.

(** ** Patterns that look once *)
Lemma look_none p : one_look p = true -> forall o ws t v s v' k, V ws (VOne o p) t v s None v' k ->
  v' = v /\ k = [] /\ forall o2 t2 v2, V ws (VOne o2 p) t2 v2 s None v2 [].
Proof.
  induction p; intros P o ws t0 v0 s0 v0' k0 HV; cbn [one_look] in P; try discriminate;
    try (inversion HV; subst; try discriminate; split; [reflexivity|split; [reflexivity|]]; intros; econstructor; now eauto).
  - apply i_pass in HV. destruct HV; discriminate.
  - apply i_discard in HV. destruct HV as (-> & x & HV). destruct (IHp P _ _ _ _ _ _ _ HV) as (_ & -> & H).
    split; [reflexivity|split; [reflexivity|]]. intros. apply i_discard. split; eauto.
  - apply i_lexeme in HV. destruct (IHp P _ _ _ _ _ _ _ HV) as (-> & -> & H).
    split; [reflexivity|split; [reflexivity|]]. intros. now apply i_lexeme.
Qed.
Lemma look_some p : one_look p = true -> forall o ws t v s s' v' k, V ws (VOne o p) t v s (Some s') v' k ->
  k = [] /\ forall o2 t2 v2 r2 v2' k2, V ws (VOne o2 p) t2 v2 s r2 v2' k2 -> r2 = Some s'.
Proof.
  induction p; intros P o ws t0 v0 s0 s0' v0' k0 HV; cbn [one_look] in P; try discriminate;
    try (inversion HV; subst; try discriminate; split; [reflexivity|]; intros o2 t2 v2 r2 v2' k2 H2; inversion H2; subst; try discriminate; try congruence).
  - exfalso. match goal with H : forall _ _, trim _ _ = _ -> ~ _ |- _ => eapply H; eauto end.
  - apply i_fail in HV. destruct HV; discriminate.
  - f_equal. eapply app_inv_head. etransitivity; [symmetry|]; eassumption.
  - inversion HV as [| | | | | | | | | |ws1 o1 e1 k1 x1 t1 v1 s1 s1' v1' A C E S1| | | | | | | | | | | | | | | | | | | | | | | | | | | | | | | | | | |]; subst; try discriminate.
    split; [reflexivity|]. intros o2 t2 v2 r2 v2' k2 H2.
    inversion H2 as [| | | | | | | | | |ws1 o1 e1 k3 x3 t1 v1 s1 s3 v3 B D F S3| ws1 o1 e1 t1 v1 s1 N| | | | | | | | | | | | | | | | | | | | | | | | | | | | | | | | | |]; subst; try discriminate.
    + pose proof (E _ _ _ B D); pose proof (F _ _ _ A C). rewrite A in B. f_equal. symmetry.
      assert (length k1 = length k3) as L by lia. clear - B L.
      revert k3 B L; induction k1 as [|a k1 IH]; intros [|b k3] B L; cbn in *; try discriminate; [exact B|].
      injection B as -> B. injection L as L. eauto.
    + exfalso. eapply N; eauto.
  - apply i_discard in HV. destruct HV as (-> & x & HV). destruct (IHp P _ _ _ _ _ _ _ _ HV) as (-> & H).
    split; [reflexivity|]. intros o2 t2 v2 r2 v2' k2 H2. apply i_discard in H2. destruct H2 as (_ & y & H2). eauto.
  - apply i_lexeme in HV. destruct (IHp P _ _ _ _ _ _ _ _ HV) as (-> & H).
    split; [reflexivity|]. intros o2 t2 v2 r2 v2' k2 H2. apply i_lexeme in H2. eauto.
Qed.

(** ** Objects that are shared *)
Lemma flat_no t : flat t = true -> forall ts, t <> TTuple ts.
Proof. now intros H ts ->. Qed.
Lemma part_flat t p i x v tq vq v' : flat t = true -> ignores p = false -> part_at p i x t v tq vq v' <-> tq = t /\ vq = v /\ v' = x.
Proof.
  intros F E. split; [intros H; destruct H; auto; try congruence; discriminate|].
  intros (-> & -> & ->). apply pat_whole; auto. now apply flat_no.
Qed.
Lemma part_quiet t p i x v tq vq v' : ignores p = true -> part_at p i x t v tq vq v' <-> tq = TNil /\ vq = VNil /\ v' = v.
Proof.
  intros E. split; [intros H; destruct H; auto; congruence|]. intros (-> & -> & ->). now apply pat_quiet.
Qed.
Lemma f_cons ws i p l t v s r v' k : flat t = true -> ignores p = false -> V ws (VAll i (p :: l)) t v s r v' k <->
  V ws (VOne false p) t v s None v' k /\ r = None \/
  exists s1 v1 k1 k2, V ws (VOne false p) t v s (Some s1) v1 k1 /\ V ws (VAll (S i) l) t v1 s1 r v' k2 /\ k = k1 ++ k2.
Proof.
  intros F E. rewrite i_cons. replace (after p i) with (S i) by (unfold after; now rewrite E). split.
  - intros [[(tq & vq & x & H1 & H2) ->]|(tq & vq & x & v1 & s1 & k1 & k2 & H1 & H2 & H3 & ->)];
      apply part_flat in H1; auto; destruct H1 as (-> & -> & ->); [left; auto|right]. exists s1, x, k1, k2. auto.
  - intros [[H ->]|(s1 & v1 & k1 & k2 & H1 & H2 & ->)].
    + left. split; auto. exists t, v, v'. split; auto. now apply part_flat.
    + right. exists t, v, v1, v1, s1, k1, k2. split; auto. now apply part_flat.
Qed.
Lemma q_cons ws i p l t v s r v' k : ignores p = true -> V ws (VAll i (p :: l)) t v s r v' k <->
  (exists x, V ws (VOne false p) TNil VNil s None x k) /\ r = None /\ v' = v \/
  exists s1 x k1 k2, V ws (VOne false p) TNil VNil s (Some s1) x k1 /\ V ws (VAll i l) t v s1 r v' k2 /\ k = k1 ++ k2.
Proof.
  intros E. rewrite i_cons. replace (after p i) with i by (unfold after; now rewrite E). split.
  - intros [[(tq & vq & x & H1 & H2) ->]|(tq & vq & x & v1 & s1 & k1 & k2 & H1 & H2 & H3 & ->)];
      apply part_quiet in H1; auto; destruct H1 as (-> & -> & ->); [left; eauto|right]. exists s1, x, k1, k2. auto.
  - intros [[[x H] [-> ->]]|(s1 & x & k1 & k2 & H1 & H2 & ->)].
    + left. split; auto. exists TNil, VNil, x. split; auto. now apply part_quiet.
    + right. exists TNil, VNil, x, v, s1, k1, k2. split; auto. now apply part_quiet.
Qed.
Lemma f_index ws l t r v' : flat t = true -> forall i j v s k, V ws (VAll i l) t v s r v' k -> V ws (VAll j l) t v s r v' k.
Proof.
  intros F. induction l as [|p l IH]; intros i j v s k H; [apply i_nil in H; now apply i_nil|].
  destruct (ignores p) eqn:E.
  - apply q_cons in H; auto. apply q_cons; auto. destruct H as [H|(s1 & x & k1 & k2 & H1 & H2 & ->)]; [now left|right].
    exists s1, x, k1, k2. eauto.
  - apply f_cons in H; auto. apply f_cons; auto. destruct H as [H|(s1 & x & k1 & k2 & H1 & H2 & ->)]; [now left|right].
    exists s1, x, k1, k2. eauto.
Qed.
Lemma f_one ws i p t v s r v' k : flat t = true -> ignores p = false -> V ws (VAll i [p]) t v s r v' k <-> V ws (VOne false p) t v s r v' k.
Proof.
  intros F E. rewrite f_cons by auto. split.
  - intros [[H ->]|(s1 & v1 & k1 & k2 & H1 & H2 & ->)]; auto. apply i_nil in H2. destruct H2 as (-> & -> & ->). now rewrite app_nil_r.
  - intros H. destruct r as [s1|]; [right|now left]. exists s1, v', k, []. rewrite app_nil_r. split; auto. split; auto. constructor.
Qed.

(** ** Repetitions *)
Lemma v_floor ws p t lo n lo' n' v s r v' k : lo <= n -> lo' <= n' -> V ws (VTimes lo 0 n p) t v s r v' k -> V ws (VTimes lo' 0 n' p) t v s r v' k.
Proof.
  intros Hn Hn' H. remember (VTimes lo 0 n p) as g eqn:E. revert n n' Hn Hn' E. induction H; intros n0 n0' Hn Hn' E; try discriminate; injection E as -> -> <- ->.
  - rewrite (proj2 (Nat.leb_le lo n)) by lia. replace (Some s) with (if lo' <=? n0' then Some s else None) by (rewrite (proj2 (Nat.leb_le lo' n0')) by lia; reflexivity).
    now constructor.
  - discriminate.
  - eapply (v_times env ws lo' 0 n0' p); [eassumption|discriminate|]. apply (IHmv2 (S n)); auto; lia.
Qed.
Lemma v_star_some ws p t n v s v' k : ~ V ws (VTimes 0 0 n p) t v s None v' k.
Proof.
  intros H. remember (VTimes 0 0 n p) as g eqn:E. remember None as r eqn:R. revert n E R.
  induction H; intros n0 E R; try discriminate; injection E as -> -> <- ->; try discriminate; eauto.
Qed.
Lemma v_at_least ws p t lo : flat t = true -> whole p = true -> ignores p = false -> forall j n i v s r v' k, lo = n + j ->
  (V ws (VTimes lo 0 n p) t v s r v' k <-> V ws (VAll i (List.repeat p j ++ [Repeat 0 0 p])) t v s r v' k).
Proof.
  intros F W E. pose proof (whole_same p W) as WS. induction j as [|j IH]; intros n i v s r v' k L; cbn [List.repeat app].
  - rewrite f_one by auto. rewrite i_repeat. split; apply v_floor; lia.
  - rewrite f_cons by auto. rewrite i_times. split.
    + intros [[H ->]|[(s1 & _ & H & _)|(s1 & v1 & k1 & k2 & H1 & _ & H2 & ->)]]; [left|discriminate|right].
      * split; [now apply (WS true)|]. now rewrite (proj2 (Nat.leb_gt lo n)) by lia.
      * exists s1, v1, k1, k2. split; [now apply (WS true)|]. split; auto. apply (IH (S n)); auto. lia.
    + intros [[H ->]|(s1 & v1 & k1 & k2 & H1 & H2 & ->)]; [left|right; right].
      * split; [now apply (WS false)|]. now rewrite (proj2 (Nat.leb_gt lo n)) by lia.
      * exists s1, v1, k1, k2. split; [now apply (WS false)|]. split; [discriminate|]. split; auto. apply (IH (S n) (S i)); auto. lia.
Qed.
Lemma v_exact ws p t hi : flat t = true -> whole p = true -> ignores p = false -> forall j n i v s r v' k, hi = n + S j ->
  (V ws (VTimes hi hi n p) t v s r v' k <-> V ws (VAll i (List.repeat p (S j))) t v s r v' k).
Proof.
  intros F W E. pose proof (whole_same p W) as WS. induction j as [|j IH]; intros n i v s r v' k L.
  - cbn [List.repeat]. rewrite f_one by auto. rewrite i_times. split.
    + intros [[H ->]|[(s1 & H & _ & ->)|(s1 & v1 & k1 & k2 & _ & H & _)]]; [|now apply (WS true)|lia].
      rewrite (proj2 (Nat.leb_gt hi n)) by lia. now apply (WS true).
    + intros H. apply (WS false true) in H. destruct r as [s1|]; [right; left; exists s1; intuition lia|left; split; auto].
      now rewrite (proj2 (Nat.leb_gt hi n)) by lia.
  - change (List.repeat p (S (S j))) with (p :: List.repeat p (S j)). rewrite f_cons by auto. rewrite i_times. split.
    + intros [[H ->]|[(s1 & _ & H & _)|(s1 & v1 & k1 & k2 & H1 & _ & H2 & ->)]]; [left|lia|right].
      * split; [now apply (WS true)|]. now rewrite (proj2 (Nat.leb_gt hi n)) by lia.
      * exists s1, v1, k1, k2. split; [now apply (WS true)|]. split; auto. apply (IH (S n)); auto. lia.
    + intros [[H ->]|(s1 & v1 & k1 & k2 & H1 & H2 & ->)]; [left|right; right].
      * split; [now apply (WS false)|]. now rewrite (proj2 (Nat.leb_gt hi n)) by lia.
      * exists s1, v1, k1, k2. split; [now apply (WS false)|]. split; [lia|]. split; auto. apply (IH (S n) (S i)); auto. lia.
Qed.

Ltac both := intros ws v s r v' k; split.

(** ** The laws *)
Lemma vs_factor t p a b : flat t = true -> one_look p = true -> ignores p = true ->
  vsame false t (Alt [Seq (p :: a); Seq (p :: b)]) (Seq [p; Alt [Seq a; Seq b]]).
Proof.
  intros F P E ws v s r v' k. rewrite i_alt, i_seq, q_cons by auto. split.
  - intros H. apply i_or in H. destruct H as [(s1 & H & ->)|(v1 & k1 & k2 & H1 & H2 & ->)].
    + rewrite i_seq, q_cons in H by auto. destruct H as [(_ & H & _)|(s2 & x & k1 & k2 & H1 & H2 & ->)]; [discriminate|].
      right. exists s2, x, k1, k2. split; auto. split; auto. apply f_one; auto. apply i_alt, i_or. left. exists s1. split; auto. now apply i_seq.
    + rewrite i_seq, q_cons in H1 by auto. apply i_or in H2.
      assert (H3 : V ws (VAll 0 (p :: b)) t v1 s r v' k2).
      { destruct H2 as [(s1 & H2 & ->)|(v2 & k3 & k4 & H2 & H3 & ->)]; [now apply i_seq in H2|].
        apply i_none in H3. destruct H3 as (-> & -> & ->). rewrite app_nil_r. now apply i_seq in H2. }
      apply q_cons in H3; auto. destruct H1 as [[[x H1] [_ ->]]|(s2 & x & k3 & k4 & H1 & H4 & ->)].
      * destruct (look_none p P _ _ _ _ _ _ _ H1) as (_ & -> & _). destruct H3 as [H3|(s2 & y & k3 & k4 & H3 & _)]; [auto|].
        destruct (look_some p P _ _ _ _ _ _ _ _ H3) as [_ D]. specialize (D _ _ _ _ _ _ H1). discriminate.
      * destruct (look_some p P _ _ _ _ _ _ _ _ H1) as [-> D]. destruct H3 as [[[y H3] _]|(s3 & y & k5 & k6 & H3 & H5 & ->)];
          pose proof (D _ _ _ _ _ _ H3) as D2; [discriminate|injection D2 as ->].
        destruct (look_some p P _ _ _ _ _ _ _ _ H3) as [-> _].
        right. exists s2, x, [], (k4 ++ k6). split; auto. split; auto. apply f_one; auto. apply i_alt, i_or.
        right. exists v1, k4, k6. split; [now apply i_seq|]. split; auto. apply i_or.
        destruct r as [s4|]; [left; exists s4; split; auto; now apply i_seq|right]. exists v', k6, []. rewrite app_nil_r.
        split; [now apply i_seq|]. split; auto. constructor.
  - intros [[[x H] [-> ->]]|(s1 & x & k1 & k2 & H1 & H2 & ->)].
    + destruct (look_none p P _ _ _ _ _ _ _ H) as (_ & -> & _). apply i_or. right. exists v, [], [].
      assert (N : forall l, V ws (VOne false (Seq (p :: l))) t v s None v []) by (intros l; apply i_seq, q_cons; auto; left; eauto).
      split; auto. split; auto. apply i_or. right. exists v, [], []. split; auto. split; auto. constructor.
    + destruct (look_some p P _ _ _ _ _ _ _ _ H1) as [-> _]. apply f_one in H2; auto. apply i_alt, i_or in H2. cbn [app].
      assert (G : forall l v0 r0 v0' k0, V ws (VOne false (Seq l)) t v0 s1 r0 v0' k0 -> V ws (VOne false (Seq (p :: l))) t v0 s r0 v0' k0).
      { intros l v0 r0 v0' k0 H. apply i_seq, q_cons; auto. right. exists s1, x, [], k0. split; auto. split; auto. now apply i_seq. }
      apply i_or. destruct H2 as [(s2 & H2 & ->)|(v1 & k3 & k4 & H2 & H3 & ->)]; [left; eauto|right].
      exists v1, k3, k4. split; auto. split; auto. apply i_or in H3. apply i_or.
      destruct H3 as [(s2 & H3 & ->)|(v2 & k5 & k6 & H3 & H4 & ->)]; [left; eauto|right].
      apply i_none in H4. destruct H4 as (-> & -> & ->). exists v2, k5, []. split; auto. split; auto. constructor.
Qed.

Lemma vs_again o t l1 l2 l3 p : one_look p = true -> vsame o t (Alt (l1 ++ p :: l2 ++ p :: l3)) (Alt (l1 ++ p :: l2 ++ l3)).
Proof.
  intros P ws v s r v' k. rewrite !i_alt.
  assert (G : forall v r v' k, V ws (VOne o p) t v s None v [] ->
    (V ws (VAny o (l2 ++ p :: l3)) t v s r v' k <-> V ws (VAny o (l2 ++ l3)) t v s r v' k)).
  { intros v0 r0 v0' k0 N. rewrite !v_any_app.
    assert (N2 : forall v1, V ws (VOne o p) t v1 s None v1 []) by (intros v1; now apply (look_none p P _ _ _ _ _ _ _ N)).
    assert (Q : forall v1 k2, V ws (VAny o (p :: l3)) t v1 s r0 v0' k2 <-> V ws (VAny o l3) t v1 s r0 v0' k2).
    { intros v1 k2. rewrite i_or. split.
      - intros [(s1 & H & _)|(v2 & k3 & k4 & H1 & H2 & ->)].
        + destruct (look_some p P _ _ _ _ _ _ _ _ H) as [_ D]. specialize (D _ _ _ _ _ _ N). discriminate.
        + destruct (look_none p P _ _ _ _ _ _ _ H1) as (-> & -> & _). exact H2.
      - intros H. right. exists v1, [], k2. auto. }
    split; (intros [H|(v1 & k1 & k2 & H1 & H2 & ->)]; [left; exact H|right; exists v1, k1, k2; split; [exact H1|split; [now apply Q|reflexivity]]]). }
  rewrite !(v_any_app ws o l1). split;
    (intros [H|(v1 & k1 & k2 & H1 & H2 & ->)]; [left; exact H|right; exists v1, k1, k2; split; [exact H1|split; [|reflexivity]]];
     apply i_or in H2; apply i_or; destruct H2 as [H2|(v2 & k3 & k4 & H2 & H3 & ->)]; [left; exact H2|right];
     exists v2, k3, k4; destruct (look_none p P _ _ _ _ _ _ _ H2) as (-> & -> & N); split; [exact H2|split; [now apply G|reflexivity]]).
Qed.

Theorem vlaw_same o t p q : vlaw false env o t p q -> vsame o t p q.
Proof.
  induction 1.
  - both; auto.
  - now apply vsame_sym.
  - intros ws v s r0 v' k. rewrite (IHvlaw1 ws v s r0 v' k). apply IHvlaw2.
  - pose proof (whole_same p H) as Wp. pose proof (whole_same q H0) as Wq. both; intros G.
    + apply (Wq o). apply IHvlaw. now apply (Wp o').
    + apply (Wp o). apply IHvlaw. now apply (Wq o').
  - intros ws v s r v' k. rewrite !i_boxed by auto. split;
      (intros [(s' & x & H2 & H3 & ->)|([x H2] & -> & ->)]; [left; exists s', x|right; split; [exists x|]]; intuition; now apply IHvlaw).
  - (* seq *) intros ws v s r v' k. rewrite !i_seq. split; apply c_all; auto; intros; apply vsame_sym; auto.
  - intros ws v s r v' k. rewrite !i_seq.
    split; apply c_all; auto; intros i x v0 tq vq v0' P; destruct (ignores p) eqn:E.
    + apply part_quiet in P; auto. now destruct P as (-> & _ & _).
    + apply part_flat in P; auto. now destruct P as (-> & _ & _).
    + apply part_quiet in P; [|congruence]. destruct P as (-> & _ & _). now apply vsame_sym.
    + apply part_flat in P; [|auto|congruence]. destruct P as (-> & _ & _). now apply vsame_sym.
  - (* alt *) intros ws v s r v' k. rewrite !i_alt. split; apply c_any; auto. now apply vsame_sym.
  - intros ws v s r v' k. rewrite !i_repeat. split; apply c_times; auto. now apply vsame_sym.
  - intros ws v s r v' k. rewrite !i_not. rewrite (IHvlaw ws v s None v' k).
    split; (intros [[[s1 H1] ->]|H1]; [left; split; auto; exists s1; now apply IHvlaw|auto]).
  - intros ws v s r v' k. rewrite !i_opt. rewrite (IHvlaw ws v s None v' k).
    split; (intros [(s1 & H1 & ->)|H1]; [left; exists s1; split; auto; now apply IHvlaw|auto]).
  - intros ws v s r v' k. rewrite !i_except.
    split; (intros [((s1 & x & H1) & H2)|(x & k1 & k2 & H1 & H2 & ->)]; [left; split; auto; exists s1, x; now apply IHvlaw2|right]);
      exists x, k1, k2; (split; [now apply IHvlaw2|split; [now apply IHvlaw1|auto]]).
  - (* list *) both; intros G; inversion G; subst;
      [eapply v_list_none; now apply IHvlaw1|eapply v_list; [apply IHvlaw1; eassumption|eapply c_more; eauto]
      |eapply v_list_none; now apply IHvlaw1|eapply v_list; [apply IHvlaw1; eassumption|eapply c_more; eauto; now apply vsame_sym]].
  - intros ws v s r v' k. rewrite !i_lexeme. apply IHvlaw.
  - both; intros G; inversion G; subst; try discriminate; (constructor; [discriminate|]; now apply IHvlaw).
  - intros ws v s r v' k. rewrite !i_discard. split; intros (-> & x & G); (split; [auto|exists x; now apply IHvlaw]).
  - intros ws v s r v' k. rewrite !i_bind. apply IHvlaw.
  - both; intros G; inversion G; subst; try discriminate;
      solve [eapply v_construct; [apply IHvlaw; eassumption|eassumption|eassumption]|eapply v_construct_no; apply IHvlaw; eassumption].
  - both; intros G; inversion G; subst; try discriminate;
      solve [eapply v_act; [apply IHvlaw; eassumption|eassumption|eassumption|eassumption]|eapply v_act_no; apply IHvlaw; eassumption].
  - (* bind_dst *) intros ws v s r v' k. apply i_bind.
  - intros ws v s r v' k. rewrite (i_bind ws (BindDst p)). reflexivity.
  - both; intros G; [inversion G; subst; congruence|econstructor; eauto].
  - (* alt *) intros ws v s r v' k. rewrite i_alt, i_or. split.
    + intros [(s1 & G & ->)|(v1 & k1 & k2 & G & G2 & ->)]; auto. apply i_none in G2. destruct G2 as (-> & -> & ->). now rewrite app_nil_r.
    + intros G. destruct r as [s1|]; [left; eauto|right]. exists v', k, []. rewrite app_nil_r. split; auto. split; auto. constructor.
  - intros ws v s r v' k. rewrite !i_alt, !(v_any_app ws o l1). split;
      (intros [G|(v1 & k1 & k2 & G1 & G2 & ->)]; [left; exact G|right; exists v1, k1, k2; split; [exact G1|split; [|reflexivity]]]).
    + apply i_or in G2. apply v_any_app. destruct G2 as [(s1 & G & ->)|(v2 & k3 & k4 & G & G2 & ->)]; rewrite i_alt in G; [left; eauto|right; eauto 8].
    + apply v_any_app in G2. apply i_or. destruct G2 as [(s1 & G & ->)|(v2 & k3 & k4 & G & G2 & ->)]; [left|right];
        [exists s1; split; auto; now apply i_alt|exists v2, k3, k4; split; [now apply i_alt|auto]].
  - intros ws v s r v' k. rewrite !i_alt, !(v_any_app ws o l1). split;
      (intros [G|(v1 & k1 & k2 & G1 & G2 & ->)]; [left; exact G|right; exists v1, k1, k2; split; [exact G1|split; [|reflexivity]]]).
    + apply i_or in G2. destruct G2 as [(s1 & G & ->)|(v2 & k3 & k4 & G & G2 & ->)]; apply i_fail in G; destruct G as (G & E1 & E2); [discriminate|subst; exact G2].
    + apply i_or. right. exists v1, [], k2. split; [apply i_fail; auto|auto].
  - intros ws v s r v' k. rewrite !i_alt, !(v_any_app ws o l1). split;
      (intros [G|(v1 & k1 & k2 & G1 & G2 & ->)]; [left; exact G|right; exists v1, k1, k2; split; [exact G1|split; [|reflexivity]]]);
      apply i_or in G2; apply i_or; (destruct G2 as [G|(v2 & k3 & k4 & G & G2 & ->)]; [left; exact G|apply i_pass in G; destruct G; discriminate]).
  - now apply vs_again.
  - (* seq *) intros ws v s r v' k. rewrite i_seq. now apply f_one.
  - intros ws v s r v' k. rewrite !i_seq, !(v_all_app ws l1). split;
      (intros [G|(s1 & v1 & k1 & k2 & G1 & G2 & ->)]; [left; exact G|right; exists s1, v1, k1, k2; split; [exact G1|split; [|reflexivity]]]).
    + apply f_cons in G2; auto. apply v_all_app. rewrite i_seq in G2. destruct G2 as [[G ->]|(s2 & v2 & k3 & k4 & G & G2 & ->)].
      * left. split; auto. eapply f_index; eauto.
      * right. exists s2, v2, k3, k4. apply i_seq in G. split; [eapply f_index; eauto|]. split; auto. eapply f_index; eauto.
    + apply v_all_app in G2. apply f_cons; auto. destruct G2 as [[G ->]|(s2 & v2 & k3 & k4 & G & G2 & ->)].
      * left. split; auto. apply i_seq. eapply f_index; eauto.
      * right. exists s2, v2, k3, k4. split; [apply i_seq; eapply f_index; eauto|]. split; auto. eapply f_index; eauto.
  - intros ws v s r v' k. rewrite !i_seq, !(v_all_app ws l1). split;
      (intros [G|(s1 & v1 & k1 & k2 & G1 & G2 & ->)]; [left; exact G|right; exists s1, v1, k1, k2; split; [exact G1|split; [|reflexivity]]]).
    + apply q_cons in G2; auto. destruct G2 as [[[x G] _]|(s2 & x & k3 & k4 & G & G2 & ->)]; apply i_pass in G; destruct G as (G & E1 & E2);
        [discriminate|injection G as ->; subst; exact G2].
    + apply q_cons; auto. right. exists s1, VNil, [], k2. split; [apply i_pass; auto|auto].
  - now apply vs_factor.
  - (* repetitions *) intros ws v s r v' k. rewrite i_repeat, i_seq. now apply (v_at_least ws p t 1 H H0 H1 1 0 0).
  - intros ws v s r v' k. rewrite i_repeat, i_alt, i_or, i_times. split.
    + intros [[G ->]|[(s1 & _ & E & _)|(s1 & v1 & k1 & k2 & G & _ & G2 & ->)]]; [right|discriminate|left].
      * exists v', k, []. rewrite app_nil_r. split; [apply i_seq, f_cons; auto; left; split; auto; now apply (whole_same p H0 true)|].
        split; auto. apply i_or. left. exists s. split; auto. apply i_pass. auto.
      * destruct r as [s2|]; [exists s2; split; auto|exfalso].
        -- apply i_seq, f_cons; auto. right. exists s1, v1, k1, k2. split; [now apply (whole_same p H0 true)|]. split; auto.
           apply f_one; auto. apply i_repeat. eapply v_floor; [| |exact G2]; lia.
        -- exact (v_star_some _ _ _ _ _ _ _ _ G2).
    + intros [(s1 & G & ->)|(v1 & k1 & k2 & G & G2 & ->)].
      * apply i_seq, f_cons in G; auto. destruct G as [[_ E]|(s2 & v2 & k1 & k2 & G1 & G2 & ->)]; [discriminate|].
        apply f_one in G2; auto. apply i_repeat in G2. right. right. exists s2, v2, k1, k2. split; [now apply (whole_same p H0 false)|].
        split; [discriminate|]. split; auto. eapply v_floor; [| |exact G2]; lia.
      * apply i_or in G2. destruct G2 as [(s1 & G2 & ->)|(v2 & k3 & k4 & G2 & _)]; apply i_pass in G2; destruct G2 as (E & E1 & E2); [|discriminate].
        injection E as ->. subst. rewrite app_nil_r. apply i_seq, f_cons in G; auto. destruct G as [[G _]|(s2 & v2 & k2 & k3 & G1 & G2 & ->)].
        -- left. split; auto. now apply (whole_same p H0 false).
        -- exfalso. apply f_one in G2; auto. apply i_repeat in G2. exact (v_star_some _ _ _ _ _ _ _ _ G2).
  - intros ws v s r v' k. rewrite i_repeat, i_seq. now apply (v_at_least ws p t n H H0 H1 n 0 0).
  - intros ws v s r v' k. rewrite i_repeat, i_seq. now apply (v_exact ws p t (S n) H H0 H1 n 0 0).
  - intros ws v s r v' k. rewrite i_repeat, i_opt, i_times. split.
    + intros [[G ->]|[(s1 & G & _ & ->)|(s1 & v1 & k1 & k2 & _ & E & _)]]; [right; auto|left; eauto|lia].
    + intros [(s1 & G & ->)|[G ->]]; [right; left; eauto|left; auto].
  - intros ws v s r v' k. rewrite i_opt, i_alt, i_or. split.
    + intros [G|[G ->]]; [left; exact G|right]. exists v', k, []. rewrite app_nil_r. split; auto. split; auto. apply i_or. left. exists s. split; auto. now apply i_pass.
    + intros [G|(v1 & k1 & k2 & G & G2 & ->)]; [left; exact G|right]. apply i_or in G2.
      destruct G2 as [(s1 & G2 & ->)|(v2 & k3 & k4 & G2 & _)]; apply i_pass in G2; destruct G2 as (E & E1 & E2); [|discriminate].
      injection E as ->. subst. now rewrite app_nil_r.
  - (* not *) intros ws v s r v' k. rewrite (i_not ws o (Not (Not p))), (i_not ws o p). split.
    + intros [[[s1 G] ->]|[G ->]]; apply i_not in G.
      * destruct G as [[_ E]|[G _]]; [discriminate|]. apply i_not in G. destruct G as [[G _]|[_ E]]; [left; auto|discriminate].
      * destruct G as [[[s2 G] _]|[_ E]]; [|discriminate]. apply i_not in G. destruct G as [[_ E]|[G _]]; [discriminate|right; auto].
    + intros [[[s1 G] ->]|[G ->]].
      * left. split; auto. exists s. apply i_not. right. split; auto. apply i_not. left. eauto.
      * right. split; auto. apply i_not. left. split; auto. exists s. apply i_not. auto.
  - intros ws v s r v' k. rewrite i_except, i_seq, q_cons by auto. split.
    + intros [((s1 & x & G) & -> & ->)|(x & k1 & k2 & G1 & G2 & ->)].
      * left. split; auto. exists VNil. apply i_discard. split; auto. exists x. apply i_not. left. eauto.
      * right. exists s, VNil, k1, k2. split; [apply i_discard; split; auto; exists x; apply i_not; auto|]. split; auto. now apply f_one.
    + intros [[[x G] [-> ->]]|(s1 & x & k1 & k2 & G & G2 & ->)].
      * left. split; auto. apply i_discard in G. destruct G as (-> & y & G). apply i_not in G.
        destruct G as [[[s1 G] _]|[_ E]]; [exists s1, y; exact G|discriminate].
      * right. apply i_discard in G. destruct G as (-> & y & G). apply i_not in G. destruct G as [[_ E]|[G E]]; [discriminate|injection E as ->].
        exists y, k1, k2. split; auto. split; auto. now apply f_one in G2.
  - (* lexeme *) intros ws v s r v' k. now rewrite !i_lexeme, trim_nows.
  - both.
    + intros G. apply i_alt, i_or in G. destruct G as [(s1 & G & ->)|(v1 & k1 & k2 & G & G2 & ->)].
      * inversion G; subst; try discriminate. eapply v_char; eauto. cbn. auto.
      * inversion G; subst; try discriminate. apply i_or in G2. destruct G2 as [(s1 & G2 & ->)|(v2 & k3 & k4 & G2 & G3 & ->)].
        -- inversion G2; subst; try discriminate. eapply v_char; eauto. cbn. auto.
        -- apply i_none in G3. destruct G3 as (-> & -> & ->). inversion G2; subst; try discriminate. apply v_char_no.
           intros y s' E [C|C]; [match goal with N : forall _ _, _ -> ~ in_set a _ |- _ => exact (N _ _ E C) end|match goal with N : forall _ _, _ -> ~ in_set b _ |- _ => exact (N _ _ E C) end].
    + intros G. apply i_alt, i_or.
      assert (D : (exists y s', trim ws s = y :: s' /\ in_set a y) \/ forall y s', trim ws s = y :: s' -> ~ in_set a y).
      { destruct (trim ws s) as [|y s'] eqn:Et; [right; discriminate|]. destruct (in_set_dec a y); [left; eauto|right; intros ? ? [= <- <-]; auto]. }
      inversion G; subst; try discriminate; destruct D as [(y1 & s1' & E1 & E2)|N].
      * left. assert (y1 = y /\ s1' = s') as [-> ->] by (split; congruence). exists s'. split; auto. eapply v_char; eauto.
      * right. exists v, [], []. split; [now apply v_char_no|]. split; auto. apply i_or. left. exists s'. split; auto. eapply v_char; eauto.
        match goal with I : in_set (COr a b) y |- _ => destruct I as [I|I]; auto end. exfalso. eapply N; eauto.
      * exfalso. match goal with I : forall _ _, _ -> ~ in_set (COr a b) _ |- _ => apply (I _ _ E1) end. cbn. auto.
      * right. exists v', [], []. split; [now apply v_char_no|]. split; auto. apply i_or. right. exists v', [], []. split; [|split; auto; constructor].
        apply v_char_no. intros y s' E C. match goal with I : forall _ _, _ -> ~ in_set (COr a b) _ |- _ => apply (I _ _ E) end. cbn. auto.
  - (* discard *) intros ws v s r v' k. rewrite !i_discard. split.
    + intros (-> & x & G). apply i_discard in G. destruct G as (_ & G). auto.
    + intros (-> & x & G). split; auto. exists VNil. apply i_discard. eauto.
  - intros ws v s r v' k. rewrite i_discard, i_lexeme, i_discard. split; intros (-> & x & G); (split; [auto|exists x; now apply i_lexeme in G || now apply i_lexeme]).
  - intros ws v s r v' k. rewrite i_discard. split.
    + intros (-> & x & G). inversion G; subst; try discriminate; [now constructor|now apply v_lit_no].
    + intros G. inversion G; subst; try discriminate; (split; [auto|exists VNil]); [now constructor|now apply v_lit_no].
  - intros ws v s r v' k. rewrite i_discard. split.
    + intros (-> & x & G). inversion G; subst; try discriminate; [now constructor|now apply v_eoi_no].
    + intros G. inversion G; subst; try discriminate; (split; [auto|exists VNil]); [now constructor|now apply v_eoi_no].
  - intros ws v s r v' k. rewrite i_discard, i_pass. split; [intros (-> & x & G); apply i_pass in G; intuition|].
    intros (-> & -> & ->). split; auto. exists VNil. now apply i_pass.
  - intros ws v s r v' k. rewrite i_discard, i_fail. split; [intros (-> & x & G); apply i_fail in G; intuition|].
    intros (-> & -> & ->). split; auto. exists VNil. now apply i_fail.
Qed.
End Laws.

(** ** Hence of what is stored and who is called *)
Section Run.
Context (T : char_ty) (env : nat -> option pat) (Hk : known T env) (He : all_simple env).

Theorem vlaws_parse p q t : vlaw false env false t p q ->
  inclass T false p = true -> simple p = true -> inclass T false q = true -> simple q = true ->
  forall v inp, Forall (tok T) inp -> shaped t v = true ->
  (forall s v' k, does env p t v inp SUCCESS s v' k <-> does env q t v inp SUCCESS s v' k) /\
  (forall v' k, (exists s, does env p t v inp FAILURE s v' k) <-> (exists s, does env q t v inp FAILURE s v' k)).
Proof.
  intros L Cp Sp Cq Sq v inp F Sh. pose proof (vlaw_same env _ _ _ _ L) as E.
  destruct (does_mv T env Hk He p t v inp Cp Sp F Sh) as [A1 A2]. destruct (does_mv T env Hk He q t v inp Cq Sq F Sh) as [B1 B2]. split; intros.
  - rewrite A1, B1. apply E.
  - rewrite A2, B2. apply E.
Qed.
Theorem vlaws_session p q t : vlaw false env false t p q ->
  inclass T false p = true -> simple p = true -> inclass T false q = true -> simple q = true ->
  forall v l, complete l -> Forall (tok T) (fed l) -> shaped t v = true ->
  forall r v' k, r <> PARTIAL -> delivers env p t v l r v' k <-> delivers env q t v l r v' k.
Proof.
  intros L Cp Sp Cq Sq v l Hl F Sh. pose proof (vlaw_same env _ _ _ _ L) as E.
  destruct (delivers_mv T env Hk He p t v l Cp Sp Hl F Sh) as [A1 A2]. destruct (delivers_mv T env Hk He q t v l Cq Sq Hl F Sh) as [B1 B2]. intros [] v' k NP; [| |congruence].
  - rewrite A1, B1. split; intros [s G]; exists s; now apply E.
  - rewrite A2, B2. apply E.
Qed.

Context (skp : pat) (ws : gap) (Hf : skipper T skp = true) (Hw : forall s, Forall (tok T) s -> ws s = passes skp s).
Theorem vlaws_parse_sk p q t : vlaw false env false t p q ->
  inclass T true p = true -> simple p = true -> inclass T true q = true -> simple q = true ->
  forall v inp, Forall (tok T) inp -> shaped t v = true ->
  (forall s v' k, does env (WithSkipper p skp) t v inp SUCCESS s v' k ->
     exists s', does env (WithSkipper q skp) t v inp SUCCESS s' v' k /\ trim ws s = trim ws s') /\
  (forall v' k, (exists s, does env (WithSkipper p skp) t v inp FAILURE s v' k) <-> (exists s, does env (WithSkipper q skp) t v inp FAILURE s v' k)).
Proof.
  intros L Cp Sp Cq Sq v inp F Sh. pose proof (vlaw_same env _ _ _ _ L) as E.
  destruct (does_mv_sk T env Hk He skp ws Hf Hw p t v inp Cp Sp F Sh) as (A1 & _ & A3).
  destruct (does_mv_sk T env Hk He skp ws Hf Hw q t v inp Cq Sq F Sh) as (_ & B2 & B3). split.
  - intros s v' k H. destruct (A1 _ _ _ H) as (s1 & H1 & E1). apply E in H1. destruct (B2 _ _ _ H1) as (s2 & H2 & E2).
    exists s2. split; [exact H2|congruence].
  - intros v' k. rewrite A3, B3. apply E.
Qed.
Theorem vlaws_session_sk p q t : vlaw false env false t p q ->
  inclass T true p = true -> simple p = true -> inclass T true q = true -> simple q = true ->
  forall v l, complete l -> Forall (tok T) (fed l) -> shaped t v = true ->
  forall r v' k, r <> PARTIAL -> delivers env (WithSkipper p skp) t v l r v' k <-> delivers env (WithSkipper q skp) t v l r v' k.
Proof.
  intros L Cp Sp Cq Sq v l Hl F Sh. pose proof (vlaw_same env _ _ _ _ L) as E.
  destruct (delivers_mv_sk T env Hk He skp ws Hf Hw p t v l Cp Sp Hl F Sh) as [A1 A2].
  destruct (delivers_mv_sk T env Hk He skp ws Hf Hw q t v l Cq Sq Hl F Sh) as [B1 B2]. intros [] v' k NP; [| |congruence].
  - rewrite A1, B1. split; intros [s G]; exists s; now apply E.
  - rewrite A2, B2. apply E.
Qed.
End Run.
