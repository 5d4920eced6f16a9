(** Proofs for C65: what expressions store. *)
From Coq Require Import List ZArith Bool Arith Lia.
From Verif Require Import Base CharSet Dst Pattern Expr Parser SpecPeg SpecLeaf SpecValue SpecType SpecAttr SpecExpr SpecExprVal ExprThms AttrRun.
Import ListNotations.

Definition same (A B : vreading) : Prop := forall t v s r v' k, A t v s r v' k <-> B t v s r v' k.

Lemma same_refl A : same A A. Proof. intros t v s r v' k. reflexivity. Qed.
Lemma same_sym A B : same A B -> same B A. Proof. intros H t v s r v' k. symmetry. apply H. Qed.
Lemma same_trans A B C : same A B -> same B C -> same A C. Proof. intros H K t v s r v' k. rewrite (H t v s r v' k). apply K. Qed.

Ltac inv H := inversion H; clear H; subst.

Section Values.
Context (env : nat -> option pat).

Lemma one_iff ws p : atom p = false -> same (mv env ws (VOne true p)) (whole (mv env ws (VOne false p))).
Proof.
  intros Ha t v s r v' k. unfold whole. split.
  - intros H. inv H; try discriminate; try (eexists; split; [eassumption|]; auto; fail).
    cbn in Ha. match goal with K : true = true -> _ |- _ => rewrite K in Ha by reflexivity end. discriminate.
  - intros (x & H & K). destruct r; [eapply v_one; eauto|]. subst. eapply v_one_no; eauto.
Qed.
Lemma whole_same A B : same A B -> same (whole A) (whole B).
Proof. intros H t v s r v' k. unfold whole. split; intros (x & K & L); exists x; split; auto; now apply H. Qed.
Lemma if_one_same o A B : same A B -> same (if_one o A) (if_one o B).
Proof. destruct o; auto. apply whole_same. Qed.
Lemma one_if ws o p A : atom p = false -> same (mv env ws (VOne false p)) A -> same (mv env ws (VOne o p)) (if_one o A).
Proof.
  intros Ha H. destruct o; [|exact H]. cbn. eapply same_trans; [apply one_iff, Ha|]. now apply whole_same.
Qed.

Lemma part_element q i x t v tq vq v' : part_at q i x t v tq vq v' <-> element (ignores q) i x t v tq vq v'.
Proof. split; intros H; inv H; [now apply el_quiet|now apply el_whole|now apply el_none|now apply el_slot|now apply pat_quiet|now apply pat_whole|now apply pat_none|now apply pat_slot]. Qed.

Lemma all_one ws i p : same (mv env ws (VAll i [p])) (in_element (ignores p) i (mv env ws (VOne false p))).
Proof.
  intros t v s r v' k. unfold in_element. split.
  - intros H. inv H; [do 3 eexists; split; [apply part_element; eassumption|assumption]|].
    match goal with K : mv env ws (VAll _ []) _ _ _ _ _ _ |- _ => inv K end. rewrite app_nil_r.
    do 3 eexists. split; [apply part_element; eassumption|assumption].
  - intros (tq & vq & x & H & K). apply part_element in H. destruct r.
    + rewrite <- (app_nil_r k). eapply v_all; eauto. constructor.
    + eapply v_all_no; eauto.
Qed.
Lemma takes_cons p l : takes (p :: l) = (if ignores p then 0 else 1) + takes l.
Proof. unfold takes. cbn. destruct (ignores p); reflexivity. Qed.
Lemma takes_app l l' : takes (l ++ l') = takes l + takes l'.
Proof. unfold takes. now rewrite filter_app, app_length. Qed.
Lemma after_takes p i l : after p i + takes l = i + takes (p :: l).
Proof. rewrite takes_cons. unfold after. destruct (ignores p); lia. Qed.

Lemma all_app_v ws l l' : forall i, same (mv env ws (VAll i (l ++ l'))) (both_v (mv env ws (VAll i l)) (mv env ws (VAll (i + takes l) l'))).
Proof.
  induction l as [|p l IH]; intros i t v s r v' k; unfold both_v; cbn [app].
  - change (takes []) with 0. rewrite Nat.add_0_r. split.
    + intros H. right. exists s, v, [], k. split; [constructor|auto].
    + intros [[H _]|(s1 & v1 & k1 & k2 & H & K & ->)]; inv H; auto.
  - rewrite <- after_takes. split.
    + intros H. inv H.
      * left. split; auto. eapply v_all_no; eauto.
      * match goal with K : mv env ws (VAll _ (l ++ l')) _ _ _ _ _ _ |- _ => apply IH in K; destruct K as [[A ->]|(s2 & v2 & k2 & k3 & A & B & ->)] end.
        -- left. split; auto. eapply v_all; eauto.
        -- right. exists s2, v2, (k1 ++ k2), k3. split; [eapply v_all; eauto|]. split; auto. now rewrite app_assoc.
    + intros [[H ->]|(s1 & v1 & k1 & k2 & H & K & ->)]; inv H.
      * eapply v_all_no; eauto.
      * eapply v_all; eauto. apply IH. left. auto.
      * rewrite <- app_assoc. eapply v_all; eauto. apply IH. right. do 4 eexists. eauto.
Qed.

Lemma both_same A A' B B' : same A A' -> same B B' -> same (both_v A B) (both_v A' B').
Proof.
  intros HA HB t v s r v' k. unfold both_v.
  split; (intros [[H ->]|(s1 & v1 & k1 & k2 & H & K & ->)]; [left; split; auto; now apply HA|right; do 4 eexists; split; [apply HA; eauto|]; split; [apply HB; eauto|auto]]).
Qed.
Lemma in_element_same q i A B : same A B -> same (in_element q i A) (in_element q i B).
Proof. intros H t v s r v' k. unfold in_element. split; intros (a & b & c & K & L); do 3 eexists; split; eauto; apply H; eauto. Qed.

Lemma seq_one ws l : same (mv env ws (VOne false (Seq l))) (mv env ws (VAll 0 l)).
Proof. intros t v s r v' k. split; intros H; [inv H; auto; discriminate|now constructor]. Qed.

(** ** Alternatives *)
Lemma any_app_v ws o l l' : same (mv env ws (VAny o (l ++ l'))) (first_of_v (mv env ws (VAny o l)) (mv env ws (VAny o l'))).
Proof.
  induction l as [|p l IH]; intros t v s r v' k; unfold first_of_v; cbn [app].
  - split.
    + intros H. right. exists v, [], k. split; [constructor|auto].
    + intros [(s1 & H & _)|(v1 & k1 & k2 & H & K & ->)]; inv H; auto.
  - split.
    + intros H. inv H.
      * left. eexists. split; eauto. now constructor.
      * match goal with K : mv env ws (VAny o (l ++ l')) _ _ _ _ _ _ |- _ => apply IH in K; destruct K as [(s1 & A & ->)|(v2 & k2 & k3 & A & B & ->)] end.
        -- left. exists s1. split; auto. eapply v_any_next; eauto.
        -- right. exists v2, (k1 ++ k2), k3. split; [eapply v_any_next; eauto|]. split; auto. now rewrite app_assoc.
    + intros [(s1 & H & ->)|(v1 & k1 & k2 & H & K & ->)]; inv H.
      * now constructor.
      * eapply v_any_next; eauto. apply IH. left. eauto.
      * rewrite <- app_assoc. eapply v_any_next; eauto. apply IH. right. do 3 eexists. eauto.
Qed.
Lemma alt_one ws o l : same (mv env ws (VOne o (Alt l))) (mv env ws (VAny o l)).
Proof. intros t v s r v' k. split; intros H; [inv H; auto; discriminate|now constructor]. Qed.
Lemma any_ops ws o p : same (mv env ws (VAny o (ops_alt p))) (mv env ws (VOne o p)).
Proof.
  assert (forall q, same (mv env ws (VAny o [q])) (mv env ws (VOne o q))) as H1.
  { intros q t v s r v' k. split; intros H.
    - inv H; auto. match goal with K : mv env ws (VAny _ []) _ _ _ _ _ _ |- _ => inv K end. now rewrite app_nil_r.
    - destruct r; [now constructor|]. rewrite <- (app_nil_r k). eapply v_any_next; eauto. constructor. }
  destruct p; cbn [ops_alt]; auto. apply same_sym, alt_one.
Qed.
Lemma first_same A A' B B' : same A A' -> same B B' -> same (first_of_v A B) (first_of_v A' B').
Proof.
  intros HA HB t v s r v' k. unfold first_of_v.
  split; (intros [(s1 & H & ->)|(v1 & k1 & k2 & H & K & ->)]; [left; eexists; split; auto; apply HA; eauto|right; do 3 eexists; split; [apply HA; eauto|]; split; [apply HB; eauto|auto]]).
Qed.
Lemma alt_v ws o p q A B : same (mv env ws (VOne o p)) A -> same (mv env ws (VOne o q)) B -> same (mv env ws (VOne o (op_alt p q))) (first_of_v A B).
Proof.
  intros HA HB. rewrite op_alt_ops. eapply same_trans; [apply alt_one|]. eapply same_trans; [apply any_app_v|].
  apply first_same; (eapply same_trans; [apply any_ops|assumption]).
Qed.

(** ** Repetitions and lists *)
Lemma times_v ws p A lo hi : same (mv env ws (VOne true p)) A -> forall n, same (mv env ws (VTimes lo hi n p)) (again_v A lo hi n).
Proof.
  intros HA n t v s r v' k. split; intros H.
  - remember (VTimes lo hi n p) as g eqn:Eg. revert n Eg. induction H; intros n0 Eg; inv Eg.
    + apply againv_stop. now apply HA.
    + apply againv_full; auto. now apply HA.
    + eapply againv_more; eauto. now apply HA.
  - induction H; [apply v_times_stop; now apply HA|apply v_times_full; auto; now apply HA|eapply v_times; eauto; now apply HA].
Qed.
Lemma repeat_v ws p A lo hi : same (mv env ws (VOne true p)) A -> same (mv env ws (VOne false (Repeat lo hi p))) (again_v A lo hi 0).
Proof.
  intros HA. eapply same_trans; [|apply (times_v ws p A lo hi HA 0)]. intros t v s r v' k. split; intros H; [inv H; auto; discriminate|now constructor].
Qed.
Lemma more_v ws p q A B : same (mv env ws (VOne true p)) A -> same (mv env ws (VOne false q)) B -> same (mv env ws (VMore p q)) (and_so_on_v A B).
Proof.
  intros HA HB t v s r v' k. split; intros H.
  - remember (VMore p q) as g eqn:Eg. revert Eg. induction H; intros Eg; inv Eg.
    + eapply sov_end. apply HB. eassumption.
    + eapply sov_trailing; [apply HB; eassumption|now apply HA].
    + eapply sov_more; [apply HB; eassumption|apply HA; eassumption|auto].
  - induction H; [eapply v_more_end; apply HB; eassumption|eapply v_more_trailing; [apply HB; eassumption|now apply HA]|eapply v_more; [apply HB; eassumption|apply HA; eassumption|auto]].
Qed.
Lemma list_v ws p q A B : same (mv env ws (VOne true p)) A -> same (mv env ws (VOne false q)) B -> same (mv env ws (VOne false (PList p q))) (separated_v A B).
Proof.
  intros HA HB t v s r v' k. unfold separated_v. split.
  - intros H. inv H; try discriminate; [left; split; auto; now apply HA|right]. do 4 eexists. split; [apply HA; eassumption|]. split; [|reflexivity]. now apply (more_v ws p q A B HA HB).
  - intros [[H ->]|(s1 & v1 & k1 & k2 & H & K & ->)]; [apply v_list_none; now apply HA|]. eapply v_list; [apply HA; eauto|]. now apply (more_v ws p q A B HA HB).
Qed.

(** ** The rest *)
Lemma except_v ws o p q A B : same (mv env ws (VOne o p)) A -> same (mv env ws (VOne false q)) B -> same (mv env ws (VOne o (Except p q))) (unless_v A B).
Proof.
  intros HA HB t v s r v' k. unfold unless_v. split.
  - intros H. inv H; try discriminate; [left; do 2 eexists; split; [apply HB; eassumption|auto]|right; do 3 eexists; split; [apply HB; eassumption|]; split; [apply HA; eassumption|auto]].
  - intros [(s1 & x & H & -> & ->)|(x & k1 & k2 & H & K & ->)]; [eapply v_except; apply HB; eauto|eapply v_except_no; [apply HB; eauto|now apply HA]].
Qed.
Lemma not_v ws o p A : same (mv env ws (VOne false p)) A -> same (mv env ws (VOne o (Not p))) (here_unless_v A).
Proof.
  intros HA t v s r v' k. unfold here_unless_v. split.
  - intros H. inv H; try discriminate; [left; eexists; split; [apply HA; eassumption|auto]|right; split; [now apply HA|auto]].
  - intros [(s1 & H & ->)|[H ->]]; [eapply v_not; apply HA; eauto|apply v_not_no; now apply HA].
Qed.
Lemma opt_v ws o p A : same (mv env ws (VOne true p)) A -> same (mv env ws (VOne o (Opt p))) (if_any_v A).
Proof.
  intros HA t v s r v' k. unfold if_any_v. split.
  - intros H. inv H; try discriminate; [left; eexists; split; [apply HA; eassumption|auto]|right; split; [now apply HA|auto]].
  - intros [(s1 & H & ->)|[H ->]]; [eapply v_opt; apply HA; eauto|apply v_opt_no; now apply HA].
Qed.
Lemma char_v ws o cs : same (mv env ws (VOne o (Char cs))) (keeps_char ws (in_set cs)).
Proof.
  intros t v s r v' k. unfold keeps_char. split.
  - intros H. inv H; try discriminate; (split; [reflexivity|]); [left; eauto 8|right; auto].
  - intros (-> & [(y & s' & H & K & -> & L)|(H & -> & ->)]); [eapply v_char; eauto|now apply v_char_no].
Qed.
Lemma lit_v ws o l : same (mv env ws (VOne o (Lit l))) (mute (reads_text ws l)).
Proof.
  intros t v s r v' k. unfold mute, reads_text. split.
  - intros H. inv H; try discriminate; (split; [|auto]); [left; eauto|right; auto].
  - intros ([(s' & H & ->)|[H ->]] & -> & ->); [now apply v_lit|now apply v_lit_no].
Qed.
Lemma char_lit_v ws o t0 c : same (mv env ws (VOne o (Discard (Char (CSingle t0 c))))) (mute (reads_char ws (fun y => y = c))).
Proof.
  intros t v s r v' k. unfold mute, reads_char. split.
  - intros H. inv H; try discriminate. match goal with K : mv env ws (VOne o (Char _)) _ _ _ _ _ _ |- _ => apply char_v in K; destruct K as (-> & [(y & s' & H & K & -> & L)|(H & -> & ->)]) end; (split; [|auto]); [left; eauto|right; auto].
  - intros ([(y & s' & H & K & ->)|[H ->]] & -> & ->); eapply v_discard; [eapply v_char; eauto; constructor|apply v_char_no; auto].
Qed.
Lemma discard_v ws o p A : same (mv env ws (VOne o p)) A -> same (mv env ws (VOne o (Discard p))) (fun t v s r v' k => v' = v /\ exists x, A TNil VNil s r x k).
Proof.
  intros HA t v s r v' k. split.
  - intros H. inv H; try discriminate. split; auto. eexists. apply HA. eassumption.
  - intros (-> & x & H). eapply v_discard. apply HA. eassumption.
Qed.
Lemma lexeme_v ws o p A : same (mv env nows (VOne o p)) A -> same (mv env ws (VOne o (Lexeme p))) (fun t v s => A t v (trim ws s)).
Proof.
  intros HA t v s r v' k. split.
  - intros H. inv H; try discriminate. now apply HA.
  - intros H. apply v_lexeme. now apply HA.
Qed.
Lemma bind_v ws p A : same (mv env ws (VOne false p)) A -> same (mv env ws (VOne false (BindDst p))) A.
Proof. intros HA. eapply same_trans; [|exact HA]. intros t v s r v' k. split; intros H; [inv H; auto; discriminate|now constructor]. Qed.
Lemma skipper_v ws o skp p A : (o = true -> atom p = true) -> same (mv env (passes skp) (VOne o p)) A ->
  same (mv env ws (VOne o (WithSkipper p skp))) (fun t v s => A t v (trim ws s)).
Proof.
  intros Ho HA t v s r v' k. split.
  - intros H. inv H; [cbn in *; rewrite Ho in * by auto; discriminate|cbn in *; rewrite Ho in * by auto; discriminate|]. now apply HA.
  - intros H. apply v_skipper; auto. now apply HA.
Qed.
Lemma act_v ws o a p A : same (mv env ws (VOne false p)) A -> same (mv env ws (VOne o (Act a p))) (calls a A).
Proof.
  intros HA t v s r v' k. unfold calls. split.
  - intros H. inv H; try discriminate; [do 3 eexists; split; [apply HA; eassumption|]; split; [eassumption|auto]|split; auto; eexists; apply HA; eassumption].
  - destruct r; [intros (x & y & k1 & H & K & L & N & ->); eapply v_act; eauto; apply HA; eauto|intros (-> & x & H); eapply v_act_no; apply HA; eauto].
Qed.
Lemma construct_v ws o args p A : same (mv env ws (VOne false p)) A -> same (mv env ws (VOne o (Construct args p))) (builds args A).
Proof.
  intros HA t v s r v' k. unfold builds. split.
  - intros H. inv H; try discriminate; [do 2 eexists; split; [apply HA; eassumption|]; split; eassumption|split; auto; eexists; apply HA; eassumption].
  - destruct r; [intros (xs & y & H & K & L); eapply v_construct; eauto; apply HA; eauto|intros (-> & x & H); eapply v_construct_no; apply HA; eauto].
Qed.

Lemma single ws p e : ops_seq p = [p] -> (forall o, same (mv env ws (VOne o p)) (stores env ws (mode o) e)) -> ignores p = quiet e ->
  forall i, same (mv env ws (VAll i (ops_seq p))) (in_element (quiet e) i (stores env ws InPlace e)).
Proof. intros Hp H <- i. rewrite Hp. eapply same_trans; [apply all_one|]. apply in_element_same, (H false). Qed.
Lemma takes_one p : ops_seq p = [p] -> takes (ops_seq p) = if ignores p then 0 else 1.
Proof. intros ->. rewrite takes_cons. now destruct (ignores p). Qed.

Definition valued ws p e : Prop :=
  (forall o, same (mv env ws (VOne o p)) (stores env ws (mode o) e)) /\
  (forall i, same (mv env ws (VAll i (ops_seq p))) (stores env ws (Operand i) e)) /\
  ignores p = quiet e /\ takes (ops_seq p) = elements e /\ atom p = stores_once e.

(** Everything but a sequence. *)
Lemma valued_single ws p e : ops_seq p = [p] ->
  (forall i, stores env ws (Operand i) e = in_element (quiet e) i (stores env ws InPlace e)) ->
  elements e = (if quiet e then 0 else 1) ->
  (forall o, same (mv env ws (VOne o p)) (stores env ws (mode o) e)) -> ignores p = quiet e -> atom p = stores_once e -> valued ws p e.
Proof.
  intros Hp He Hl H Hq Ha. split; [exact H|]. split; [|split; [exact Hq|split; [|exact Ha]]].
  - intros i. rewrite He. now apply single.
  - rewrite takes_one by exact Hp. now rewrite Hl, Hq.
Qed.

Lemma mv_ext_all ws ws' g t v s r v' k : mv env ws g t v s r v' k -> (forall z, ws z = ws' z) -> mv env ws' g t v s r v' k.
Proof. intros H E. apply (mv_ext env (fun _ => True) _ _ _ _ _ _ _ _ H ws'); auto. apply Forall_forall. auto. Qed.

Theorem meaning_v e : forall ws x p, plain_skippers e = true -> Expr.value e = Some x -> make_pattern x = Some p -> valued ws p e.
Proof.
  induction e; intros ws x p0 Hs E Hp; cbn [Expr.value plain_skippers] in *; try rewrite andb_true_iff in Hs; opened.
  all: try match goal with H : Some _ = Some _ |- _ => inversion H; clear H; subst end.
  - inversion Hp; subst. destruct p0; try (apply valued_single; auto; try reflexivity; intros o; destruct o; apply same_refl).
    split; [|split; [|split; [reflexivity|split; reflexivity]]].
    + intros o. destruct o; apply same_refl.
    + intros i. apply same_refl.
  - inversion Hp; subst. apply valued_single; try reflexivity. intros o. destruct o; apply char_lit_v.
  - cbn in Hp. destruct (c_string mem) eqn:E1; inversion Hp; subst. apply valued_single; try reflexivity. intros o. rewrite <- E1. destruct o; apply lit_v.
  - inversion Hp; subst. apply valued_single; try reflexivity. intros o. destruct o; apply char_v.
  - apply binary_inv in H1. destruct H1 as (p & q & A & B & ->). inversion Hp; subst. destruct Hs.
    destruct (IHe1 ws _ p ltac:(assumption) ltac:(eassumption) A) as (_ & P1 & _ & P3 & _).
    destruct (IHe2 ws _ q ltac:(assumption) ltac:(eassumption) B) as (_ & Q1 & _ & Q3 & _).
    rewrite op_seq_ops. split; [|split; [|split; [reflexivity|split; [|reflexivity]]]].
    + intros o. assert (same (mv env ws (VOne false (Seq (ops_seq p ++ ops_seq q)))) (both_v (stores env ws (Operand 0) e1) (stores env ws (Operand (elements e1)) e2))) as HS.
      { eapply same_trans; [apply seq_one|]. eapply same_trans; [apply all_app_v|]. apply both_same; [apply P1|]. rewrite P3. apply Q1. }
      pose proof (one_if ws o _ _ (eq_refl : atom (Seq (ops_seq p ++ ops_seq q)) = false) HS) as G. destruct o; exact G.
    + intros i. cbn [ops_seq]. eapply same_trans; [apply all_app_v|]. cbn [stores]. apply both_same; [apply P1|]. rewrite P3. apply Q1.
    + cbn [ops_seq elements]. rewrite takes_app. now rewrite P3, Q3.
  - destruct (is_set _ || is_set _); [discriminate|]. apply binary_inv in H1. destruct H1 as (p & q & A & B & ->). inversion Hp; subst. destruct Hs.
    destruct (IHe1 ws _ p ltac:(assumption) ltac:(eassumption) A) as (P1 & _). destruct (IHe2 ws _ q ltac:(assumption) ltac:(eassumption) B) as (Q1 & _).
    apply valued_single; try reflexivity; try (rewrite op_alt_ops; reflexivity).
    intros o. specialize (P1 o). specialize (Q1 o). destruct o; now apply alt_v.
  - apply binary_inv in H1. destruct H1 as (p & q & A & B & ->). inversion Hp; subst. destruct Hs.
    destruct (IHe1 ws _ p ltac:(assumption) ltac:(eassumption) A) as (P1 & _ & P2 & _). destruct (IHe2 ws _ q ltac:(assumption) ltac:(eassumption) B) as (Q1 & _).
    apply valued_single; try reflexivity; auto. intros o.
    pose proof (one_if ws o (PList p q) _ eq_refl (list_v ws p q _ _ (P1 true) (Q1 false))) as G. destruct o; exact G.
  - apply binary_inv in H1. destruct H1 as (p & q & A & B & ->). inversion Hp; subst. destruct Hs.
    destruct (IHe1 ws _ p ltac:(assumption) ltac:(eassumption) A) as (P1 & _ & P2 & _). destruct (IHe2 ws _ q ltac:(assumption) ltac:(eassumption) B) as (Q1 & _).
    apply valued_single; try reflexivity; auto. intros o. pose proof (except_v ws o p q _ _ (P1 o) (Q1 false)) as G. destruct o; exact G.
  - apply unary_inv in H0. destruct H0 as (p & A & ->). inversion Hp; subst. destruct (IHe ws _ p Hs ltac:(eassumption) A) as (P1 & _ & P2 & _).
    apply valued_single; try reflexivity; auto. intros o.
    pose proof (one_if ws o (Repeat 0 0 p) _ eq_refl (repeat_v ws p _ 0 0 (P1 true))) as G. destruct o; exact G.
  - apply unary_inv in H0. destruct H0 as (p & A & ->). inversion Hp; subst. destruct (IHe ws _ p Hs ltac:(eassumption) A) as (P1 & _ & P2 & _).
    apply valued_single; try reflexivity; auto. intros o.
    pose proof (one_if ws o (Repeat 1 0 p) _ eq_refl (repeat_v ws p _ 1 0 (P1 true))) as G. destruct o; exact G.
  - apply unary_inv in H0. destruct H0 as (p & A & ->). inversion Hp; subst. destruct (IHe ws _ p Hs ltac:(eassumption) A) as (P1 & _ & P2 & _).
    apply valued_single; try reflexivity; auto. intros o. pose proof (opt_v ws o p _ (P1 true)) as G. destruct o; exact G.
  - apply unary_inv in H0. destruct H0 as (p & A & ->). inversion Hp; subst. destruct (IHe ws _ p Hs ltac:(eassumption) A) as (P1 & _ & P2 & _).
    apply valued_single; try reflexivity; auto. intros o. pose proof (not_v ws o p _ (P1 false)) as G. destruct o; exact G.
  - apply wrapped_inv in H0. destruct H0 as (p & A & ->). inversion Hp; subst. destruct (IHe ws _ p Hs ltac:(eassumption) A) as (P1 & _ & P2 & _).
    apply valued_single; try reflexivity; auto. intros o.
    pose proof (one_if ws o (Repeat lo hi p) _ eq_refl (repeat_v ws p _ lo hi (P1 true))) as G. destruct o; exact G.
  - apply wrapped_inv in H0. destruct H0 as (p & A & ->). inversion Hp; subst. destruct (IHe ws _ p Hs ltac:(eassumption) A) as (P1 & _ & P2 & _).
    apply valued_single; try reflexivity; auto. intros o. pose proof (discard_v ws o p _ (P1 o)) as G. destruct o; exact G.
  - apply wrapped_inv in H0. destruct H0 as (p & A & ->). inversion Hp; subst. destruct (IHe nows _ p Hs ltac:(eassumption) A) as (P1 & _ & P2 & _).
    apply valued_single; try reflexivity; auto. intros o. pose proof (lexeme_v ws o p _ (P1 o)) as G. destruct o; exact G.
  - apply wrapped_inv in H0. destruct H0 as (p & A & ->). inversion Hp; subst. destruct (IHe ws _ p Hs ltac:(eassumption) A) as (P1 & _ & P2 & _).
    apply valued_single; try reflexivity; auto. intros o.
    pose proof (one_if ws o (BindDst p) _ eq_refl (bind_v ws p _ (P1 false))) as G. destruct o; exact G.
  - destruct x0 as [p| | |]; try discriminate. destruct x1 as [sp| | |]; try discriminate. inversion H1; clear H1; subst.
    pose proof (blanks_passes _ _ _ (proj1 Hs) H0 eq_refl) as HB.
    inversion Hp; subst. destruct (IHe1 (blanks e2) (ThPat p) p (proj2 Hs) ltac:(auto) eq_refl) as (P1 & _ & P2 & _ & P4).
    assert (HX : forall o, same (mv env (passes sp) (VOne o p)) (mv env (blanks e2) (VOne o p))).
    { intros o t v s r v' k. split; intros K; eapply mv_ext_all; eauto. }
    apply valued_single; try reflexivity; auto. intros o.
    assert (same (mv env ws (VOne o (WithSkipper p sp)))
      (if stores_once e1 then fun t v s => stores env (blanks e2) (mode o) e1 t v (trim ws s)
       else if_one o (fun t v s => stores env (blanks e2) InPlace e1 t v (trim ws s)))) as G.
    { rewrite <- P4. destruct (atom p) eqn:Ea.
      - apply skipper_v; auto. eapply same_trans; [apply HX|apply P1].
      - apply one_if; [exact Ea|]. apply (skipper_v ws false sp p); [discriminate|]. eapply same_trans; [apply HX|exact (P1 false)]. }
    destruct o; exact G.
  - apply unary_inv in H0. destruct H0 as (p & A & ->). inversion Hp; subst. destruct (IHe ws _ p Hs ltac:(eassumption) A) as (P1 & _ & P2 & _).
    apply valued_single; try reflexivity; auto. intros o. pose proof (act_v ws o act p _ (P1 false)) as G. destruct o; exact G.
  - apply unary_inv in H0. destruct H0 as (p & A & ->). inversion Hp; subst. destruct (IHe ws _ p Hs ltac:(eassumption) A) as (P1 & _ & P2 & _).
    apply valued_single; try reflexivity; auto. intros o. pose proof (construct_v ws o args p _ (P1 false)) as G. destruct o; exact G.
Qed.
End Values.

Lemma pattern_stores env e p : pattern_of e = Some p -> plain_skippers e = true -> forall ws, same (mv env ws (VOne false p)) (stores env ws InPlace e).
Proof.
  unfold pattern_of. destruct (Expr.value e) as [x|] eqn:E; [|discriminate]. destruct x; try discriminate. intros [= ->] Hs ws.
  exact (proj1 (meaning_v env e ws _ p Hs E eq_refl) false).
Qed.

(** ** parse() and parsers fed in pieces *)
From Verif Require Import Source Session SpecSession SpecRun Leaf PegSound Run Comb AttrRun.

Section Parse.
Context (T : char_ty) (env : nat -> option pat) (Hk : known T env) (He : all_simple env).
Context (e : expr) (p : pat) (Hp : pattern_of e = Some p) (Hs : plain_skippers e = true) (Hi : simple p = true).

Lemma expr_does t v inp : inclass T false p = true -> Forall (tok T) inp -> shaped t v = true ->
  (forall s v' k, does env p t v inp SUCCESS s v' k <-> stores env nows InPlace e t v inp (Some s) v' k) /\
  (forall v' k, (exists s, does env p t v inp FAILURE s v' k) <-> stores env nows InPlace e t v inp None v' k).
Proof.
  intros Hc Ht Hv. pose proof (pattern_stores env e p Hp Hs nows) as M. destruct (does_mv T env Hk He p t v inp Hc Hi Ht Hv) as [A B]. split.
  - intros s v' k. rewrite (A s v' k). apply M.
  - intros v' k. rewrite (B v' k). apply M.
Qed.
Lemma expr_delivers t v l : inclass T false p = true -> complete l -> Forall (tok T) (fed l) -> shaped t v = true ->
  (forall v' k, delivers env p t v l SUCCESS v' k <-> exists s, stores env nows InPlace e t v (fed l) (Some s) v' k) /\
  (forall v' k, delivers env p t v l FAILURE v' k <-> stores env nows InPlace e t v (fed l) None v' k).
Proof.
  intros Hc Hl Ht Hv. pose proof (pattern_stores env e p Hp Hs nows) as M. destruct (delivers_mv T env Hk He p t v l Hc Hi Hl Ht Hv) as [A B]. split.
  - intros v' k. rewrite (A v' k). split; intros (s & H); exists s; now apply M.
  - intros v' k. rewrite (B v' k). apply M.
Qed.

Context (skp : pat) (ws : gap) (Hf : skipper T skp = true) (Hw : forall s, Forall (tok T) s -> ws s = passes skp s).

Lemma expr_does_sk t v inp : inclass T true p = true -> Forall (tok T) inp -> shaped t v = true ->
  (forall s v' k, does env (WithSkipper p skp) t v inp SUCCESS s v' k ->
     exists s', stores env ws InPlace e t v inp (Some s') v' k /\ trim ws s = trim ws s') /\
  (forall s' v' k, stores env ws InPlace e t v inp (Some s') v' k ->
     exists s, does env (WithSkipper p skp) t v inp SUCCESS s v' k /\ trim ws s = trim ws s') /\
  (forall v' k, (exists s, does env (WithSkipper p skp) t v inp FAILURE s v' k) <-> stores env ws InPlace e t v inp None v' k).
Proof.
  intros Hc Ht Hv. pose proof (pattern_stores env e p Hp Hs ws) as M. destruct (does_mv_sk T env Hk He skp ws Hf Hw p t v inp Hc Hi Ht Hv) as (A & B & C). split; [|split].
  - intros s v' k H. destruct (A s v' k H) as (s' & K & L). exists s'. split; auto. now apply M.
  - intros s' v' k H. apply B. now apply M.
  - intros v' k. rewrite (C v' k). apply M.
Qed.
Lemma expr_delivers_sk t v l : inclass T true p = true -> complete l -> Forall (tok T) (fed l) -> shaped t v = true ->
  (forall v' k, delivers env (WithSkipper p skp) t v l SUCCESS v' k <-> exists s, stores env ws InPlace e t v (fed l) (Some s) v' k) /\
  (forall v' k, delivers env (WithSkipper p skp) t v l FAILURE v' k <-> stores env ws InPlace e t v (fed l) None v' k).
Proof.
  intros Hc Hl Ht Hv. pose proof (pattern_stores env e p Hp Hs ws) as M. destruct (delivers_mv_sk T env Hk He skp ws Hf Hw p t v l Hc Hi Hl Ht Hv) as [A B]. split.
  - intros v' k. rewrite (A v' k). split; intros (s & H); exists s; now apply M.
  - intros v' k. rewrite (B v' k). apply M.
Qed.
End Parse.
