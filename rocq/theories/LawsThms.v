(** The laws hold of what patterns recognise. *)
From Coq Require Import List ZArith Bool Arith Lia.
From Verif Require Import Base CharSet Source Dst Pattern Parser Session SpecSession SpecPeg SpecRun SpecLaws.
From Verif Require Import Leaf PegSound PegTerm Run Comb.
Import ListNotations.

Section Laws.
Context (env : nat -> option pat).
Notation M := (m env).
Definition same (p q : pat) : Prop := forall ws s r, M ws (One p) s r <-> M ws (One q) s r.

Lemma trim_nows s : trim nows s = s.
Proof. destruct s; reflexivity. Qed.
Lemma in_set_dec cs z : in_set cs z \/ ~ in_set cs z.
Proof.
  induction cs; cbn; auto.
  - destruct (Z.eq_dec z c); auto.
  - lia.
  - destruct (in_dec Z.eq_dec z l); auto.
  - destruct (f z); auto.
  - tauto.
  - tauto.
Qed.

(** Inversions. *)
Lemma inv_seq ws l s r : M ws (One (Seq l)) s r <-> M ws (All l) s r.
Proof. split; [intros H; now inversion H|now constructor]. Qed.
Lemma inv_alt ws l s r : M ws (One (Alt l)) s r <-> M ws (Any l) s r.
Proof. split; [intros H; now inversion H|now constructor]. Qed.
Lemma inv_nil ws s r : M ws (All []) s r <-> r = Some s.
Proof. split; [intros H; now inversion H|intros ->; constructor]. Qed.
Lemma inv_none ws s r : M ws (Any []) s r <-> r = None.
Proof. split; [intros H; now inversion H|intros ->; constructor]. Qed.
Lemma inv_cons ws p l s r : M ws (All (p :: l)) s r <->
  M ws (One p) s None /\ r = None \/ exists s1, M ws (One p) s (Some s1) /\ M ws (All l) s1 r.
Proof.
  split; [intros H; inversion H; subst; eauto|]. intros [[H ->]|(s1 & H1 & H2)]; [now constructor|eapply m_all; eauto].
Qed.
Lemma inv_or ws p l s r : M ws (Any (p :: l)) s r <->
  (exists s1, M ws (One p) s (Some s1) /\ r = Some s1) \/ M ws (One p) s None /\ M ws (Any l) s r.
Proof.
  split; [intros H; inversion H; subst; eauto|]. intros [(s1 & H & ->)|[H1 H2]]; [now constructor|now apply m_any_next].
Qed.
Lemma inv_pass ws s r : M ws (One Pass) s r <-> r = Some s.
Proof. split; [intros H; now inversion H|intros ->; constructor]. Qed.
Lemma inv_fail ws s r : M ws (One Fail) s r <-> r = None.
Proof. split; [intros H; now inversion H|intros ->; constructor]. Qed.
Lemma inv_not ws p s r : M ws (One (Not p)) s r <->
  (exists s1, M ws (One p) s (Some s1) /\ r = None) \/ M ws (One p) s None /\ r = Some s.
Proof. split; [intros H; inversion H; subst; eauto|]. intros [(s1 & H & ->)|[H ->]]; [eapply m_not; eauto|now constructor]. Qed.
Lemma inv_opt ws p s r : M ws (One (Opt p)) s r <->
  (exists s1, M ws (One p) s (Some s1) /\ r = Some s1) \/ M ws (One p) s None /\ r = Some s.
Proof. split; [intros H; inversion H; subst; eauto|]. intros [(s1 & H & ->)|[H ->]]; [now constructor|now apply m_opt_no]. Qed.
Lemma inv_except ws p q s r : M ws (One (Except p q)) s r <->
  (exists s1, M ws (One q) s (Some s1) /\ r = None) \/ M ws (One q) s None /\ M ws (One p) s r.
Proof. split; [intros H; inversion H; subst; eauto|]. intros [(s1 & H & ->)|[H1 H2]]; [eapply m_except; eauto|now apply m_except_no]. Qed.
Lemma inv_lexeme ws p s r : M ws (One (Lexeme p)) s r <-> M nows (One p) (trim ws s) r.
Proof. split; [intros H; now inversion H|now constructor]. Qed.
Lemma inv_repeat ws lo hi p s r : M ws (One (Repeat lo hi p)) s r <-> M ws (Times lo hi 0 p) s r.
Proof. split; [intros H; now inversion H|now constructor]. Qed.
Lemma inv_times ws lo hi n p s r : M ws (Times lo hi n p) s r <->
  M ws (One p) s None /\ r = (if lo <=? n then Some s else None) \/
  exists s1, M ws (One p) s (Some s1) /\ (S n = hi /\ r = Some s1 \/ S n <> hi /\ M ws (Times lo hi (S n) p) s1 r).
Proof.
  split; [intros H; inversion H; subst; eauto 6|].
  intros [[H ->]|(s1 & H & [[E ->]|[E H2]])]; [now constructor|now apply m_times_full|eapply m_times; eauto].
Qed.

(** Sequences and alternatives, cut in two. *)
Lemma all_app ws l1 l2 s r : M ws (All (l1 ++ l2)) s r <->
  M ws (All l1) s None /\ r = None \/ exists s1, M ws (All l1) s (Some s1) /\ M ws (All l2) s1 r.
Proof.
  revert s. induction l1 as [|p l1 IH]; intros s; cbn [app].
  - split; [intros H; right; exists s; split; auto; constructor|]. intros [[H _]|(s1 & H & H2)]; inversion H; subst; auto.
  - rewrite inv_cons. split.
    + intros [[H ->]|(s1 & H & H2)]; [left; split; auto; apply inv_cons; auto|].
      apply IH in H2. destruct H2 as [[H2 ->]|(s2 & H2 & H3)]; [left; split; auto; apply inv_cons; eauto|].
      right. exists s2. split; auto. apply inv_cons. eauto.
    + intros [[H ->]|(s1 & H & H2)]; apply inv_cons in H; destruct H as [[H E]|(s2 & H & H3)]; auto; try discriminate;
        right; exists s2; split; auto; apply IH; eauto.
Qed.
Lemma any_app ws l1 l2 s r : M ws (Any (l1 ++ l2)) s r <->
  (exists s1, M ws (Any l1) s (Some s1) /\ r = Some s1) \/ M ws (Any l1) s None /\ M ws (Any l2) s r.
Proof.
  induction l1 as [|p l1 IH]; cbn [app].
  - split; [intros H; right; split; auto; constructor|]. intros [(s1 & H & _)|[_ H]]; auto. inversion H.
  - rewrite !inv_or, IH. split.
    + intros [(s1 & H & ->)|[H [(s1 & H1 & ->)|[H1 H2]]]].
      * left. exists s1. split; auto. apply inv_or. eauto.
      * left. exists s1. split; auto. apply inv_or. auto.
      * right. split; auto. 
    + intros [(s1 & H & ->)|[[(s1 & H & E)|[H1 H2]] H3]]; try discriminate; auto.
      apply inv_or in H. destruct H as [(s2 & H & E)|[H1 H2]]; [injection E as <-; eauto|right; split; eauto].
Qed.

(** In every context. *)
Lemma ctx_all ws l1 l2 p q s r : same p q -> M ws (All (l1 ++ p :: l2)) s r -> M ws (All (l1 ++ q :: l2)) s r.
Proof.
  intros Hs H. apply all_app in H. apply all_app. destruct H as [H|(s1 & H1 & H2)]; [auto|right; exists s1; split; auto].
  apply inv_cons in H2. apply inv_cons. destruct H2 as [[H ->]|(s2 & H & H2)]; [left|right; exists s2]; split; auto; now apply Hs.
Qed.
Lemma ctx_any ws l1 l2 p q s r : same p q -> M ws (Any (l1 ++ p :: l2)) s r -> M ws (Any (l1 ++ q :: l2)) s r.
Proof.
  intros Hs H. apply any_app in H. apply any_app. destruct H as [H|[H1 H2]]; [auto|right; split; auto].
  apply inv_or in H2. apply inv_or. destruct H2 as [(s2 & H & ->)|[H H2]]; [left; exists s2|right]; split; auto; now apply Hs.
Qed.
Lemma ctx_times ws lo hi n p q s r : same p q -> M ws (Times lo hi n p) s r -> M ws (Times lo hi n q) s r.
Proof.
  intros Hs H. remember (Times lo hi n p) as g eqn:E. revert n E. induction H; intros n0 E; try discriminate; injection E as -> -> <- ->.
  - constructor. now apply Hs.
  - apply m_times_full; auto. now apply Hs.
  - eapply m_times; eauto. now apply Hs.
Qed.
Lemma ctx_more ws p p' q q' s r : same p p' -> same q q' -> M ws (More p q) s r -> M ws (More p' q') s r.
Proof.
  intros Hp Hq H. remember (More p q) as g eqn:E. revert E. induction H; intros E; try discriminate; injection E as -> ->.
  - constructor. now apply Hq.
  - eapply m_more_trailing; [apply Hq|apply Hp]; eauto.
  - eapply m_more; [apply Hq|apply Hp|]; eauto.
Qed.

Lemma same_sym p q : same p q -> same q p.
Proof. intros H ws s r. symmetry. apply H. Qed.

(** Repetitions. *)
Lemma times_floor ws p lo n lo' n' s r : lo <= n -> lo' <= n' -> M ws (Times lo 0 n p) s r -> M ws (Times lo' 0 n' p) s r.
Proof.
  intros Hn Hn' H. remember (Times lo 0 n p) as g eqn:E. revert n n' Hn Hn' E. induction H; intros n0 n0' Hn Hn' E; try discriminate; injection E as -> -> <- ->.
  - rewrite (proj2 (Nat.leb_le lo n)) by lia. replace (Some s) with (if lo' <=? n0' then Some s else None) by (rewrite (proj2 (Nat.leb_le lo' n0')) by lia; reflexivity).
    now constructor.
  - discriminate.
  - apply (m_times env ws lo' 0 n0' p s s1 r); [assumption|discriminate|]. apply (IHm2 (S n)); auto; lia.
Qed.
Lemma star_some ws p n s r : M ws (Times 0 0 n p) s r -> r <> None.
Proof. intros H. remember (Times 0 0 n p) as g eqn:E. revert n E. induction H; intros n0 E; try discriminate; injection E as -> -> <- ->; eauto; discriminate. Qed.
Lemma times_at_least ws p lo n k s r : lo = n + k ->
  (M ws (Times lo 0 n p) s r <-> M ws (All (List.repeat p k ++ [Repeat 0 0 p])) s r).
Proof.
  revert n s. induction k as [|k IH]; intros n s E.
  - cbn [List.repeat app]. rewrite inv_cons. split.
    + intros H. apply (times_floor ws p lo n 0 0) in H; try lia.
      destruct r as [s1|]; [right; exists s1; split; [now constructor|now constructor]|left; split; auto; now constructor].
    + intros H. apply (times_floor ws p 0 0 lo n); try lia.
      destruct H as [[H ->]|(s1 & H & H2)]; [now apply inv_repeat|]. apply inv_nil in H2. subst. now apply inv_repeat.
  - cbn [List.repeat app]. rewrite inv_cons, inv_times. rewrite (proj2 (Nat.leb_gt lo n)) by lia. split.
    + intros [H|(s1 & H & [[? _]|[_ H2]])]; [auto|discriminate|]. right. exists s1. split; auto. apply (IH (S n)); auto. lia.
    + intros [H|(s1 & H & H2)]; [auto|]. right. exists s1. split; auto. right. split; auto. apply (IH (S n)) in H2; auto. lia.
Qed.
Lemma times_exact ws p lo n k s r : lo = n + S k ->
  (M ws (Times lo lo n p) s r <-> M ws (All (List.repeat p (S k))) s r).
Proof.
  revert n s. induction k as [|k IH]; intros n s E; cbn [List.repeat]; rewrite inv_cons, inv_times, (proj2 (Nat.leb_gt lo n)) by lia.
  - split.
    + intros [H|(s1 & H & [[_ ->]|[? _]])]; [auto| |lia]. right. exists s1. split; auto. constructor.
    + intros [H|(s1 & H & H2)]; [auto|]. apply inv_nil in H2. subst r. right. exists s1. split; auto. left. split; auto. lia.
  - split.
    + intros [H|(s1 & H & [[? _]|[_ H2]])]; [auto|lia|]. right. exists s1. split; auto. apply (IH (S n)) in H2; auto. lia.
    + intros [H|(s1 & H & H2)]; [auto|]. right. exists s1. split; auto. right. split; [lia|]. apply (IH (S n)); auto. lia.
Qed.
Lemma more_star ws p sep s r : M ws (More p sep) s r <-> M ws (Times 0 0 0 (Seq [sep; p])) s r.
Proof.
  split; intros H.
  - remember (More p sep) as g eqn:E. revert E. induction H; intros E; try discriminate; injection E as -> ->.
    + apply (m_times_stop env ws 0 0 0). apply inv_seq, inv_cons. auto.
    + apply (m_times_stop env ws 0 0 0). apply inv_seq, inv_cons. right. exists s1. split; auto. now constructor.
    + eapply m_times; [apply inv_seq, inv_cons; right; exists s1; split; eauto; apply inv_cons; right; exists s2; split; eauto; constructor|discriminate|].
      eapply (times_floor ws _ 0 0); eauto.
  - remember (Times 0 0 0 (Seq [sep; p])) as g eqn:E. enough (forall n, g = Times 0 0 n (Seq [sep; p]) -> M ws (More p sep) s r) as K by (eapply K; eauto).
    clear E. induction H; intros n0 E; try discriminate; injection E as -> -> <- ->.
    + cbn. apply inv_seq, inv_cons in H. destruct H as [[H _]|(s1 & H & H2)]; [now constructor|].
      apply inv_cons in H2. destruct H2 as [[H2 _]|(s2 & H2 & H3)]; [eapply m_more_trailing; eauto|inversion H3].
    + discriminate.
    + apply inv_seq, inv_cons in H. destruct H as [[_ ?]|(s2 & H & H2)]; [discriminate|].
      apply inv_cons in H2. destruct H2 as [[_ ?]|(s3 & H2 & H3)]; [discriminate|]. apply inv_nil in H3. injection H3 as ->.
      eapply m_more; eauto.
Qed.

Ltac both := intros ws s r; split; intros K.
Ltac open := repeat (rewrite ?inv_seq, ?inv_alt, ?inv_nil, ?inv_none, ?inv_cons, ?inv_or, ?inv_pass, ?inv_fail, ?inv_not, ?inv_opt, ?inv_except, ?inv_lexeme, ?inv_repeat in * ).

Ltac inv := repeat match goal with
  | H : m _ _ (One (Seq _)) _ _ |- _ => apply inv_seq in H
  | H : m _ _ (One (Alt _)) _ _ |- _ => apply inv_alt in H
  | H : m _ _ (One (Repeat _ _ _)) _ _ |- _ => apply inv_repeat in H
  | H : m _ _ (One Pass) _ _ |- _ => apply inv_pass in H
  | H : m _ _ (One Fail) _ _ |- _ => apply inv_fail in H
  | H : m _ _ (All []) _ _ |- _ => apply inv_nil in H
  | H : m _ _ (Any []) _ _ |- _ => apply inv_none in H
  | H : m _ _ (All (_ :: _)) _ _ |- _ => apply inv_cons in H; destruct H as [[? ?]|(? & ? & ?)]
  | H : m _ _ (Any (_ :: _)) _ _ |- _ => apply inv_or in H; destruct H as [(? & ? & ?)|[? ?]]
  | H : m _ _ (One (Not _)) _ _ |- _ => apply inv_not in H; destruct H as [(? & ? & ?)|[? ?]]
  | H : m _ _ (One (Opt _)) _ _ |- _ => apply inv_opt in H; destruct H as [(? & ? & ?)|[? ?]]
  | H : m _ _ (One (Except _ _)) _ _ |- _ => apply inv_except in H; destruct H as [(? & ? & ?)|[? ?]]
  | H : Some _ = Some _ |- _ => injection H as H
  | H : None = Some _ |- _ => discriminate
  | H : Some _ = None |- _ => discriminate
  | H1 : m _ ?ws ?g ?s ?r1, H2 : m _ ?ws ?g ?s ?r2 |- _ =>
    let E := fresh in pose proof (m_det _ _ _ _ _ H1 _ H2) as E; clear H2
  | _ => progress subst
  end.

Theorem law_same p q : law env p q -> same p q.
Proof.
  induction 1.
  - intros ws s r. reflexivity.
  - now apply same_sym.
  - intros ws s r'. rewrite (IHlaw1 ws s r'). apply IHlaw2.
  - both; apply inv_seq in K; apply inv_seq; eapply ctx_all; eauto using same_sym.
  - both; apply inv_alt in K; apply inv_alt; eapply ctx_any; eauto using same_sym.
  - both; apply inv_repeat in K; apply inv_repeat; eapply ctx_times; eauto using same_sym.
  - intros ws s r. open. unfold same in IHlaw. setoid_rewrite IHlaw. reflexivity.
  - intros ws s r. open. unfold same in IHlaw. setoid_rewrite IHlaw. reflexivity.
  - both; open; now apply IHlaw.
  - both; inversion K; subst; constructor; now apply IHlaw.
  - intros ws s r. open. unfold same in IHlaw1, IHlaw2. setoid_rewrite IHlaw1. setoid_rewrite IHlaw2. reflexivity.
  - both; inversion K; subst.
    + constructor. now apply IHlaw1.
    + eapply m_list; [eapply IHlaw1; eassumption|eapply ctx_more; eauto].
    + constructor. now apply IHlaw1.
    + eapply m_list; [eapply IHlaw1; eassumption|eapply ctx_more; eauto using same_sym].
  - both; [now inversion K|now constructor].
  - both; [now inversion K|now constructor].
  - both; [now inversion K|now constructor].
  - both; [now inversion K|now constructor].
  - both; [inversion K; congruence|eapply m_recur; eauto].
  - intros ws s r. open. split.
    + intros [[H ->]|(s1 & H & H2)]; auto. apply inv_nil in H2. now subst.
    + intros H. destruct r; [right|left]; eauto. eexists. split; eauto. constructor.
  - intros ws s r. rewrite !inv_seq, !all_app. setoid_rewrite inv_cons. setoid_rewrite all_app. setoid_rewrite inv_seq. reflexivity.
  - intros ws s r. rewrite !inv_seq, !all_app. setoid_rewrite inv_cons. setoid_rewrite inv_pass.
    split; (intros [H|(s1 & H1 & H2)]; [auto|right; exists s1; split; auto]).
    + destruct H2 as [[? _]|(s2 & [= <-] & H2)]; [discriminate|auto].
    + eauto.
  - intros ws s r. open. split.
    + intros [(s1 & H & ->)|[H ->]]; auto.
    + intros H. destruct r; eauto.
  - intros ws s r. rewrite !inv_alt, !any_app, !inv_or. setoid_rewrite inv_alt. reflexivity.
  - intros ws s r. rewrite !inv_alt, !any_app. setoid_rewrite inv_or. setoid_rewrite inv_fail.
    split; (intros [H|[H1 H2]]; [auto|right; split; auto]). destruct H2 as [(s1 & ? & _)|[_ H2]]; [discriminate|auto].
  - intros ws s r. rewrite !inv_alt, !any_app. setoid_rewrite inv_or. setoid_rewrite inv_pass.
    split; (intros [H|[H1 H2]]; [auto|right; split; auto]); (destruct H2 as [(s1 & E & ->)|[? _]]; [eauto|discriminate]).
  - intros ws s r. rewrite !inv_alt, !any_app, !inv_or, !any_app, !inv_or. 
    split; (intros [H|[H1 [H2|[H2 H3]]]]; [auto|auto|right; split; auto; right; split; auto]).
    + destruct H3 as [H3|[H3 [(s1 & H4 & _)|[_ H4]]]]; auto. pose proof (m_det _ _ _ _ _ H2 _ H4). discriminate.
    + destruct H3 as [H3|[H3 H4]]; auto.
  - both; inv; eauto 12 using m_seq, m_all, m_all_no, m_all_end, m_alt, m_any, m_any_next, m_any_end.
  - both; inv; eauto using m_fail, m_seq, m_all_no.
  - intros ws s r. rewrite inv_repeat, inv_seq. apply (times_at_least ws p 1 0 1). reflexivity.
  - both.
    + apply inv_repeat, inv_times in K. destruct K as [[K ->]|(s1 & K & [[? _]|[_ H]])]; [apply m_opt_no; now apply m_seq, m_all_no|discriminate|].
      apply (times_floor ws p 0 1 0 0) in H; try lia. pose proof (star_some _ _ _ _ _ H). destruct r as [s2|]; [|tauto].
      eauto 8 using m_opt, m_seq, m_all, m_all_end, m_repeat.
    + inv; apply inv_repeat, inv_times; auto.
      * right. eexists. split; [eassumption|]. right. split; [discriminate|]. eapply (times_floor ws p 0 0); [| |eassumption]; lia.
      * match goal with H : m _ _ (Times _ _ _ _) _ None |- _ => now apply star_some in H end.
  - intros ws s r. rewrite inv_repeat, inv_seq. now apply times_exact.
  - intros ws s r. rewrite inv_repeat, inv_seq. now apply times_at_least.
  - intros ws s r. rewrite inv_repeat, inv_opt, inv_times. cbn [Nat.leb]. split.
    + intros [H|(s1 & H & [[_ ->]|[? _]])]; [auto|eauto|lia].
    + intros [(s1 & H & ->)|H]; [right; exists s1; split; auto|auto].
  - both; inv; eauto using m_opt, m_opt_no, m_alt, m_any, m_any_next, m_pass.
  - both.
    + inversion K; subst; [apply m_opt_no; now apply m_seq, m_all_no|].
      match goal with H : m _ _ (More _ _) _ _ |- _ => apply more_star in H end.
      match goal with H : m _ _ (Times _ _ _ _) _ _ |- _ => pose proof (star_some _ _ _ _ _ H) end.
      destruct r as [s2|]; [|tauto]. eauto 8 using m_opt, m_seq, m_all, m_all_end, m_repeat.
    + inv; try match goal with H : m _ _ (Times _ _ _ _) _ None |- _ => now apply star_some in H end.
      * eapply m_list; eauto. now apply more_star.
      * now apply m_list_none.
  - both; inv; eauto using m_not, m_not_no.
  - both; inv; eauto 6 using m_not, m_not_no, m_except, m_except_no, m_seq, m_all, m_all_no, m_all_end.
    destruct r; eauto 8 using m_not, m_not_no, m_except, m_except_no, m_seq, m_all, m_all_no, m_all_end.
  - both; inv; eauto 12 using m_not, m_not_no, m_alt, m_any, m_any_next, m_any_end, m_seq, m_all, m_all_no, m_all_end.
  - intros ws s r. rewrite !inv_lexeme, trim_nows. reflexivity.
  - both; inv.
    + inversion H; subst. econstructor; eauto. now left.
    + inversion H0; subst. econstructor; eauto. now right.
    + inversion H; inversion H0; subst. apply m_char_no. intros y t E [Hy|Hy]; match goal with H : forall y t, _ = _ -> ~ in_set ?c y, K : in_set ?c _ |- _ => now apply (H _ _ E) end.
    + inversion K; subst.
      * destruct (in_set_dec a y); [apply m_alt, m_any; econstructor; eauto|].
        apply m_alt, m_any_next; [|apply m_any; econstructor; eauto; cbn in *; tauto].
        apply m_char_no. intros y0 t0 E0. rewrite E0 in *. congruence.
      * apply m_alt, m_any_next; [|apply m_any_next; [|constructor]]; apply m_char_no; intros y t E Hy; match goal with H : forall y t, _ = _ -> ~ in_set (COr _ _) y |- _ => apply (H _ _ E); cbn; auto end.
Qed.
End Laws.

(** ** parse() *)

Theorem laws_parse T env p q inp : known T env -> inclass T false p = true -> inclass T false q = true -> Forall (tok T) inp ->
  law env p q -> forall r, says env p inp r -> obeys env q inp r.
Proof.
  intros Hk Hp Hq Ht HL r (t & v & n & w & H).
  pose proof (proj1 (grammar T env p inp Hk Hp Ht)) as G.
  apply (grammar T env q inp Hk Hq Ht). apply (law_same env p q HL).
  destruct r as [s|]; [destruct H as [H <-]|]; exact (G _ _ _ _ _ H).
Qed.

Theorem laws_parse_skipping T env p q inp skp ws : known T env -> inclass T true p = true -> inclass T true q = true -> Forall (tok T) inp ->
  skipper T skp = true -> (forall s, Forall (tok T) s -> ws s = passes skp s) ->
  law env p q -> forall r, says_upto ws env (WithSkipper p skp) inp r -> obeys_upto ws env (WithSkipper q skp) inp r.
Proof.
  intros Hk Hp Hq Ht Hcs Hws HL r (t & v & n & w & H).
  pose proof (proj1 (grammar_skipping T env p inp skp ws Hk Hp Ht Hcs Hws)) as G.
  pose proof (proj2 (grammar_skipping T env q inp skp ws Hk Hq Ht Hcs Hws)) as G'.
  destruct r as [s|].
  - destruct H as [H E]. destruct (G _ _ _ _ _ H) as (s0 & Hm & E0). apply (law_same env p q HL), G' in Hm.
    intros t' v'. destruct (Hm t' v') as (o & Ho & HO). exists o. split; auto. destruct o as [[a w']|]; auto.
    destruct HO as [-> HO]. split; auto. congruence.
  - apply G', (law_same env p q HL). exact (G _ _ _ _ _ H).
Qed.
