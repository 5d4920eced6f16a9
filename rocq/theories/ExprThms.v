(** C62, C63: expressions. *)
From Coq Require Import List ZArith Bool Arith Lia.
From Verif Require Import Base CharSet Source Dst Pattern Expr Parser Session SpecSession SpecPeg SpecRun SpecExpr PegSound Run.
Import ListNotations.

Lemma bind_some {A B} (x : option A) (f : A -> option B) y : opt_bind x f = Some y -> exists a, x = Some a /\ f a = Some y.
Proof. destruct x; cbn; eauto. discriminate. Qed.

(** ** Parentheses *)
Definition ops_seq (p : pat) : list pat := match p with Seq l => l | _ => [p] end.
Definition ops_alt (p : pat) : list pat := match p with Alt l => l | _ => [p] end.
Lemma op_seq_ops p q : op_seq p q = Seq (ops_seq p ++ ops_seq q).
Proof. destruct p, q; reflexivity. Qed.
Lemma op_alt_ops p q : op_alt p q = Alt (ops_alt p ++ ops_alt q).
Proof. destruct p, q; reflexivity. Qed.
Lemma op_seq_assoc p q r : op_seq (op_seq p q) r = op_seq p (op_seq q r).
Proof. rewrite !op_seq_ops. cbn. now rewrite app_assoc. Qed.
Lemma op_alt_assoc p q r : op_alt (op_alt p q) r = op_alt p (op_alt q r).
Proof. rewrite !op_alt_ops. cbn. now rewrite app_assoc. Qed.

(** Without the check that one operand is a pattern. *)
Definition any_binary (f : pat -> pat -> pat) (x y : thing) : option thing :=
  opt_bind (make_pattern x) (fun p => opt_bind (make_pattern y) (fun q => Some (ThPat (f p q)))).
Fixpoint lax (e : expr) : option thing :=
  match e with
  | EPat p => Some (ThPat p)
  | EChar w c => Some (ThChar (if w then ct_char32 else ct_char) c)
  | EStr mem => Some (ThStr mem)
  | ESet s => Some (ThSet s)
  | ESeq a b => opt_bind (lax a) (fun x => opt_bind (lax b) (any_binary op_seq x))
  | EAlt a b => opt_bind (lax a) (fun x => opt_bind (lax b) (any_binary op_alt x))
  | EList a b => opt_bind (lax a) (fun x => opt_bind (lax b) (any_binary PList x))
  | EExcept a b => opt_bind (lax a) (fun x => opt_bind (lax b) (any_binary Except x))
  | EStar a => opt_bind (lax a) (wrapped (Repeat 0 0))
  | EPlus a => opt_bind (lax a) (wrapped (Repeat 1 0))
  | EOpt a => opt_bind (lax a) (wrapped Opt)
  | ENot a => opt_bind (lax a) (wrapped Not)
  | ERep lo hi a => opt_bind (lax a) (wrapped (Repeat lo hi))
  | EDiscard a => opt_bind (lax a) (wrapped Discard)
  | ELexeme a => opt_bind (lax a) (wrapped Lexeme)
  | EBind a => opt_bind (lax a) (wrapped BindDst)
  | ESkip a s => opt_bind (lax a) (fun x => opt_bind (lax s) (any_binary WithSkipper x))
  | EAct act a => opt_bind (lax a) (wrapped (Act act))
  | EAs args a => opt_bind (lax a) (wrapped (Construct args))
  end.

Lemma binary_lax f x y z : binary f x y = Some z -> any_binary f x y = Some z.
Proof.
  unfold binary, any_binary. destruct (is_pat x || is_pat y); [|discriminate].
  destruct (make_pattern x), (make_pattern y); cbn; auto; discriminate.
Qed.
Lemma unary_lax f x z : unary f x = Some z -> wrapped f x = Some z.
Proof. destruct x; cbn; auto; discriminate. Qed.

Ltac opened :=
  repeat match goal with
  | H : opt_bind _ _ = Some _ |- _ => apply bind_some in H; destruct H as (? & ? & ?)
  end.

Lemma value_lax e : forall x, value e = Some x -> lax e = Some x.
Proof.
  induction e; cbn [value lax]; intros x H; auto; opened;
    repeat match goal with
    | IH : forall x, value ?e = Some x -> lax ?e = Some x, H : value ?e = Some _ |- _ => apply IH in H; rewrite H; clear IH
    end; cbn [opt_bind]; auto using binary_lax, unary_lax.
  - destruct (is_set _ || is_set _); [discriminate|]. auto using binary_lax.
  - destruct x0, x1; try discriminate. inversion H1; subst. reflexivity.
Qed.

Lemma chain_lax f (Hf : forall p q r, f (f p q) r = f p (f q r)) x y z :
  opt_bind (opt_bind x (fun a => opt_bind y (any_binary f a))) (fun a => opt_bind z (any_binary f a)) =
  opt_bind x (fun a => opt_bind (opt_bind y (fun b => opt_bind z (any_binary f b))) (any_binary f a)).
Proof.
  destruct x as [x|], y as [y|], z as [z|]; cbn; auto; unfold any_binary.
  all: try (destruct (make_pattern x); cbn; auto); try (destruct (make_pattern y); cbn; auto); try (destruct (make_pattern z); cbn; auto).
  now rewrite Hf.
Qed.

Lemma lax_then a : forall b, lax (then_ a b) = lax (ESeq a b).
Proof.
  induction a; intros b; cbn [then_]; auto. cbn [lax]. rewrite IHa2. cbn [lax].
  symmetry. apply chain_lax, op_seq_assoc.
Qed.
Lemma lax_or a : forall b, lax (or_ a b) = lax (EAlt a b).
Proof.
  induction a; intros b; cbn [or_]; auto. cbn [lax]. rewrite IHa2. cbn [lax].
  symmetry. apply chain_lax, op_alt_assoc.
Qed.
Lemma lax_right e : lax (to_the_right e) = lax e.
Proof.
  induction e; cbn [to_the_right]; rewrite ?lax_then, ?lax_or; cbn [lax]; auto; try (rewrite IHe; auto); rewrite IHe1, IHe2; auto.
Qed.

Lemma regrouped_value e e' x x' : regrouped e e' -> value e = Some x -> value e' = Some x' -> x = x'.
Proof.
  unfold regrouped. intros H E E'. apply value_lax in E, E'. rewrite <- lax_right in E, E'. congruence.
Qed.

Theorem regrouped_pattern e e' p p' : regrouped e e' -> pattern_of e = Some p -> pattern_of e' = Some p' -> p = p'.
Proof.
  unfold pattern_of. intros H E E'. destruct (value e) as [x|] eqn:V; [|discriminate]. destruct (value e') as [x'|] eqn:V'; [|discriminate].
  pose proof (regrouped_value e e' x x' H V V'). subst. destruct x'; congruence.
Qed.

(** ** What is recognised *)
Section Meaning.
Context (env : nat -> option pat).

Definition means (ws : gap) (p : pat) (A : reading) : Prop := forall s r, m env ws (One p) s r <-> A s r.

Lemma all_app ws l l' s r : m env ws (All (l ++ l')) s r <->
  (m env ws (All l) s None /\ r = None) \/ exists s1, m env ws (All l) s (Some s1) /\ m env ws (All l') s1 r.
Proof.
  revert s. induction l as [|p l IH]; intros s; cbn [app].
  - split.
    + intros H. right. exists s. split; auto. constructor.
    + intros [[H _]|(s1 & H & K)]; inversion H; subst; auto.
  - split.
    + intros H. inversion H; subst.
      * left. split; auto. now constructor.
      * match goal with K : m env ws (All (l ++ l')) _ _ |- _ => apply IH in K; destruct K as [[A ->]|(s2 & A & B)] end; [left; split; auto; eapply m_all; eauto|right; exists s2; split; auto; eapply m_all; eauto].
    + intros [[H ->]|(s1 & H & K)]; inversion H; subst.
      * now constructor.
      * eapply m_all; [eassumption|]. apply IH. left. auto.
      * eapply m_all; [eassumption|]. apply IH. right. eauto.
Qed.
Lemma any_app ws l l' s r : m env ws (Any (l ++ l')) s r <->
  (exists s1, m env ws (Any l) s (Some s1) /\ r = Some s1) \/ (m env ws (Any l) s None /\ m env ws (Any l') s r).
Proof.
  revert r. induction l as [|p l IH]; intros r; cbn [app].
  - split.
    + intros H. right. split; auto. constructor.
    + intros [(s1 & H & _)|[_ H]]; auto. inversion H.
  - split.
    + intros H. inversion H; subst.
      * left. eexists. split; eauto. now constructor.
      * match goal with K : m env ws (Any (l ++ l')) _ _ |- _ => apply IH in K; destruct K as [(s2 & A & ->)|[A B]] end; [left; exists s2; split; auto; now apply m_any_next|right; split; auto; now apply m_any_next].
    + intros [(s1 & H & ->)|[H K]]; inversion H; subst.
      * now constructor.
      * apply m_any_next; auto. apply IH. left. eauto.
      * apply m_any_next; auto. apply IH. right. auto.
Qed.

Lemma seq_ops ws p s r : m env ws (All (ops_seq p)) s r <-> m env ws (One p) s r.
Proof.
  assert (forall p, m env ws (All [p]) s r <-> m env ws (One p) s r) as H1.
  { intros q. split; intros H.
    - inversion H; subst; auto. match goal with K : m env ws _ _ r |- _ => inversion K; subst; auto end.
    - destruct r; [eapply m_all; [eassumption|constructor]|now constructor]. }
  destruct p; cbn [ops_seq]; auto. split; intros H; [now constructor|now inversion H].
Qed.
Lemma alt_ops ws p s r : m env ws (Any (ops_alt p)) s r <-> m env ws (One p) s r.
Proof.
  assert (forall p, m env ws (Any [p]) s r <-> m env ws (One p) s r) as H1.
  { intros q. split; intros H.
    - inversion H; subst; auto. match goal with K : m env ws _ _ r |- _ => inversion K; subst; auto end.
    - destruct r; [now constructor|apply m_any_next; [assumption|constructor]]. }
  destruct p; cbn [ops_alt]; auto. split; intros H; [now constructor|now inversion H].
Qed.

Lemma means_seq ws p q A B : means ws p A -> means ws q B -> means ws (op_seq p q) (both A B).
Proof.
  intros HA HB s r. rewrite op_seq_ops.
  transitivity (m env ws (All (ops_seq p ++ ops_seq q)) s r).
  { split; intros H; [now inversion H|now constructor]. }
  rewrite all_app. unfold both. split; (intros [[H ->]|(s1 & H & K)]; [left|right; exists s1]).
  all: rewrite ?seq_ops in *; rewrite ?(HA _ _), ?(HB _ _) in *; auto.
Qed.
Lemma means_alt ws p q A B : means ws p A -> means ws q B -> means ws (op_alt p q) (first_of A B).
Proof.
  intros HA HB s r. rewrite op_alt_ops.
  transitivity (m env ws (Any (ops_alt p ++ ops_alt q)) s r).
  { split; intros H; [now inversion H|now constructor]. }
  rewrite any_app. unfold first_of. split; (intros [(s1 & H & ->)|[H K]]; [left; exists s1|right]).
  all: rewrite ?alt_ops in *; rewrite ?(HA _ _), ?(HB _ _) in *; auto.
Qed.

Lemma means_again ws p A lo hi : means ws p A -> forall n s r, m env ws (Times lo hi n p) s r <-> again A lo hi n s r.
Proof.
  intros HA n s r. split; intros H.
  - remember (Times lo hi n p) as g eqn:Eg. revert n Eg. induction H; intros n0 Eg; inversion Eg; subst.
    + apply again_stop. now apply HA.
    + apply again_full; auto. now apply HA.
    + eapply again_more; eauto. now apply HA.
  - induction H; [apply m_times_stop; now apply HA|apply m_times_full; auto; now apply HA|eapply m_times; eauto; now apply HA].
Qed.
Lemma means_repeat ws p A lo hi : means ws p A -> means ws (Repeat lo hi p) (again A lo hi 0).
Proof.
  intros HA s r. rewrite <- (means_again ws p A lo hi HA). split; intros H; [now inversion H|now constructor].
Qed.
Lemma means_so_on ws p q A B : means ws p A -> means ws q B -> forall s r, m env ws (More p q) s r <-> and_so_on A B s r.
Proof.
  intros HA HB s r. split; intros H.
  - remember (More p q) as g eqn:Eg. revert Eg. induction H; intros Eg; inversion Eg; subst.
    + apply so_end. now apply HB.
    + eapply so_trailing; [now apply HB; eauto|now apply HA].
    + eapply so_more; [apply HB; eauto|apply HA; eauto|auto].
  - induction H; [apply m_more_end; now apply HB|eapply m_more_trailing; [apply HB; eauto|now apply HA]|eapply m_more; [apply HB; eauto|apply HA; eauto|auto]].
Qed.
Lemma means_list ws p q A B : means ws p A -> means ws q B -> means ws (PList p q) (separated A B).
Proof.
  intros HA HB s r. unfold separated. split.
  - intros H. inversion H; subst; [left; split; auto; now apply HA|right]. exists s1. split; [now apply HA|]. apply (means_so_on ws p q A B HA HB). assumption.
  - intros [[H ->]|(s1 & H & K)]; [apply m_list_none; now apply HA|]. eapply m_list; [apply HA; eauto|]. apply (means_so_on ws p q A B HA HB). assumption.
Qed.
Lemma means_except ws p q A B : means ws p A -> means ws q B -> means ws (Except p q) (unless A B).
Proof.
  intros HA HB s r. unfold unless. split.
  - intros H. inversion H; subst; [left|right]; split; auto; try now apply HB. + eexists. apply HB. eassumption. + now apply HA.
  - intros [((s1 & H) & ->)|[H K]]; [eapply m_except; apply HB; eauto|apply m_except_no; [now apply HB|now apply HA]].
Qed.
Lemma means_not ws p A : means ws p A -> means ws (Not p) (here_unless A).
Proof.
  intros HA s r. unfold here_unless. split.
  - intros H. inversion H; subst; [left|right]; split; auto; try now apply HA. eexists. apply HA. eassumption.
  - intros [((s1 & H) & ->)|[H ->]]; [eapply m_not; apply HA; eauto|apply m_not_no; now apply HA].
Qed.
Lemma means_opt ws p A : means ws p A -> means ws (Opt p) (if_any A).
Proof.
  intros HA s r. unfold if_any. split.
  - intros H. inversion H; subst; [left; eexists; split; [apply HA; eassumption|reflexivity]|right; split; auto; now apply HA].
  - intros [(s1 & H & ->)|[H ->]]; [apply m_opt; now apply HA|apply m_opt_no; now apply HA].
Qed.
Lemma means_char ws cs : means ws (Char cs) (reads_char ws (in_set cs)).
Proof.
  intros s r. unfold reads_char. split.
  - intros H. inversion H; subst; [left; eauto|right; auto].
  - intros [(y & t & H & K & ->)|[H ->]]; [eapply m_char; eauto|now apply m_char_no].
Qed.
Lemma means_lit ws w : means ws (Lit w) (reads_text ws w).
Proof.
  intros s r. unfold reads_text. split.
  - intros H. inversion H; subst; [left; eauto|right; auto].
  - intros [(t & H & ->)|[H ->]]; [now apply m_lit|now apply m_lit_no].
Qed.
Lemma means_discard ws p A : means ws p A -> means ws (Discard p) A.
Proof. intros HA s r. rewrite <- (HA s r). split; intros H; [now inversion H|now constructor]. Qed.

Lemma binary_inv f x y z : binary f x y = Some z -> exists p q, make_pattern x = Some p /\ make_pattern y = Some q /\ z = ThPat (f p q).
Proof.
  unfold binary. destruct (is_pat x || is_pat y); [|discriminate]. destruct (make_pattern x), (make_pattern y); try discriminate.
  intros [= <-]. eauto.
Qed.
Lemma unary_inv f x z : unary f x = Some z -> exists p, make_pattern x = Some p /\ z = ThPat (f p).
Proof. destruct x; try discriminate. intros [= <-]. cbn. eauto. Qed.
Lemma wrapped_inv f x z : wrapped f x = Some z -> exists p, make_pattern x = Some p /\ z = ThPat (f p).
Proof. unfold wrapped. destruct (make_pattern x); [|discriminate]. intros [= <-]. eauto. Qed.

Fixpoint over_all (l : list pat) (s : list Z) : option (list Z) :=
  match l with [] => Some s | q :: l' => match over q s with Some t => over_all l' t | None => None end end.
Fixpoint over_any (l : list pat) (s : list Z) : option (list Z) :=
  match l with [] => None | q :: l' => match over q s with Some t => Some t | None => over_any l' s end end.
Lemma over_seq l s : over (Seq l) s = over_all l s.
Proof. cbn [over]. revert s. induction l as [|q l IH]; intros s; cbn [over_all]; auto; now destruct (over q s). Qed.
Lemma over_alt l s : over (Alt l) s = over_any l s.
Proof. cbn [over]. induction l as [|q l IH]; cbn [over_any]; auto. destruct (over q s); auto. Qed.
Lemma over_all_app l l' s : over_all (l ++ l') s = match over_all l s with Some t => over_all l' t | None => None end.
Proof. revert s. induction l as [|q l IH]; intros s; cbn [over_all app]; auto. destruct (over q s); auto. Qed.
Lemma over_any_app l l' s : over_any (l ++ l') s = match over_any l s with Some t => Some t | None => over_any l' s end.
Proof. induction l as [|q l IH]; cbn [over_any app]; auto. destruct (over q s); auto. Qed.
Lemma over_op_seq p q s : over (op_seq p q) s = match over p s with Some t => over q t | None => None end.
Proof.
  assert (forall p s, over p s = over_all (match p with Seq l => l | _ => [p] end) s) as E.
  { clear. intros p s. destruct p; cbn [over_all]; try (now destruct (over _ s)). apply over_seq. }
  assert (op_seq p q = Seq ((match p with Seq l => l | _ => [p] end) ++ (match q with Seq l => l | _ => [q] end))) as -> by (destruct p, q; reflexivity).
  rewrite over_seq, over_all_app, <- E. destruct (over p s); auto.
Qed.
Lemma over_op_alt p q s : over (op_alt p q) s = match over p s with Some t => Some t | None => over q s end.
Proof.
  assert (forall p s, over p s = over_any (match p with Alt l => l | _ => [p] end) s) as E.
  { clear. intros p s. destruct p; cbn [over_any]; try (now destruct (over _ s)). apply over_alt. }
  assert (op_alt p q = Alt ((match p with Alt l => l | _ => [p] end) ++ (match q with Alt l => l | _ => [q] end))) as -> by (destruct p, q; reflexivity).
  rewrite over_alt, over_any_app, <- E. destruct (over p s); auto.
Qed.
Lemma over_repeat lo hi q s : over (Repeat lo hi q) s = as_often (over q) lo (S (length s)) 0 s.
Proof.
  rewrite over_rep. generalize (S (length s)) as f. intros f. generalize 0. revert s.
  induction f as [|f IH]; intros s n; cbn [over_times as_often]; auto. destruct (over q s); auto.
Qed.
Lemma as_often_ext A B lo f : (forall s, A s = B s) -> forall n s, as_often A lo f n s = as_often B lo f n s.
Proof. intros E. induction f as [|f IH]; intros n s; cbn [as_often]; auto. rewrite E. destruct (B s); auto. Qed.

Lemma over_passing k : forall x q, plain_skipper k = true -> value k = Some x -> make_pattern x = Some q -> forall s, over q s = passing k s.
Proof.
  induction k; intros x q Hs E Hp s0; cbn [value plain_skipper passing] in *; try discriminate; try (apply andb_prop in Hs as [H1 H2]); opened.
  all: try match goal with H : Some _ = Some _ |- _ => inversion H; clear H; subst end.
  - now inversion Hp.
  - now inversion Hp.
  - cbn in Hp. destruct (c_string mem) eqn:E1; inversion Hp; subst. reflexivity.
  - now inversion Hp.
  - match goal with H : binary _ _ _ = _ |- _ => apply binary_inv in H; destruct H as (p1 & p2 & A & B & ->) end. inversion Hp; subst. rewrite over_op_seq.
    erewrite IHk1 by eauto. destruct (passing k1 s0); eauto.
  - destruct (is_set _ || is_set _); [discriminate|].
    match goal with H : binary _ _ _ = _ |- _ => apply binary_inv in H; destruct H as (p1 & p2 & A & B & ->) end. inversion Hp; subst. rewrite over_op_alt.
    erewrite IHk1 by eauto. destruct (passing k1 s0); eauto.
  - match goal with H : binary _ _ _ = _ |- _ => apply binary_inv in H; destruct H as (p1 & p2 & A & B & ->) end. inversion Hp; subst. cbn [over].
    erewrite IHk2 by eauto. destruct (passing k2 s0); eauto.
  - match goal with H : unary _ _ = _ |- _ => apply unary_inv in H; destruct H as (p1 & A & ->) end. inversion Hp; subst. rewrite over_repeat. apply as_often_ext. eauto.
  - match goal with H : unary _ _ = _ |- _ => apply unary_inv in H; destruct H as (p1 & A & ->) end. inversion Hp; subst. rewrite over_repeat. apply as_often_ext. eauto.
  - match goal with H : wrapped _ _ = _ |- _ => apply wrapped_inv in H; destruct H as (p1 & A & ->) end. inversion Hp; subst. rewrite over_repeat. apply as_often_ext. eauto.
  - match goal with H : wrapped _ _ = _ |- _ => apply wrapped_inv in H; destruct H as (p1 & A & ->) end. inversion Hp; subst. cbn [over]. eauto.
  - match goal with H : wrapped _ _ = _ |- _ => apply wrapped_inv in H; destruct H as (p1 & A & ->) end. inversion Hp; subst. cbn [over]. eauto.
Qed.
Lemma blanks_passes k x q : plain_skipper k = true -> value k = Some x -> make_pattern x = Some q -> forall s, passes q s = blanks k s.
Proof. intros Hs E Hp s. unfold passes, blanks. now rewrite (over_passing k x q Hs E Hp). Qed.
Lemma m_ext_all ws ws' g s r : m env ws g s r -> (forall z, ws z = ws' z) -> m env ws' g s r.
Proof. intros H E. apply (m_ext_on env (fun _ => True) _ _ _ _ H ws'); auto. apply Forall_forall. auto. Qed.

Theorem meaning e : forall ws x p, plain_skippers e = true -> value e = Some x -> make_pattern x = Some p -> means ws p (written env ws e).
Proof.
  induction e; intros ws x p0 Hs E Hp; cbn [value plain_skippers written] in *; try rewrite andb_true_iff in Hs; opened.
  all: try match goal with H : Some _ = Some _ |- _ => inversion H; clear H; subst end.
  - inversion Hp; subst. intros s r. reflexivity.
  - inversion Hp; subst. apply means_discard. apply means_char.
  - cbn in Hp. destruct (c_string mem) eqn:E1; inversion Hp; subst. apply means_lit.
  - inversion Hp; subst. apply means_char.
  - apply binary_inv in H1. destruct H1 as (p & q & A & B & ->). inversion Hp; subst. destruct Hs. apply means_seq; eauto.
  - destruct (is_set _ || is_set _); [discriminate|]. apply binary_inv in H1. destruct H1 as (p & q & A & B & ->). inversion Hp; subst. destruct Hs. apply means_alt; eauto.
  - apply binary_inv in H1. destruct H1 as (p & q & A & B & ->). inversion Hp; subst. destruct Hs. apply means_list; eauto.
  - apply binary_inv in H1. destruct H1 as (p & q & A & B & ->). inversion Hp; subst. destruct Hs. apply means_except; eauto.
  - apply unary_inv in H0. destruct H0 as (p & A & ->). inversion Hp; subst. apply means_repeat; eauto.
  - apply unary_inv in H0. destruct H0 as (p & A & ->). inversion Hp; subst. apply means_repeat; eauto.
  - apply unary_inv in H0. destruct H0 as (p & A & ->). inversion Hp; subst. apply means_opt; eauto.
  - apply unary_inv in H0. destruct H0 as (p & A & ->). inversion Hp; subst. apply means_not; eauto.
  - apply wrapped_inv in H0. destruct H0 as (p & A & ->). inversion Hp; subst. apply means_repeat; eauto.
  - apply wrapped_inv in H0. destruct H0 as (p & A & ->). inversion Hp; subst. apply means_discard; eauto.
  - apply wrapped_inv in H0. destruct H0 as (p & A & ->). inversion Hp; subst. intros s r.
    rewrite <- (IHe nows _ _ Hs H A _ r). split; intros K; [now inversion K|now constructor].
  - apply wrapped_inv in H0. destruct H0 as (p & A & ->). inversion Hp; subst. intros s r.
    rewrite <- (IHe ws _ _ Hs H A _ r). split; intros K; [now inversion K|now constructor].
  - destruct x0 as [p| | |]; try discriminate. destruct x1 as [sp| | |]; try discriminate. inversion H1; clear H1; subst.
    pose proof (blanks_passes _ _ _ (proj1 Hs) H0 eq_refl) as HB.
    inversion Hp; subst. intros s r. rewrite <- (IHe1 (blanks e2) (ThPat p) p (proj2 Hs) ltac:(auto) eq_refl _ r).
    split; intros K; [inversion K; subst|constructor]; eapply m_ext_all; eauto.
  - apply unary_inv in H0. destruct H0 as (p & A & ->). inversion Hp; subst. intros s r.
    rewrite <- (IHe ws _ _ Hs H A _ r). split; intros K; [now inversion K|now constructor].
  - apply unary_inv in H0. destruct H0 as (p & A & ->). inversion Hp; subst. intros s r.
    rewrite <- (IHe ws _ _ Hs H A _ r). split; intros K; [now inversion K|now constructor].
Qed.
End Meaning.

(** ** parse() *)
From Verif Require Import Leaf PegSound Run Comb LangRun SpecLang.

Lemma pattern_means env e p : pattern_of e = Some p -> plain_skippers e = true -> forall ws, means env ws p (written env ws e).
Proof.
  unfold pattern_of. destruct (value e) as [x|] eqn:E; [|discriminate]. destruct x; try discriminate. intros [= ->] Hs ws.
  eapply meaning; eauto.
Qed.

Lemma expr_parse T env e p inp : pattern_of e = Some p -> plain_skippers e = true ->
  known T env -> inclass T false p = true -> Forall (tok T) inp ->
  (forall n t v r w, parse env n t v p inp = Done (r, w) ->
     match r with
     | SUCCESS => written env nows e inp (Some (left_at w))
     | FAILURE => written env nows e inp None
     | PARTIAL => False
     end) /\
  (forall r, written env nows e inp r -> obeys env p inp r).
Proof.
  intros He Hs Hk Hc Ht. destruct (grammar T env p inp Hk Hc Ht) as [G1 G2]. pose proof (pattern_means env e p He Hs nows) as M. split.
  - intros n t v r w H. specialize (G1 n t v r w H). destruct r; auto; now apply M.
  - intros r H. apply G2. now apply M.
Qed.

Lemma expr_parse_sk T env e p inp skp ws : pattern_of e = Some p -> plain_skippers e = true ->
  known T env -> inclass T true p = true -> Forall (tok T) inp ->
  skipper T skp = true -> (forall s, Forall (tok T) s -> ws s = passes skp s) ->
  (forall n t v r w, parse env n t v (WithSkipper p skp) inp = Done (r, w) ->
     match r with
     | SUCCESS => exists s, written env ws e inp (Some s) /\ trim ws (left_at w) = trim ws s
     | FAILURE => written env ws e inp None
     | PARTIAL => False
     end) /\
  (forall r, written env ws e inp r -> obeys_upto ws env (WithSkipper p skp) inp r).
Proof.
  intros He Hs Hk Hc Ht Hf Hw. destruct (grammar_skipping T env p inp skp ws Hk Hc Ht Hf Hw) as [G1 G2]. pose proof (pattern_means env e p He Hs ws) as M. split.
  - intros n t v r w H. specialize (G1 n t v r w H). destruct r; auto; [|now apply M]. destruct G1 as (s & A & B). exists s. split; auto. now apply M.
  - intros r H. apply G2. now apply M.
Qed.

Lemma expr_pieces T env e p l r : pattern_of e = Some p -> plain_skippers e = true ->
  known T env -> inclass T false p = true -> complete l -> Forall (tok T) (fed l) ->
  written env nows e (fed l) r -> session_obeys env p l (verdict r).
Proof.
  intros He Hs Hk Hc Hl Ht H. apply obeys_pieces; auto. exact (proj2 (expr_parse T env e p (fed l) He Hs Hk Hc Ht) r H).
Qed.
Lemma expr_pieces_sk T env e p l r skp ws : pattern_of e = Some p -> plain_skippers e = true ->
  known T env -> inclass T true p = true -> complete l -> Forall (tok T) (fed l) ->
  skipper T skp = true -> (forall s, Forall (tok T) s -> ws s = passes skp s) ->
  written env ws e (fed l) r -> session_obeys env (WithSkipper p skp) l (verdict r).
Proof.
  intros He Hs Hk Hc Hl Ht Hf Hw H. apply (obeys_upto_pieces ws); auto. exact (proj2 (expr_parse_sk T env e p (fed l) skp ws He Hs Hk Hc Ht Hf Hw) r H).
Qed.
