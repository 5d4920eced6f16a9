(** C67: how many marks a waiting parser has pending. *)
From Coq Require Import List ZArith Bool Arith Lia.
From Verif Require Import Base CharSet Source Dst Pattern Parser Session Rel Safety Big SessionThms SpecMarks MarkCount SpecSession.
Import ListNotations.

Section Bound.
Context {S : Type} (ops : source_ops S) (env : nat -> option pat).

(** The objects the parser of [p] can be: at most one skip adapter, a clean adapter only where
    it is asked for. *)
Inductive ib : bool -> pat -> bool -> pat -> pst -> Prop :=
| ib_skip sk b p (done : bool) s a : is_fail sk = false -> (done = false -> ib true Fail true sk s) -> ib false sk b p a ->
    ib true sk b p (PSkip done s a)
| ib_clean top sk p a : f_clean p = false -> ib false sk false p a -> ib top sk true p (PClean a)
| ib_atomic top sk b p v a : ib false sk b p a -> ib top sk b p (PAtomic v a)
| ib_sym top sk b m nx v : ib top sk b (Symbol m) (PSym nx v)
| ib_seq top sk b l i q a : nth_error l i = Some q -> ib true sk false q a -> ib top sk b (Seq l) (PNary i a)
| ib_alt top sk b l i q a : nth_error l i = Some q -> ib true sk true q a -> ib top sk b (Alt l) (PNary i a)
| ib_repeat top sk b lo hi q n a : ib true sk (negb (lo =? hi) || (hi =? 0)) q a -> ib top sk b (Repeat lo hi q) (PRepeat n a)
| ib_not top sk b q a : ib true sk false q a -> ib top sk b (Not q) (PNot a)
| ib_opt top sk b q a : ib true sk false q a -> ib top sk b (Opt q) (POpt a)
| ib_discard top sk b q a : ib true sk b q a -> ib top sk b (Discard q) (POne a)
| ib_lexeme top sk b q a : ib true Fail b q a -> ib top sk b (Lexeme q) (POne a)
| ib_skipper top sk b q s a : (b = true -> f_clean q = true) -> ib true s b q a -> ib top sk b (WithSkipper q s) (POne a)
| ib_bind top sk b q a : ib true sk b q a -> ib top sk b (BindDst q) (POne a)
| ib_construct top sk b args q v a : ib true sk b q a -> ib top sk b (Construct args q) (PConstruct v a)
| ib_act top sk b act q v a : ib true sk b q a -> ib top sk b (Act act q) (PAction v a)
| ib_except0 top sk b q neg a : ib true sk true neg a -> ib top sk b (Except q neg) (PExcept 0 a)
| ib_except1 top sk b q neg a : ib true sk false q a -> ib top sk b (Except q neg) (PExcept 1 a)
| ib_list0 top sk b q sep a : ib true sk false q a -> ib top sk b (PList q sep) (PListSt 0 a)
| ib_list1 top sk b q sep a : ib true sk false sep a -> ib top sk b (PList q sep) (PListSt 1 a)
| ib_recur0 top sk b id x : ib top sk b (Recur id x) (PRecur None)
| ib_recur1 top sk b id x q a : env id = Some q -> ib true sk false q a -> ib top sk b (Recur id x) (PRecur (Some a))
| ib_flat top sk b p st : match st with PLeaf | PLit _ | PUInt _ | PInt _ _ _ => True | _ => False end -> match p with Char _ | CharSymbol _ | Eoi | Pass | Fail | Lit _ | UInt _ _ _ | Int _ _ _ => True | _ => False end ->
    ib top sk b p st.
Hint Constructors ib : ib.

(** ** The bound *)
Lemma returns_eq p : returns p = f_clean p.
Proof. induction p using pat_ind'; cbn; auto. Qed.

Lemma max_in {A} (f : A -> nat) l i q : nth_error l i = Some q -> f q <= list_max (map f l).
Proof.
  revert i. induction l as [|x l IH]; intros [|i]; cbn; try discriminate.
  - intros E. inversion E; subst. apply Nat.le_max_l.
  - intros E. specialize (IH _ E). etransitivity; [exact IH|]. apply Nat.le_max_r.
Qed.

Lemma skipn_nth {A} (l : list A) : forall i q rest, skipn i l = q :: rest -> nth_error l i = Some q /\ skipn (Datatypes.S i) l = rest.
Proof.
  induction l as [|x l IH]; intros [|i] q rest E; cbn in *; try discriminate; [inversion E; now split|]. destruct (IH _ _ _ E); now split.
Qed.

Section R.
Context (R : nat -> nat -> nat).
Hypothesis HR : bounded R env.
Definition hs (sk : pat) : nat := match sk with Fail => 0 | _ => marks R 0 true sk end.

Lemma marks_clean h p : f_clean p = false -> marks R h true p = Datatypes.S (marks R h false p).
Proof. rewrite <- returns_eq. destruct p; cbn; try discriminate; intros H; rewrite ?H; cbn; lia. Qed.

Lemma ib_bound top sk b p st : ib top sk b p st -> owed st + (if top then 0 else hs sk) <= marks R (hs sk) b p.
Proof.
  induction 1; cbn [owed marks] in *; rewrite ?Nat.add_0_r in *;
    try (rewrite ?andb_false_r, ?andb_true_r; cbn [negb returns]; rewrite ?andb_false_r, ?andb_true_r; destruct top; lia).
  - (* skip *) destruct done; [lia|]. specialize (H1 eq_refl). change (hs Fail) with 0 in H1. assert (hs sk = marks R 0 true sk) as Hk by (destruct sk; cbn in H; try discriminate; reflexivity). lia.
  - (* clean *) rewrite marks_clean by auto. destruct top; lia.
  - (* symbol *) destruct v, top; cbn; lia.
  - (* seq *) pose proof (max_in (marks R (hs sk) false) _ _ _ H). destruct top; cbn; lia.
  - (* alt *) pose proof (max_in (marks R (hs sk) true) _ _ _ H). destruct top; cbn; lia.
  - (* lexeme *) change (hs Fail) with 0 in IHib. cbn [returns]. rewrite andb_true_r, andb_false_r. destruct top; lia.
  - (* with skipper *) change (match s with Fail => 0 | _ => marks R 0 true s end) with (hs s).
    replace (b && returns (WithSkipper q s)) with b; [destruct top; lia|].
    cbn. rewrite returns_eq. destruct b; auto. cbn. now rewrite H.
  - (* recur *) pose proof (HR _ _ (hs sk) H). destruct top; cbn; lia.
  - (* flat *) replace (owed st) with 0 by (destruct st; try contradiction; reflexivity). destruct p; try contradiction; cbn [marks]; destruct top; cbn; lia.
Qed.
End R.

(** ** Creation and consume *)
Notation world := (Parser.world S).
Definition yields {A} (f : M S A) (P : A -> Prop) : Prop := forall w x w', f w = Done (x, w') -> P x.
Lemma y_ret {A} (x : A) (P : A -> Prop) : P x -> yields (ret x) P.
Proof. intros H w y w' E. inversion E; now subst. Qed.
Lemma y_raise {A} e (P : A -> Prop) : yields (raise e) P.
Proof. intros w y w' E. discriminate. Qed.
Lemma y_bind {A B} (f : M S A) (g : A -> M S B) P Q : yields f P -> (forall x, P x -> yields (g x) Q) -> yields (bind f g) Q.
Proof.
  intros Hf Hg w y w' E. unfold bind in E. destruct (f w) as [[x w1]|] eqn:E1; [|discriminate]. exact (Hg _ (Hf _ _ _ E1) _ _ _ E).
Qed.
Lemma y_any {A B} (f : M S A) (g : A -> M S B) Q : (forall x, yields (g x) Q) -> yields (bind f g) Q.
Proof. intros Hg. apply y_bind with (P := fun _ => True); auto. intros w x w' E. exact I. Qed.
Lemma y_cell {A} v (f : nat -> M S A) (P : A -> Prop) : (forall l, yields (f l) P) -> yields (with_cell v f) (fun x => P (fst x)).
Proof.
  intros H w x w' E. unfold with_cell in E. destruct (f _ _) as [[y w1]|] eqn:E1; [|discriminate].
  destruct (nth_error _ _); inversion E; subst. exact (H _ _ _ _ E1).
Qed.

Definition mk_for (k : option (M S pst)) (sk : pat) : Prop :=
  match k with None => is_fail sk = true | Some mk => is_fail sk = false /\ yields mk (ib true Fail true sk) end.

Lemma ib_top sk b p st : ib false sk b p st -> ib true sk b p st.
Proof. intros H. inversion H; subst; eauto with ib. Qed.

Definition wf (rq : req) : Prop := r_recur rq = true -> r_clean rq = false.

Lemma y_adapt k sk rq d p raw : mk_for k sk -> wf rq ->
  (forall rq' d', (r_clean rq' = true -> f_clean p = true) -> wf rq' -> yields (raw rq' d') (ib false sk (r_clean rq') p)) ->
  yields (adapt ops k rq d p raw) (ib true sk (r_clean rq) p).
Proof.
  intros Hk Hw Hr. unfold adapt. destruct (r_recur rq) eqn:Er.
  { intros w x w' E. apply ib_top. eapply Hr; eauto. rewrite (Hw Er). discriminate. }
  assert (forall rq0, (r_clean rq0 = true -> f_clean p = true) -> wf rq0 -> yields (if r_atomic rq0 && negb (f_atomic p)
      then bind (with_cell (default_init (dst_value_ty d)) (fun lvl => raw (unatomic_req rq0) (dst_cell lvl (dst_value_ty d)))) (fun x => ret (PAtomic (snd x) (fst x)))
      else raw rq0 d) (ib false sk (r_clean rq0) p)) as HA.
  { intros rq0 H1 H2. destruct (_ && _); [|now apply Hr]. eapply y_bind; [apply y_cell; intros; apply Hr; auto; discriminate|].
    intros [x v] Hx. apply y_ret. now constructor. }
  assert (yields (if r_clean rq && negb (f_clean p)
     then bind (if r_atomic (unclean_req rq) && negb (f_atomic p)
      then bind (with_cell (default_init (dst_value_ty d)) (fun lvl => raw (unatomic_req (unclean_req rq)) (dst_cell lvl (dst_value_ty d)))) (fun x => ret (PAtomic (snd x) (fst x)))
      else raw (unclean_req rq) d) (fun c => bind (m_prepare ops) (fun _ => ret (PClean c)))
     else if r_atomic rq && negb (f_atomic p)
      then bind (with_cell (default_init (dst_value_ty d)) (fun lvl => raw (unatomic_req rq) (dst_cell lvl (dst_value_ty d)))) (fun x => ret (PAtomic (snd x) (fst x)))
      else raw rq d) (ib false sk (r_clean rq) p)) as HC.
  { destruct (r_clean rq && negb (f_clean p)) eqn:Ec.
    - apply andb_prop in Ec as [E1 E2]. apply negb_true_iff in E2. rewrite E1.
      eapply y_bind; [apply HA; discriminate|]. intros x Hx. apply y_any. intros _. apply y_ret. now constructor.
    - apply HA; auto. intros E. rewrite E in Ec. cbn in Ec. now destruct (f_clean p). }
  destruct k as [mk|]; cbn [mk_for] in Hk.
  - destruct Hk as [Hk1 Hk2]. eapply y_bind; [exact Hk2|]. intros s Hs. eapply y_bind; [exact HC|]. intros a Ha. apply y_ret. now constructor.
  - intros w x w' E. apply ib_top. eapply HC; eauto.
Qed.

Lemma y_create_in p : forall k sk rq d, mk_for k sk -> wf rq -> yields (create_in ops k rq d p) (ib true sk (r_clean rq) p).
Proof.
  induction p using pat_ind'; intros k sk rq0 d0 Hk Hw; cbn [create_in]; apply y_adapt; auto; intros rq d Hc Hw';
    try (apply y_ret; apply ib_flat; cbn; auto; fail); try (apply y_ret; eauto with ib; fail);
    try (eapply y_bind; [eauto|]; intros x Hx; repeat (apply y_any; intros _); apply y_ret; eauto with ib; fail).
  - destruct (r_consumes rq); [apply y_raise|apply y_ret; apply ib_flat; cbn; auto].
  - apply y_any. intros _. apply y_ret. apply ib_flat; cbn; auto.
  - apply y_any. intros _. apply y_ret. apply ib_flat; cbn; auto.
  - destruct l as [|q l]; [apply y_raise|]. inversion H; subst. destruct (seq_dst _ _ _); [|apply y_raise].
    eapply y_bind; [eapply H2; eauto; discriminate|]. intros x Hx. apply y_ret. eapply ib_seq; [reflexivity|exact Hx].
  - destruct l as [|q l]; [apply y_raise|]. inversion H; subst.
    eapply y_bind; [eapply H2; eauto; discriminate|]. intros x Hx. apply y_ret. eapply ib_alt; [reflexivity|exact Hx].
  - destruct (_ && _); [apply y_raise|]. eapply y_bind; [eapply IHp; eauto; discriminate|]. intros x Hx. apply y_ret. now apply ib_repeat.
  - eapply y_bind; [eapply IHp; eauto; discriminate|]. intros x Hx. apply y_any. intros _. apply y_ret. now apply ib_not.
  - eapply y_bind; [eapply IHp; eauto; discriminate|]. intros x Hx. apply y_any. intros _. apply y_ret. now apply ib_opt.
  - eapply y_bind; [apply (IHp None Fail); auto; reflexivity|]. intros x Hx. apply y_ret. now apply ib_lexeme.
  - eapply y_bind; [apply (IHp1 _ p2); auto|].
    + destruct (is_fail p2) eqn:Ef; cbn; auto. split; auto. apply (IHp2 None Fail skip_req); [reflexivity|discriminate].
    + intros x Hx. apply y_ret. now apply ib_skipper.
  - eapply y_bind; [eapply IHp; eauto; discriminate|]. intros x Hx. apply y_ret. now apply ib_bind.
  - eapply y_bind; [apply y_cell; intros; eapply IHp; eauto; discriminate|]. intros [x v] Hx. apply y_ret. now apply ib_construct.
  - eapply y_bind; [apply y_cell; intros; eapply IHp; eauto; discriminate|]. intros [x v] Hx. apply y_ret. now apply ib_act.
  - eapply y_bind; [eapply IHp2; eauto; discriminate|]. intros x Hx. apply y_ret. now apply ib_except0.
  - eapply y_bind; [eapply IHp1; eauto; discriminate|]. intros x Hx. apply y_any. intros _. apply y_ret. now apply ib_list0.
Qed.

Lemma y_create c rq d p : wf rq -> yields (create ops c rq d p) (ib true (c_skip c) (r_clean rq) p).
Proof.
  intros Hw. apply y_create_in; auto. unfold mk_skip_of. destruct (is_fail (c_skip c)) eqn:E; cbn; auto.
  split; auto. apply y_create_in; [reflexivity|discriminate].
Qed.

Definition still_in top sk b p (x : result * pst) : Prop := fst x = PARTIAL -> ib top sk b p (snd x).
Definition iself (self : @consume_ty S) : Prop := forall c rq d p st top, wf rq -> ib top (c_skip c) (r_clean rq) p st ->
  yields (self c rq d p st) (still_in top (c_skip c) (r_clean rq) p).

Section Step.
Variable self : @consume_ty S.
Hypothesis IH : iself self.

Lemma y_self {B} c rq d p st top (g : result * pst -> M S B) Q : wf rq -> ib top (c_skip c) (r_clean rq) p st ->
  (forall r a, (r = PARTIAL -> ib top (c_skip c) (r_clean rq) p a) -> yields (g (r, a)) Q) -> yields (bind (self c rq d p st) g) Q.
Proof. intros Hw Hi Hg. eapply y_bind; [eapply IH; eauto|]. intros [r a] Hx. now apply Hg. Qed.
Lemma y_make {B} c rq d p (g : pst -> M S B) Q : wf rq ->
  (forall a, ib true (c_skip c) (r_clean rq) p a -> yields (g a) Q) -> yields (bind (create ops c rq d p) g) Q.
Proof. intros Hw Hg. eapply y_bind; [apply y_create; auto|]. exact Hg. Qed.

Ltac no := apply y_ret; intros ?E; discriminate.
Ltac keep := apply y_ret; intros _; cbn [fst snd].

Lemma y_starved st top sk b p : ib top sk b p st -> yields (starved ops st) (still_in top sk b p).
Proof. intros H. unfold starved. apply y_any. intros f. apply y_ret. intros _. exact H. Qed.

Lemma step_in c rq d p st top : wf rq -> ib top (c_skip c) (r_clean rq) p st ->
  yields (consume_step ops env self c rq d p st) (still_in top (c_skip c) (r_clean rq) p).
Proof.
  intros Hw Hi. inversion Hi; subst; cbn [consume_step].
  - (* skip *) unfold skip_consume. destruct done.
    + eapply y_self; eauto. intros r x Hx. apply y_ret. intros E. cbn in *. constructor; auto; discriminate.
    + eapply (y_self skip_ctx skip_req); [discriminate|eauto|]. intros r x Hx. cbn [fst snd]. destruct r.
      * apply y_make; [discriminate|]. intros s' Hs. apply IH; auto. constructor; auto.
      * apply IH; auto. constructor; auto; discriminate.
      * keep. constructor; auto.
  - (* clean *) unfold clean_consume. eapply (y_self c (unclean_req rq)); [discriminate|cbn; eauto|]. intros r x Hx. cbn [fst snd].
    destruct r; [apply y_any; intros _; no..|]. keep. constructor; auto.
  - (* atomic *) unfold atomic_consume. eapply y_bind; [apply y_cell; intros; apply (IH c (unatomic_req rq)); [discriminate|cbn; eauto]|].
    intros [[r x] v1] Hx. cbn [fst] in Hx. destruct r; [apply y_any; intros _; no|no|]. keep. constructor. now apply Hx.
  - (* symbol *) unfold sym_consume.
    assert (forall n x, yields (sym_stop ops d n x) (still_in top (c_skip c) (r_clean rq) (Symbol m))) as HS.
    { intros. unfold sym_stop. destruct x; [|no]. destruct (sym_value _); [|apply y_raise]. do 2 (apply y_any; intros _). no. }
    apply y_any. intros e. destruct e.
    { apply y_any. intros f. destruct f; [apply HS|keep; apply ib_sym]. }
    apply y_any. intros z. destruct (assoc z _) as [n|]; [|apply HS].
    apply y_any. intros _. destruct (trie_val n); [|apply IH; auto; apply ib_sym].
    apply y_any. intros _. destruct (trie_child n); [apply y_any; intros _; no|]. apply y_any. intros _. apply IH; auto; apply ib_sym.
  - (* seq *) unfold nary_enter. destruct (_ && _); [apply y_raise|]. destruct (skipn i l) as [|q' rest] eqn:El; [apply y_raise|].
    destruct (skipn_nth _ _ _ _ El) as [En Er]. assert (q' = q) as -> by congruence. clear Hi El.
    match goal with H : ib true _ _ q a |- _ => rename H into Ha0 end. match goal with H : nth_error l i = Some q |- _ => clear H end. try match goal with H : nth_error l i = Some q |- _ => rename H into En end.
    revert q a i En Er Ha0. induction rest as [|q' rest IHr]; intros q a i En Er Ha; cbn [seq_from].
    + destruct (seq_dst _ _ _); [|apply y_raise]. eapply (y_self c seq_req); [discriminate|eauto|]. intros r x Hx. cbn [fst snd].
      destruct r; [no..|]. keep. eapply ib_seq; eauto.
    + destruct (seq_dst _ _ _); [|apply y_raise]. eapply (y_self c seq_req); [discriminate|eauto|]. intros r x Hx. cbn [fst snd].
      destruct r; [|no|keep; eapply ib_seq; eauto].
      destruct (seq_dst _ _ _); [|apply y_raise]. apply y_make; [discriminate|]. intros a' Ha'. destruct (skipn_nth _ _ _ _ Er) as [En' Er']. apply IHr; auto.
  - (* alt *) unfold nary_enter. destruct (_ && _); [apply y_raise|]. destruct (skipn i l) as [|q' rest] eqn:El; [apply y_raise|].
    destruct (skipn_nth _ _ _ _ El) as [En Er]. assert (q' = q) as -> by congruence. clear Hi El.
    match goal with H : ib true _ _ q a |- _ => rename H into Ha0 end. match goal with H : nth_error l i = Some q |- _ => clear H end. try match goal with H : nth_error l i = Some q |- _ => rename H into En end.
    revert q a i En Er Ha0. induction rest as [|q' rest IHr]; intros q a i En Er Ha; cbn [alt_from].
    + eapply (y_self c (alt_req rq)); [discriminate|eauto|]. intros r x Hx. cbn [fst snd].
      destruct r; [no..|]. keep. eapply ib_alt; eauto.
    + eapply (y_self c (alt_req rq)); [discriminate|eauto|]. intros r x Hx. cbn [fst snd].
      destruct r; [no| |keep; eapply ib_alt; eauto].
      apply y_make; [discriminate|]. intros a' Ha'. destruct (skipn_nth _ _ _ _ Er) as [En' Er']. apply IHr; auto.
  - (* repeat *) unfold repeat_consume. eapply (y_self c (repeat_req lo hi rq)); [discriminate|eauto|]. intros r x Hx. cbn [fst snd].
    destruct r; [|apply y_ret; destruct (_ <=? _); intros ?E; discriminate|keep; constructor; now apply Hx].
    cbv zeta. destruct (_ && _); [no|]. apply y_make; [discriminate|]. intros a' Ha. apply IH; [auto|now constructor].
  - (* not *) unfold not_consume. eapply (y_self c (not_req rq)); [discriminate|eauto|]. intros r x Hx. cbn [fst snd].
    destruct r; [apply y_any; intros _; no..|]. keep. constructor. now apply Hx.
  - (* opt *) unfold opt_consume. eapply (y_self c (opt_req rq)); [discriminate|eauto|]. intros r x Hx. cbn [fst snd].
    destruct r; [no|apply y_any; intros _; no|]. keep. constructor. now apply Hx.
  - (* discard *) unfold forward_consume. eapply y_self; eauto. intros r x Hx. apply y_ret. intros E. constructor. now apply Hx.
  - (* lexeme *) unfold forward_consume. eapply (y_self (Ctx Fail (c_bound c))); eauto. intros r x Hx. apply y_ret. intros E. constructor. now apply Hx.
  - (* skipper *) unfold forward_consume. eapply (y_self (Ctx s (c_bound c))); eauto. intros r x Hx. apply y_ret. intros E. constructor; auto.
  - (* bind *) unfold forward_consume. eapply (y_self (Ctx (c_skip c) d) (unatomic_req rq)); [discriminate|eauto|]. intros r x Hx. apply y_ret. intros E. constructor. now apply Hx.
  - (* construct *) unfold construct_consume. eapply y_bind; [apply y_cell; intros; apply (IH c (unatomic_req rq)); [discriminate|cbn; eauto]|].
    intros [[r x] v1] Hx. cbn [fst] in Hx. destruct r; [destruct (make_from _ _); [apply y_any; intros _; no|apply y_raise]|no|]. keep. constructor. now apply Hx.
  - (* act *) unfold action_consume. eapply y_bind; [apply y_cell; intros; apply (IH c (action_req rq)); [discriminate|cbn; eauto]|].
    intros [[r x] v1] Hx. cbn [fst] in Hx. destruct r; [apply y_any; intros _; no|no|]. keep. constructor. now apply Hx.
  - (* except *) cbn [except_consume]. eapply (y_self c neg_req); [discriminate|eauto|]. intros r x Hx. cbn [fst snd]. destruct r; [no| |keep; constructor; now apply Hx].
    apply y_make; [discriminate|]. intros a' Ha. eapply (y_self c (except_req rq)); [discriminate|eauto|]. intros r y Hy. apply y_ret. intros E. constructor. now apply Hy.
  - cbn [except_consume]. eapply (y_self c (except_req rq)); [discriminate|eauto|]. intros r y Hy. apply y_ret. intros E. constructor. now apply Hy.
  - (* list *) cbn [list_consume]. eapply (y_self c list_req); [discriminate|eauto|]. intros r x Hx. cbn [fst snd]. destruct r.
    + do 2 (apply y_any; intros _). apply y_make; [discriminate|]. intros a' Ha. apply IH; [auto|now constructor].
    + apply y_any; intros _. no.
    + keep. constructor. now apply Hx.
  - cbn [list_consume]. eapply (y_self c sep_req); [discriminate|eauto|]. intros r x Hx. cbn [fst snd]. destruct r.
    + apply y_make; [discriminate|]. intros a' Ha. apply IH; [auto|now constructor].
    + apply y_any; intros _. no.
    + keep. constructor. now apply Hx.
  - (* recur *) unfold recur_consume. destruct (env id) as [q|] eqn:Eq; [|apply y_raise]. apply y_make; [intros _; reflexivity|]. intros a' Ha.
    eapply (y_self c recur_req); [intros _; reflexivity|eauto|]. intros r y Hy. apply y_ret. intros E. econstructor; eauto.
  - unfold recur_consume. rewrite H. apply y_bind with (P := fun b => ib true (c_skip c) false q b); [now apply y_ret|]. intros a' Ha.
    eapply (y_self c recur_req); [intros _; reflexivity|eauto|]. intros r y Hy. apply y_ret. intros E. econstructor; eauto.
  - (* flat *)
    assert (forall q, p = q -> forall st', match st' with PLeaf | PLit _ | PUInt _ | PInt _ _ _ => True | _ => False end -> ib top (c_skip c) (r_clean rq) q st') as HF.
    { intros q <- st' Hs. now apply ib_flat. }
    destruct p; try contradiction; destruct st; try contradiction; cbn [consume_step]; try apply y_raise; try no; specialize (HF _ eq_refl).
    + unfold char_consume. apply y_any. intros e. destruct e; [apply y_starved; now apply HF|]. apply y_any. intros z.
      destruct (is_valid _ _); [|no]. do 2 (apply y_any; intros _). no.
    + unfold char_symbol_consume. apply y_any. intros e. destruct e; [apply y_starved; now apply HF|]. apply y_any. intros z.
      destruct (assoc _ _); [|no]. apply y_any; intros _. no.
    + unfold eoi_consume. apply y_any. intros e. destruct e; [|no]. apply y_any. intros f. apply y_ret. intros _. now apply HF.
    + unfold lit_consume. destruct rest; [no|]. apply y_any. intros e. destruct e; [apply y_starved; now apply HF|]. apply y_any. intros z'.
      destruct (_ =? _)%Z; [|no]. apply y_any. intros _. apply IH; [auto|now apply HF].
    + unfold uint_consume. apply y_any. intros e. destruct e.
      { apply y_any. intros f. apply y_ret. intros _. now apply HF. }
      apply y_any. intros z. destruct (digit_valid _ z); [|apply y_ret; intros _; now apply HF].
      do 3 (apply y_any; intros _). cbv zeta. destruct (_ =? _)%Z; [no|]. apply IH; [auto|now apply HF].
    + unfold int_consume.
      assert (forall lk ng z, yields (int_digit ops self c rq d (Int base dmin dmax) base dmin dmax count lk ng z) (still_in top (c_skip c) (r_clean rq) (Int base dmin dmax))) as HG.
      { intros. unfold int_digit. destruct (digit_valid _ z).
        - do 3 (apply y_any; intros _). cbv zeta. destruct (_ =? _)%Z; [apply y_any; intros _; no|]. apply IH; [auto|now apply HF].
        - apply y_any. intros _. apply y_ret. intros _. now apply HF. }
      apply y_any. intros e. destruct e.
      { apply y_any. intros f. destruct f; [apply y_any; intros _|]; apply y_ret; intros _; now apply HF. }
      apply y_any. intros z. destruct (_ && _); [|apply HG].
      destruct (_ =? _)%Z; [apply y_any; intros _; apply IH; [auto|now apply HF]|].
      destruct (_ =? _)%Z; [apply y_any; intros _; apply IH; [auto|now apply HF]|]. apply HG.
Qed.

End Step.

Theorem consume_in n : iself (consume ops env n).
Proof.
  induction n as [|n IH]; intros c rq d p st top Hw Hi; cbn [consume]; [apply y_raise|]. now apply step_in.
Qed.
End Bound.

(** ** Sessions *)
Lemma calls_in env n t p l : forall s s', do_calls cs_ops cs_add env n t p l s = Done s' ->
  (s_res s = None -> ib env true Fail false p (s_st s)) -> s_res s' = None -> ib env true Fail false p (s_st s').
Proof.
  induction l as [|k l IH]; intros s s' E Hi; cbn [do_calls] in E; [inversion E; now subst|].
  unfold obind in E. destruct (do_call _ _ _ _ _ _ k s) as [s1|] eqn:E1; [|discriminate]. apply (IH _ _ E). clear IH E s' l.
  unfold do_call in E1. destruct (s_res s) eqn:Er; [inversion E1; subst; rewrite Er; discriminate|]. specialize (Hi eq_refl). destruct k as [b f|].
  - unfold obind in E1. destruct (cs_add b f _) eqn:Ea; inversion E1; subst. auto.
  - destruct (top_consume _ _ _ _ _ _ _) as [[[r st] w]|] eqn:E2; [|discriminate].
    pose proof (consume_in cs_ops env n (top_ctx t) default_req (top_dst t) p _ true (fun _ => eq_refl) Hi _ _ _ E2) as HH.
    unfold still_in in HH. cbn [fst snd] in HH. destruct r; inversion E1; subst; cbn; auto; discriminate.
Qed.

Lemma session_in env n t v p l s : run_session env n t v p l = Done s -> s_res s = None -> ib env true Fail false p (s_st s).
Proof.
  intros E. unfold run_session in E. destruct (top_create _ _ _ _) as [[st w]|] eqn:E1; [|discriminate].
  apply (calls_in _ _ _ _ _ _ _ E). intros _. cbn [s_st]. eapply (y_create cs_ops env (top_ctx t) default_req); [discriminate|exact E1].
Qed.

Lemma waiting_marks env R W n t v p l s : bounded R env ->
  (forall i q, env i = Some q -> watched W q = true) -> watched W p = true ->
  run_session env n t v p l = Done s -> s_res s = None ->
  length (cs_marks (w_src (s_world s))) + cs_starved (w_src (s_world s)) <= called W (w_trace (s_world s)) + marks R 0 false p.
Proof.
  intros HR He Hp E Hr. pose proof (session_count env W He n t v p l s Hp E) as HC. rewrite Hr in HC. unfold cs_size in HC. rewrite HC.
  pose proof (ib_bound env R HR true Fail false p _ (session_in _ _ _ _ _ _ _ E Hr)) as HB. cbn [hs] in HB. lia.
Qed.

Theorem waiting_holds_nothing env R W n t v p l s : bounded R env ->
  (forall i q, env i = Some q -> watched W q = true) -> watched W p = true -> marks R 0 false p = 0 ->
  run_session env n t v p (l ++ [Consume]) = Done s -> s_res s = None -> called W (w_trace (s_world s)) = 0 ->
  cs_bufs (w_src (s_world s)) = [].
Proof.
  intros HR He Hp H0 E Hr Hc. pose proof (waiting_marks _ _ _ _ _ _ _ _ _ HR He Hp E Hr) as HM. rewrite H0, Hc in HM.
  assert (cs_marks (w_src (s_world s)) = []) as Hm by (destruct (cs_marks _); auto; cbn in HM; lia).
  pose proof (unmarked _ _ _ _ _ _ _ E Hm) as HU. destruct (starving env t v p n l s E Hr) as (_ & HS & _).
  unfold cs_empty, cs_unread in *. destruct (cs_cur _); [discriminate|].
  destruct (cs_bufs _) as [|[i b] tl]; auto. exfalso. destruct HU as (k & Hk & HU).
  assert (length (skipn k b) = 0) as HL by (destruct (skipn k b); auto; discriminate). rewrite skipn_length in HL. lia.
Qed.

(** Patterns without Optional need no callbacks to watch them. *)
Definition nobody (_ : nat) : bool := false.
Lemma optfree_watched p : optfree p = true -> watched nobody p = true.
Proof.
  induction p using pat_ind'; cbn; auto; try discriminate; try (intros X; apply andb_prop in X as [X1 X2]; rewrite ?IHp1, ?IHp2; auto; fail);
    intros X; rewrite forallb_forall in X; apply forallb_forall; intros q Hq; rewrite Forall_forall in H; auto.
Qed.
Lemma called_nobody l : called nobody l = 0.
Proof. induction l; auto. Qed.

Theorem waiting_optfree env R t v p : bounded R env -> (forall i q, env i = Some q -> optfree q = true) -> optfree p = true ->
  (forall n l s, run_session env n t v p l = Done s -> s_res s = None ->
     length (cs_marks (w_src (s_world s))) + cs_starved (w_src (s_world s)) <= marks R 0 false p) /\
  (marks R 0 false p = 0 -> forall n l s, run_session env n t v p (l ++ [Consume]) = Done s -> s_res s = None -> cs_bufs (w_src (s_world s)) = []).
Proof.
  intros HR He Hp.
  assert (forall i q, env i = Some q -> watched nobody q = true) as He' by (intros; eapply optfree_watched, He; eauto).
  apply optfree_watched in Hp. split.
  - intros n l s E Hr. pose proof (waiting_marks env R nobody n t v p l s HR He' Hp E Hr) as H. now rewrite called_nobody in H.
  - intros H0 n l s E Hr. eapply (waiting_holds_nothing env R nobody); eauto using called_nobody.
Qed.
