(** Invariants of the machine over the reference cursor: it never misuses the source, never
    breaks an abu_assume, never suspends without being starved, and accounts for its marks. *)
From Coq Require Import List ZArith Bool Arith Lia.
From Verif Require Import Base CharSet Source Dst Pattern Parser Rel.
Import ListNotations.

(** Number of marks an object still has to give back. *)
Fixpoint owed (st : pst) : nat :=
  match st with
  | PSkip done s c => (if done then 0 else owed s) + owed c
  | PClean c | PListSt _ c | PNot c | POpt c => S (owed c)
  | PSym _ (Some _) => 1
  | PAtomic _ c | PNary _ c | PExcept _ c | PRepeat _ c | POne c | PAction _ c
  | PConstruct _ c | PRecur (Some c) => owed c
  | _ => 0
  end.

(** No Optional anywhere (it leaks a mark when its operand matches). *)
Fixpoint optfree (p : pat) : bool :=
  match p with
  | Opt _ => false
  | Seq l | Alt l => forallb optfree l
  | Repeat _ _ q | Not q | Discard q | Lexeme q | BindDst q | Construct _ q | Act _ q => optfree q
  | WithSkipper q s | Except q s | PList q s => optfree q && optfree s
  | _ => true
  end.

(** The errors that are not excluded. *)
Definition okerr (e : err) : Prop :=
  e = EFuel \/ e = EType \/ e = EUb UbOverflow \/ e = EUb UbUninit \/ e = EUb UbRecur.

Lemma okerr_type : okerr EType. Proof. right; left; reflexivity. Qed.
Lemma okerr_uninit : okerr (EUb UbUninit). Proof. right; right; right; left; reflexivity. Qed.
Lemma okerr_overflow : okerr (EUb UbOverflow). Proof. right; right; left; reflexivity. Qed.
Lemma okerr_recur : okerr (EUb UbRecur). Proof. right; right; right; right; reflexivity. Qed.
Lemma okerr_fuel : okerr EFuel. Proof. left; reflexivity. Qed.
#[export] Hint Resolve okerr_type okerr_uninit okerr_overflow okerr_recur okerr_fuel : safe.

Definition dst_ok (d : dst) (L : nat) : Prop :=
  match d with DNil => True | DRef l _ _ => l < L end.

Lemma dst_cell_ok lvl t L : lvl < L -> dst_ok (dst_cell lvl t) L.
Proof. destruct t; cbn; auto. Qed.

Lemma dst_ok_le d L L' : L <= L' -> dst_ok d L -> dst_ok d L'.
Proof. destruct d; cbn; auto. lia. Qed.

Lemma seq_dst_ok l i q d L :
  nth_error l i = Some q -> dst_ok d L ->
  match seq_dst l i d with Done d' => dst_ok d' L | Err e => okerr e end.
Proof.
  intros Hn Hd. unfold seq_dst. destruct d as [|lv path t]; auto. rewrite Hn.
  destruct (ignores q); [exact I|].
  destruct t; try exact Hd. destruct (nth_error l0 _) as [t'|]; [|cbn; auto with safe].
  destruct t'; try exact Hd. exact I.
Qed.

(** Cell operations: number of cells kept, no EShape. *)
Lemma upd_length {A} (l : list A) i x : length (upd l i x) = length l.
Proof. revert i. induction l; intros [|i]; cbn; auto. Qed.

Definition cells_ok (L : nat) (o : outcome (list val)) : Prop :=
  match o with Done c => length c = L | Err e => okerr e end.

Lemma get_path_err p : forall v e, get_path v p = Err e -> okerr e.
Proof.
  induction p as [|i p IH]; intros v e; cbn; [discriminate|].
  destruct v; try (intros E; inversion E; auto with safe; fail).
  destruct (nth_error l i); eauto. intros E; inversion E; auto with safe.
Qed.

Lemma set_path_err p x : forall v e, set_path v p x = Err e -> okerr e.
Proof.
  induction p as [|i p IH]; intros v e; cbn; [discriminate|].
  destruct v; try (intros E; inversion E; auto with safe; fail).
  destruct (nth_error l i).
  - destruct (set_path v p x) eqn:E1; cbn; [discriminate|]. intros E; inversion E; subst. eauto.
  - intros E; inversion E; auto with safe.
Qed.

Lemma conv_err t v e : conv t v = Err e -> okerr e.
Proof.
  destruct t; cbn; try discriminate;
  destruct v; cbn; try discriminate; try (intros E; inversion E; auto with safe; fail);
  match goal with |- context [if ?b then _ else _] => destruct b end;
  intros E; inversion E; auto with safe.
Qed.

Lemma load_err c d e : dst_ok d (length c) -> load c d = Err e -> okerr e.
Proof.
  destruct d as [|l p t]; cbn; [discriminate|]. intros Hl.
  destruct (nth_error c l) eqn:E; cbn.
  - apply get_path_err.
  - apply nth_error_None in E. lia.
Qed.

Lemma store_ok c d x : dst_ok d (length c) -> cells_ok (length c) (store c d x).
Proof.
  destruct d as [|l p t]; cbn; auto. intros Hl.
  destruct (nth_error c l) eqn:E; cbn.
  - destruct (set_path v p x) eqn:E1; cbn; [apply upd_length|]. now apply set_path_err in E1.
  - apply nth_error_None in E. lia.
Qed.

Lemma assign_ok c d v : dst_ok d (length c) -> cells_ok (length c) (assign c d v).
Proof.
  intros Hd. unfold assign. destruct d as [|l p t]; [reflexivity|].
  assert (forall t', cells_ok (length c) (obind (conv t' v) (fun x => store c (DRef l p t) x))) as H.
  { intros t'. destruct (conv t' v) eqn:E; cbn [obind].
    - now apply store_ok.
    - now apply conv_err in E. }
  destruct t; try apply (H _).
  destruct (conv t v) eqn:E; cbn [obind].
  - destruct (load c (DRef l p (TColl t))) eqn:E1; cbn [obind].
    + destruct a0; try (cbn; auto with safe; fail). now apply store_ok.
    + apply load_err in E1; auto.
  - now apply conv_err in E.
Qed.

Lemma num_zero_ok c d : dst_ok d (length c) -> cells_ok (length c) (num_zero c d).
Proof.
  intros Hd. destruct d as [|l p t]; [reflexivity|]. unfold num_zero.
  destruct t; try (cbn; auto with safe; fail). now apply store_ok.
Qed.

Lemma num_op_ok f c d : dst_ok d (length c) -> cells_ok (length c) (num_op f c d).
Proof.
  intros Hd. destruct d as [|l p t]; [reflexivity|]. unfold num_op.
  destruct t; try (cbn; auto with safe; fail).
  destruct (load c _) eqn:E; cbn [obind]; [|now apply load_err in E].
  destruct a; try (cbn; auto with safe; fail).
  unfold arith. destruct (_ && _).
  - destruct (in_range _ _ _); cbn [obind]; [now apply store_ok|cbn; auto with safe].
  - cbn [obind]. now apply store_ok.
Qed.

Section Safety.
Context (res leak : bool) (env : nat -> option pat).
Context (inp : list Z) (fin : bool).
Hypothesis Hfin : res = true \/ fin = true.

Definition fits (p : pat) : Prop := leak = true \/ optfree p = true.
Hypothesis Henv : forall id q, env id = Some q -> fits q.

Let ops := a_ops res.
Let world := (Parser.world cursor).

(** The object [st] is one the parser of [p] can be, in a context with skipper [sk]. *)
Inductive sh : pat -> pat -> pst -> Prop :=
| sh_skip sk p (done : bool) s a :
    (done = false -> sh Fail sk s) -> sh sk p a -> sh sk p (PSkip done s a)
| sh_clean sk p a : sh sk p a -> sh sk p (PClean a)
| sh_atomic sk p b a : sh sk p a -> sh sk p (PAtomic b a)
| sh_char sk s : sh sk (Char s) PLeaf
| sh_char_symbol sk m : sh sk (CharSymbol m) PLeaf
| sh_eoi sk : sh sk Eoi PLeaf
| sh_pass sk : sh sk Pass PLeaf
| sh_fail sk : sh sk Fail PLeaf
| sh_lit sk s r : sh sk (Lit s) (PLit r)
| sh_sym sk m nx v :
    (forall n, v = Some n -> trie_val n <> None) -> sh sk (Symbol m) (PSym nx v)
| sh_uint sk b lo hi n : sh sk (UInt b lo hi) (PUInt n)
| sh_int sk b lo hi n lk ng : sh sk (Int b lo hi) (PInt n lk ng)
| sh_seq sk l i q a :
    nth_error l i = Some q -> (res = false -> i = 0) -> sh sk q a -> sh sk (Seq l) (PNary i a)
| sh_alt sk l i q a :
    nth_error l i = Some q -> (res = false -> i = 0) -> sh sk q a -> sh sk (Alt l) (PNary i a)
| sh_repeat sk lo hi q n a : sh sk q a -> sh sk (Repeat lo hi q) (PRepeat n a)
| sh_not sk q a : sh sk q a -> sh sk (Not q) (PNot a)
| sh_opt sk q a : sh sk q a -> sh sk (Opt q) (POpt a)
| sh_discard sk q a : sh sk q a -> sh sk (Discard q) (POne a)
| sh_lexeme sk q a : sh Fail q a -> sh sk (Lexeme q) (POne a)
| sh_with_skipper sk q s a : sh s q a -> sh sk (WithSkipper q s) (POne a)
| sh_bind_dst sk q a : sh sk q a -> sh sk (BindDst q) (POne a)
| sh_construct sk args q b a : sh sk q a -> sh sk (Construct args q) (PConstruct b a)
| sh_act sk act q b a : sh sk q a -> sh sk (Act act q) (PAction b a)
| sh_except0 sk q neg a : sh sk neg a -> sh sk (Except q neg) (PExcept 0 a)
| sh_except1 sk q neg a : sh sk q a -> sh sk (Except q neg) (PExcept 1 a)
| sh_list0 sk q sep a : sh sk q a -> sh sk (PList q sep) (PListSt 0 a)
| sh_list1 sk q sep a : sh sk sep a -> sh sk (PList q sep) (PListSt 1 a)
| sh_recur0 sk id b : sh sk (Recur id b) (PRecur None)
| sh_recur1 sk id b q a : env id = Some q -> sh sk q a -> sh sk (Recur id b) (PRecur (Some a)).

(** Number of marks above [base]: exactly [k], or at least [k] when leaks are allowed. *)
Definition lrel (a k : nat) : Prop := if leak then k <= a else a = k.

Record St (L : nat) (base : list nat) (k : nat) (w : world) : Prop := {
  st_cells : length (w_cells w) = L;
  st_stk : exists m, a_stk (w_src w) = m ++ base /\ lrel (length m) k;
  st_inp : a_inp (w_src w) = inp;
  st_fin : a_fin (w_src w) = fin }.

Definition wp {A} (m : M cursor A) (Q : A -> world -> Prop) (w : world) : Prop :=
  match m w with Err e => okerr e | Done (a, w') => Q a w' end.

Lemma wp_ret {A} (a : A) (Q : A -> world -> Prop) w : Q a w -> wp (ret a) Q w.
Proof. auto. Qed.

Lemma wp_raise {A} e (Q : A -> world -> Prop) w : okerr e -> wp (raise e) Q w.
Proof. auto. Qed.

Lemma wp_bind {A B} (m : M cursor A) (f : A -> M cursor B) Q w :
  wp m (fun a w' => wp (f a) Q w') w -> wp (bind m f) Q w.
Proof. unfold wp, bind. destruct (m w) as [[a w']|e]; auto. Qed.

Lemma wp_cons {A} (m : M cursor A) (Q Q' : A -> world -> Prop) w :
  wp m Q w -> (forall a w', Q a w' -> Q' a w') -> wp m Q' w.
Proof. unfold wp. destruct (m w) as [[a w']|e]; auto. Qed.

Lemma wp_empty (Q : bool -> world -> Prop) w :
  Q (a_empty (w_src w)) w -> wp (m_empty ops) Q w.
Proof. auto. Qed.

Lemma wp_final L base k (Q : bool -> world -> Prop) w : St L base k w -> Q fin w -> wp (m_final ops) Q w.
Proof. intros H HQ. unfold wp, m_final. cbn. now rewrite (st_fin _ _ _ _ H). Qed.

Lemma wp_next (Q : Z -> world -> Prop) w :
  a_empty (w_src w) = false -> (forall c, Q c w) -> wp (m_next ops) Q w.
Proof.
  intros He HQ. unfold wp, m_next. cbn. unfold a_next.
  destruct (nth_error _ _) eqn:E; cbn; auto.
  apply nth_error_None in E. unfold a_empty in He. apply Nat.leb_gt in He. lia.
Qed.

Lemma wp_advance L base k (Q : unit -> world -> Prop) w :
  a_empty (w_src w) = false -> St L base k w -> (forall w', St L base k w' -> Q tt w') ->
  wp (m_advance ops) Q w.
Proof.
  intros He HS HQ. unfold wp, m_advance, m_src. cbn. unfold a_advance. rewrite He. apply HQ.
  destruct HS as [H1 H2 H3 H4]. constructor; auto.
Qed.

Lemma wp_prepare L base k (Q : unit -> world -> Prop) w :
  St L base k w -> (forall w', St L base (S k) w' -> Q tt w') -> wp (m_prepare ops) Q w.
Proof.
  intros HS HQ. unfold wp, m_prepare, m_src. cbn. apply HQ.
  destruct HS as [H1 (m & Hm & Hl) H3 H4]. constructor; auto.
  exists (a_pos (w_src w) :: m). cbn. rewrite Hm. split; auto.
  unfold lrel in *. destruct leak; cbn; lia.
Qed.

Lemma pop_stk L base k w :
  St L base (S k) w -> exists p m, a_stk (w_src w) = p :: m ++ base /\ lrel (length m) k.
Proof.
  intros [_ (m & Hm & Hl) _ _]. destruct m as [|p m].
  - unfold lrel in Hl. cbn in Hl. destruct leak; lia.
  - exists p, m. split; auto. unfold lrel in *. cbn in Hl. destruct leak; lia.
Qed.

Lemma wp_commit L base k (Q : unit -> world -> Prop) w :
  St L base (S k) w -> (forall w', St L base k w' -> Q tt w') -> wp (m_commit ops) Q w.
Proof.
  intros HS HQ. destruct (pop_stk _ _ _ _ HS) as (p & m & Hm & Hl).
  unfold wp, m_commit, m_src. cbn. unfold a_commit. rewrite Hm. apply HQ.
  destruct HS as [H1 _ H3 H4]. constructor; cbn; eauto.
Qed.

Lemma wp_cancel L base k (Q : unit -> world -> Prop) w :
  St L base (S k) w -> (forall w', St L base k w' -> Q tt w') -> wp (m_cancel ops) Q w.
Proof.
  intros HS HQ. destruct (pop_stk _ _ _ _ HS) as (p & m & Hm & Hl).
  unfold wp, m_cancel, m_src. cbn. unfold a_cancel. rewrite Hm. apply HQ.
  destruct HS as [H1 _ H3 H4]. constructor; cbn; eauto.
Qed.

Lemma wp_on_cells L base k f (Q : unit -> world -> Prop) w :
  St L base k w -> (forall c, length c = L -> cells_ok L (f c)) ->
  (forall w', St L base k w' -> w_src w' = w_src w -> Q tt w') -> wp (on_cells f) Q w.
Proof.
  intros HS Hf HQ. unfold wp, on_cells. specialize (Hf _ (st_cells _ _ _ _ HS)).
  destruct (f (w_cells w)); auto. apply HQ; auto. destruct HS. constructor; auto.
Qed.

Lemma wp_assign L base k d v (Q : unit -> world -> Prop) w :
  St L base k w -> dst_ok d L ->
  (forall w', St L base k w' -> w_src w' = w_src w -> Q tt w') -> wp (m_assign d v) Q w.
Proof.
  intros HS Hd HQ. eapply wp_on_cells; eauto. intros c <-. now apply assign_ok.
Qed.

Lemma wp_with_cell {A} L base k v (f : nat -> M cursor A) (Q : A * val -> world -> Prop) w :
  St L base k w ->
  (forall w1, St (S L) base k w1 -> w_src w1 = w_src w ->
     wp (f L) (fun a w' => exists k', St (S L) base k' w' /\
                 forall v' w'', St L base k' w'' -> w_src w'' = w_src w' -> Q (a, v') w'') w1) ->
  wp (with_cell v f) Q w.
Proof.
  intros HS Hf. destruct HS as [Hc Hs Hi He]. unfold wp, with_cell. rewrite Hc.
  specialize (Hf (World (w_src w) (w_cells w ++ [v]) (w_trace w))). unfold wp in Hf.
  destruct (f L _) as [[a w']|e].
  - destruct Hf as (k' & [Hc' Hs' Hi' He'] & HQ); auto.
    + constructor; cbn; auto. rewrite app_length. cbn. lia.
    + destruct (nth_error (w_cells w') L) eqn:E.
      * apply HQ; auto. constructor; cbn; auto. rewrite firstn_length. lia.
      * apply nth_error_None in E. lia.
  - apply Hf; auto. constructor; cbn; auto. rewrite app_length. cbn. lia.
Qed.

Definition Post (L : nat) (base : list nat) (j : nat) (sk p : pat) (r : result) (st : pst) (w : world)
  : Prop :=
  match r with
  | PARTIAL => St L base (owed st + j) w /\ sh sk p st /\ a_empty (w_src w) = true /\ fin = false
  | _ => St L base j w
  end.

Definition okc (c : ctx) (d : dst) (p : pat) (L : nat) : Prop :=
  dst_ok d L /\ dst_ok (c_bound c) L /\ fits (c_skip c) /\ fits p.

(** Creation. *)
Definition created (L : nat) (base : list nat) (j : nat) (sk p : pat) (st : pst) (w : world) : Prop :=
  St L base (owed st + j) w /\ sh sk p st.

Definition skip_ok (sk : pat) (k : option (M cursor pst)) : Prop :=
  match k with
  | None => True
  | Some mk => forall L base j w, St L base j w -> wp mk (created L base j Fail sk) w
  end.

Lemma adapt_ok sk k rq d p raw :
  skip_ok sk k ->
  (forall L rq d base j w, dst_ok d L -> St L base j w -> wp (raw rq d) (created L base j sk p) w) ->
  forall L base j w, dst_ok d L -> St L base j w -> wp (adapt ops k rq d p raw) (created L base j sk p) w.
Proof.
  intros Hk Hr L base j w Hd HS. unfold adapt.
  destruct (r_recur rq); auto.
  set (atomic := fun rq => if r_atomic rq && negb (f_atomic p)
     then bind (with_cell (default_init (dst_value_ty d))
            (fun lvl => raw (unatomic_req rq) (dst_cell lvl (dst_value_ty d))))
          (fun x => ret (PAtomic (snd x) (fst x))) else raw rq d).
  assert (HA : forall rq base j w, St L base j w -> wp (atomic rq) (created L base j sk p) w).
  { clear rq base j w HS. intros rq base j w HS. unfold atomic. destruct (_ && _); auto.
    apply wp_bind. eapply wp_with_cell; eauto. intros w1 H1 _.
    eapply wp_cons; [eapply Hr; eauto; apply dst_cell_ok; lia|].
    intros st w' [H2 H3]. exists (owed st + j). split; auto.
    intros v' w'' H4 _. apply wp_ret. split; cbn; auto. now constructor. }
  assert (HC : forall base j w, St L base j w ->
    wp (if r_clean rq && negb (f_clean p) then
          bind (atomic (unclean_req rq)) (fun c => bind (m_prepare ops) (fun _ => ret (PClean c)))
        else atomic rq) (created L base j sk p) w).
  { clear base j w HS. intros base j w HS. destruct (_ && _); auto.
    apply wp_bind. eapply wp_cons; [eapply HA; eassumption|]. intros st w' [H1 H2].
    apply wp_bind. eapply wp_prepare; eauto. intros w'' H3. apply wp_ret. split; cbn; auto.
    now constructor. }
  destruct k as [mk|]; auto.
  apply wp_bind. eapply wp_cons; [eapply Hk; eassumption|]. intros s w1 [H1 H2].
  apply wp_bind. eapply wp_cons; [eapply HC; eassumption|]. intros c w2 [H3 H4].
  apply wp_ret. split; [|constructor; auto]. cbn.
  replace (owed s + owed c + j) with (owed c + (owed s + j)) by lia. exact H3.
Qed.

Lemma create_in_ok p : forall sk k rq d,
  skip_ok sk k ->
  forall L base j w, dst_ok d L -> St L base j w ->
  wp (create_in ops k rq d p) (created L base j sk p) w.
Proof.
  assert (Leaf : forall sk p L base j w st, St L base j w -> owed st = 0 -> sh sk p st ->
                   wp (ret st) (created L base j sk p) w).
  { intros. apply wp_ret. split; auto. now rewrite H0. }
  assert (One : forall (F : pst -> pst) sk p L base j w (m : M cursor pst) sk' q,
            (forall a, owed (F a) = owed a) -> (forall a, sh sk' q a -> sh sk p (F a)) ->
            wp m (created L base j sk' q) w ->
            wp (bind m (fun a => ret (F a))) (created L base j sk p) w).
  { intros F sk q L base j w m sk' q' Ho Hf Hm. apply wp_bind. eapply wp_cons; [exact Hm|].
    intros a w' [H1 H2]. apply wp_ret. split; auto. now rewrite Ho. }
  assert (Mark : forall (F : pst -> pst) sk p L base j w (m : M cursor pst) q,
            (forall a, owed (F a) = S (owed a)) -> (forall a, sh sk q a -> sh sk p (F a)) ->
            wp m (created L base j sk q) w ->
            wp (bind m (fun a => bind (m_prepare ops) (fun _ => ret (F a)))) (created L base j sk p) w).
  { intros F sk q L base j w m q' Ho Hf Hm. apply wp_bind. eapply wp_cons; [exact Hm|].
    intros a w' [H1 H2]. apply wp_bind. eapply wp_prepare; eauto. intros w'' H3.
    apply wp_ret. split; auto. now rewrite Ho. }
  induction p using pat_ind'; intros sk k rq d Hk; cbn [create_in]; apply adapt_ok; auto;
    clear rq d; intros L rq d base j w Hd HS.
  - apply Leaf; auto; constructor.
  - apply Leaf; auto; constructor.
  - apply Leaf; auto; constructor.
  - destruct (r_consumes rq); [apply wp_raise; auto with safe|apply Leaf; auto; constructor].
  - apply Leaf; auto; constructor.
  - apply Leaf; auto; constructor.
  - apply Leaf; auto; constructor. discriminate.
  - apply wp_bind. eapply wp_on_cells; eauto.
    + intros c <-. now apply num_zero_ok.
    + intros w' H1 _. apply Leaf; auto; constructor.
  - apply wp_bind. eapply wp_on_cells; eauto.
    + intros c <-. now apply num_zero_ok.
    + intros w' H1 _. apply Leaf; auto; constructor.
  - destruct l as [|q l]; [apply wp_raise; auto with safe|]. inversion H; subst.
    pose proof (seq_dst_ok (q :: l) 0 q d L eq_refl Hd) as Hq.
    destruct (seq_dst (q :: l) 0 d); [|now apply wp_raise].
    eapply (One (PNary 0)); [auto|intros st Hst; econstructor; eauto; reflexivity|]. auto.
  - destruct l as [|q l]; [apply wp_raise; auto with safe|]. inversion H; subst.
    eapply (One (PNary 0)); [auto|intros st Hst; econstructor; eauto; reflexivity|]. auto.
  - destruct (_ && _); [apply wp_raise; auto with safe|].
    eapply (One (PRepeat 0)); [auto|intros st Hst; constructor; eauto|]. auto.
  - eapply (Mark PNot); [auto|intros st Hst; constructor; eauto|]. auto.
  - eapply (Mark POpt); [auto|intros st Hst; constructor; eauto|]. auto.
  - eapply (One POne); [auto|intros st Hst; apply sh_discard; eauto|]. apply IHp; cbn; auto.
  - eapply (One POne); [auto|intros st Hst; apply sh_lexeme; eauto|]. apply IHp; cbn; auto.
  - eapply (One POne); [auto|intros st Hst; apply sh_with_skipper; eauto|]. apply IHp1; auto.
    destruct (is_fail p2); cbn; auto. intros. apply IHp2; cbn; auto.
  - eapply (One POne); [auto|intros st Hst; apply sh_bind_dst; eauto|]. apply IHp; cbn; auto.
  - apply wp_bind. eapply wp_with_cell; eauto. intros w1 H1 _.
    eapply wp_cons; [eapply IHp; eauto; apply dst_cell_ok; lia|].
    intros st w' [H2 H3]. exists (owed st + j). split; auto.
    intros v' w'' H4 _. apply wp_ret. split; cbn; auto. now constructor.
  - apply wp_bind. eapply wp_with_cell; eauto. intros w1 H1 _.
    eapply wp_cons; [eapply IHp; eauto; apply dst_cell_ok; lia|].
    intros st w' [H2 H3]. exists (owed st + j). split; auto.
    intros v' w'' H4 _. apply wp_ret. split; cbn; auto. now constructor.
  - eapply (One (PExcept 0)); [auto|intros st Hst; constructor; eauto|]. apply IHp2; cbn; auto.
  - eapply (Mark (PListSt 0)); [auto|intros st Hst; constructor; eauto|]. auto.
  - apply Leaf; auto; constructor.
Qed.

Lemma create_ok c rq d p L base j w (Q : pst -> world -> Prop) :
  dst_ok d L -> St L base j w ->
  (forall st w', created L base j (c_skip c) p st w' -> Q st w') ->
  wp (create ops c rq d p) Q w.
Proof.
  intros Hd HS HQ. eapply wp_cons; [|intros; apply HQ; eassumption].
  eapply create_in_ok; eauto. unfold mk_skip_of.
  destruct (is_fail (c_skip c)); cbn; auto. intros. apply create_in_ok; cbn; auto.
Qed.

(** consume. *)
Definition safe_self (self : @consume_ty cursor) : Prop :=
  forall c rq d p st L base j w (Q : result * pst -> world -> Prop),
  okc c d p L -> sh (c_skip c) p st -> St L base (owed st + j) w ->
  (forall r st' w', Post L base j (c_skip c) p r st' w' -> Q (r, st') w') ->
  wp (self c rq d p st) Q w.

Lemma fits_fail : fits Fail. Proof. right; reflexivity. Qed.

Lemma fits_nth l i q :
  (leak = true \/ forallb optfree l = true) -> nth_error l i = Some q -> fits q.
Proof.
  intros [H|H] Hn; [now left|right]. rewrite forallb_forall in H. apply H.
  eapply nth_error_In; eauto.
Qed.

Lemma fits_and q s (H : leak = true \/ optfree q && optfree s = true) : fits q /\ fits s.
Proof.
  destruct H as [H|H]; [split; now left|].
  apply andb_true_iff in H as [? ?]. split; now right.
Qed.

Ltac split4 := refine (conj _ (conj _ (conj _ _))).

Section Classes.
Context (self : @consume_ty cursor) (Hs : safe_self self).

(** The forms in which a class uses [Q]. *)
Definition goal (c : ctx) (p : pat) (L : nat) base j (Q : result * pst -> world -> Prop) : Prop :=
  forall r st' w', Post L base j (c_skip c) p r st' w' -> Q (r, st') w'.

Ltac hs := eapply Hs; [eassumption|constructor; eauto|try eassumption|try eassumption]; auto.

Lemma starved_ok c p L base j Q w st :
  goal c p L base j Q -> St L base (owed st + j) w -> owed st = 0 -> sh (c_skip c) p st ->
  a_empty (w_src w) = true -> wp (starved ops st) Q w.
Proof.
  intros HQ HS Ho Hsh He. unfold starved. apply wp_bind. eapply wp_final; eauto.
  apply wp_ret. apply HQ. destruct fin eqn:Ef; cbn; rewrite ?Ef; auto. rewrite Ho in HS. exact HS.
Qed.

Ltac ok := unfold okc in *; cbn; intuition auto using fits_fail.

Lemma skip_ok' c rq d p done s a L base j w Q :
  okc c d p L -> sh (c_skip c) p (PSkip done s a) -> St L base (owed (PSkip done s a) + j) w ->
  goal c p L base j Q -> wp (skip_consume ops self c rq d p done s a) Q w.
Proof.
  intros Hok Hsh HS HQ. inversion Hsh as [? ? ? ? ? H1 H2| | | | | | | | | | | | | | | | | | | | | | | | | | | |]; subst.
  unfold skip_consume. destruct done.
  - apply wp_bind. eapply Hs; eauto. intros r st' w' HP. apply wp_ret. apply HQ. cbn.
    destruct r; cbn in *; auto. destruct HP as (HP1 & HP2 & HP3). split4; try tauto.
    now constructor.
  - apply wp_bind. cbn in HS. rewrite <- Nat.add_assoc in HS.
    eapply Hs with (L := L) (j := owed a + j); eauto; [ok|].
    intros r st' w' HP. cbn [fst snd]. destruct r.
    + apply wp_bind. eapply create_ok; [exact I|exact HP|]. intros s' w2 [H3 H4].
      eapply Hs; eauto.
      * constructor; auto.
      * cbn. rewrite <- Nat.add_assoc. exact H3.
    + eapply Hs; eauto.
      constructor; auto. discriminate.
    + destruct HP as (HP1 & HP2 & HP3). apply wp_ret, HQ. split4; try tauto.
      * cbn. rewrite <- Nat.add_assoc. exact HP1.
      * constructor; auto.
Qed.

Lemma clean_ok c rq d p a L base j w Q :
  okc c d p L -> sh (c_skip c) p a -> St L base (owed (PClean a) + j) w ->
  goal c p L base j Q -> wp (clean_consume ops self c rq d p a) Q w.
Proof.
  intros Hok Hsh HS HQ. unfold clean_consume. apply wp_bind.
  eapply Hs with (j := S j); eauto; [cbn in HS; rewrite <- plus_n_Sm; exact HS|].
  intros r st' w' HP. cbn [fst snd]. destruct r; cbn in HP.
  - apply wp_bind. eapply wp_cancel; eauto. intros. apply wp_ret, HQ. auto.
  - apply wp_bind. eapply wp_commit; eauto. intros. apply wp_ret, HQ. auto.
  - apply wp_ret, HQ. destruct HP as (HP1 & HP2 & HP3). split4; try tauto.
    + cbn. rewrite plus_n_Sm. exact HP1.
    + constructor; auto.
Qed.

(** Members that are run with a buffer of their own as destination. *)
Lemma celled_ok c rq' q t buf a L base j w (Q : result * pst * val -> world -> Prop) :
  (dst_ok (c_bound c) L /\ fits (c_skip c) /\ fits q) -> sh (c_skip c) q a -> St L base (owed a + j) w ->
  (forall r st' v w', Post L base j (c_skip c) q r st' w' -> Q (r, st', v) w') ->
  wp (with_cell buf (fun lvl => self c rq' (dst_cell lvl t) q a)) Q w.
Proof.
  intros Hok Hsh HS HQ. eapply wp_with_cell; eauto. intros w1 H1 _.
  eapply Hs; eauto.
  - repeat split; try tauto; [apply dst_cell_ok; lia|eapply dst_ok_le; [|apply Hok]; lia].
  - intros r st' w' HP. destruct r; cbn in HP.
    + exists j. split; auto.
    + exists j. split; auto.
    + destruct HP as (HP1 & HP2 & HP3 & HP4). exists (owed st' + j). split; auto.
      intros v' w'' H2 H3. apply HQ. cbn. rewrite H3. auto.
Qed.

Lemma atomic_ok c rq d p b a L base j w Q :
  okc c d p L -> sh (c_skip c) p a -> St L base (owed (PAtomic b a) + j) w ->
  goal c p L base j Q -> wp (atomic_consume self c rq d p b a) Q w.
Proof.
  intros Hok Hsh HS HQ. unfold atomic_consume. apply wp_bind.
  eapply celled_ok; eauto; [ok|]. intros r st' v w' HP. destruct r; cbn in HP.
  - apply wp_bind. eapply wp_assign; eauto; [ok|]. intros. apply wp_ret, HQ. auto.
  - apply wp_ret, HQ. auto.
  - apply wp_ret, HQ. destruct HP as (HP1 & HP2 & HP3). split4; try tauto.
    constructor; auto.
Qed.

Lemma char_ok c d s L base j w Q :
  dst_ok d L -> St L base j w -> goal c (Char s) L base j Q -> wp (char_consume ops d s) Q w.
Proof.
  intros Hd HS HQ. unfold char_consume. apply wp_bind, wp_empty.
  destruct (a_empty (w_src w)) eqn:He.
  - eapply starved_ok; eauto. constructor.
  - apply wp_bind, wp_next; auto. intros n. destruct (is_valid s n); [|apply wp_ret, HQ; auto].
    apply wp_bind. eapply wp_assign; eauto. intros w1 H1 E. apply wp_bind.
    eapply wp_advance; eauto; [now rewrite E|]. intros w2 H2. apply wp_ret, HQ. auto.
Qed.

Lemma char_symbol_ok c d m L base j w Q :
  dst_ok d L -> St L base j w -> goal c (CharSymbol m) L base j Q ->
  wp (char_symbol_consume ops d m) Q w.
Proof.
  intros Hd HS HQ. unfold char_symbol_consume. apply wp_bind, wp_empty.
  destruct (a_empty (w_src w)) eqn:He.
  - eapply starved_ok; eauto. constructor.
  - apply wp_bind, wp_next; auto. intros n. destruct (assoc n m); [|apply wp_ret, HQ; auto].
    apply wp_bind. eapply wp_assign; eauto. intros w1 H1 E. apply wp_ret, HQ. auto.
Qed.

Lemma eoi_ok c L base j w Q :
  St L base j w -> goal c Eoi L base j Q -> wp (eoi_consume ops) Q w.
Proof.
  intros HS HQ. unfold eoi_consume. apply wp_bind, wp_empty.
  destruct (a_empty (w_src w)) eqn:He.
  - apply wp_bind. eapply wp_final; eauto. apply wp_ret, HQ.
    destruct fin eqn:Ef; cbn; rewrite ?Ef; auto. split4; auto. constructor.
  - apply wp_ret, HQ. auto.
Qed.

Lemma lit_ok c rq d s rest L base j w Q :
  okc c d (Lit s) L -> St L base j w -> goal c (Lit s) L base j Q ->
  wp (lit_consume ops self c rq d (Lit s) rest) Q w.
Proof.
  intros Hok HS HQ. unfold lit_consume. destruct rest as [|x rest]; [apply wp_ret, HQ; auto|].
  apply wp_bind, wp_empty. destruct (a_empty (w_src w)) eqn:He.
  - eapply starved_ok; eauto. constructor.
  - apply wp_bind, wp_next; auto. intros n. destruct (Z.eqb n x); [|apply wp_ret, HQ; auto].
    apply wp_bind. eapply wp_advance; eauto. intros w1 H1. hs.
Qed.

Lemma sym_stop_ok c d m nx v L base j w Q :
  dst_ok d L -> (forall n, v = Some n -> trie_val n <> None) ->
  St L base (owed (PSym nx v) + j) w -> goal c (Symbol m) L base j Q ->
  wp (sym_stop ops d nx v) Q w.
Proof.
  intros Hd Hv HS HQ. unfold sym_stop, sym_value. destruct v as [n|].
  - destruct (trie_val n) as [x|] eqn:E; [|destruct (Hv n eq_refl E)]. cbn.
    apply wp_bind. eapply wp_assign; eauto. intros w1 H1 _.
    apply wp_bind. eapply wp_commit; eauto. intros w2 H2. apply wp_ret, HQ. auto.
  - apply wp_ret, HQ. auto.
Qed.

Lemma sym_ok c rq d m nx v L base j w Q :
  okc c d (Symbol m) L -> (forall n, v = Some n -> trie_val n <> None) ->
  St L base (owed (PSym nx v) + j) w -> goal c (Symbol m) L base j Q ->
  wp (sym_consume ops self c rq d (Symbol m) nx v) Q w.
Proof.
  intros Hok Hv HS HQ. unfold sym_consume.
  apply wp_bind, wp_empty. destruct (a_empty (w_src w)) eqn:He.
  - apply wp_bind. eapply wp_final; eauto. destruct fin eqn:Ef.
    + eapply sym_stop_ok; eauto. apply Hok.
    + apply wp_ret, HQ. split4; auto; now constructor.
  - apply wp_bind, wp_next; auto. intros n. destruct (assoc n (trie_child nx)) as [nx'|].
    2: { eapply sym_stop_ok; eauto. apply Hok. }
    apply wp_bind. eapply wp_advance; eauto. intros w1 H1.
    destruct (trie_val nx') as [x|] eqn:Ex.
    + apply wp_bind.
      assert (Hrest : forall w, St L base j w -> wp
        match trie_child nx' with
        | [] => bind (m_assign d x) (fun _ => ret (SUCCESS, PSym nx' v))
        | _ :: _ => bind (m_prepare ops) (fun _ => self c rq d (Symbol m) (PSym nx' (Some nx')))
        end Q w).
      { intros w2 H2. destruct (trie_child nx').
        - apply wp_bind. eapply wp_assign; eauto; [apply Hok|]. intros. apply wp_ret, HQ. auto.
        - apply wp_bind. eapply wp_prepare; eauto. intros w3 H3. hs.
          intros n' E; inversion E; subst. congruence. }
      destruct v; [eapply wp_cancel; eauto|apply wp_ret; auto].
    + hs.
Qed.

Lemma num_op_wp L base k g d (Q : unit -> world -> Prop) w :
  St L base k w -> dst_ok d L ->
  (forall w', St L base k w' -> w_src w' = w_src w -> Q tt w') ->
  wp (on_cells (fun cs => num_op g cs d)) Q w.
Proof. intros HS Hd HQ. eapply wp_on_cells; eauto. intros c <-. now apply num_op_ok. Qed.

Lemma uint_ok c rq d b lo hi n L base j w Q :
  okc c d (UInt b lo hi) L -> St L base j w -> goal c (UInt b lo hi) L base j Q ->
  wp (uint_consume ops self c rq d (UInt b lo hi) b lo hi n) Q w.
Proof.
  intros Hok HS HQ. unfold uint_consume.
  assert (V : forall (x : bool) w, St L base j w -> Q (if x then SUCCESS else FAILURE, PUInt n) w).
  { intros x w' H. apply HQ. destruct x; auto. }
  apply wp_bind, wp_empty. destruct (a_empty (w_src w)) eqn:He.
  - apply wp_bind. eapply wp_final; eauto. apply wp_ret. destruct fin eqn:Ef; auto.
    apply HQ. split4; auto. constructor.
  - apply wp_bind, wp_next; auto. intros x. destruct (digit_valid b x); [|apply wp_ret; auto].
    apply wp_bind. eapply num_op_wp; eauto; [apply Hok|]. intros w1 H1 E1.
    apply wp_bind. eapply num_op_wp; eauto; [apply Hok|]. intros w2 H2 E2.
    apply wp_bind. eapply wp_advance; eauto; [now rewrite E2, E1|]. intros w3 H3.
    destruct (_ =? _)%Z; [apply wp_ret, HQ; auto|]. hs.
Qed.

Lemma negate_wp L base k d neg (Q : unit -> world -> Prop) w :
  St L base k w -> dst_ok d L -> (forall w', St L base k w' -> Q tt w') -> wp (int_negate d neg) Q w.
Proof.
  intros HS Hd HQ. unfold int_negate. destruct neg; [eapply num_op_wp; eauto|apply wp_ret; auto].
Qed.

Lemma int_digit_ok c rq d b lo hi n lk ng x L base j w Q :
  okc c d (Int b lo hi) L -> St L base j w -> a_empty (w_src w) = false ->
  goal c (Int b lo hi) L base j Q ->
  wp (int_digit ops self c rq d (Int b lo hi) b lo hi n lk ng x) Q w.
Proof.
  intros Hok HS He HQ. unfold int_digit. destruct (digit_valid b x).
  - apply wp_bind. eapply num_op_wp; eauto; [apply Hok|]. intros w1 H1 E1.
    apply wp_bind. eapply num_op_wp; eauto; [apply Hok|]. intros w2 H2 E2.
    apply wp_bind. eapply wp_advance; eauto; [now rewrite E2, E1|]. intros w3 H3.
    destruct (_ =? _)%Z.
    + apply wp_bind. eapply negate_wp; eauto; [apply Hok|]. intros. apply wp_ret, HQ; auto.
    + hs.
  - apply wp_bind. eapply negate_wp; eauto; [apply Hok|]. intros. apply wp_ret, HQ.
    destruct (_ <=? _)%Z; auto.
Qed.

Lemma int_ok c rq d b lo hi n lk ng L base j w Q :
  okc c d (Int b lo hi) L -> St L base j w -> goal c (Int b lo hi) L base j Q ->
  wp (int_consume ops self c rq d (Int b lo hi) b lo hi n lk ng) Q w.
Proof.
  intros Hok HS HQ. unfold int_consume.
  apply wp_bind, wp_empty. destruct (a_empty (w_src w)) eqn:He.
  - apply wp_bind. eapply wp_final; eauto. destruct fin eqn:Ef.
    + apply wp_bind. eapply negate_wp; eauto; [apply Hok|]. intros. apply wp_ret, HQ.
      destruct (_ <=? _)%Z; auto.
    + apply wp_ret, HQ. split4; auto. constructor.
  - apply wp_bind, wp_next; auto. intros x. destruct (_ && _).
    + destruct (x =? 45)%Z; [|destruct (x =? 43)%Z].
      * apply wp_bind. eapply wp_advance; eauto. intros w1 H1. hs.
      * apply wp_bind. eapply wp_advance; eauto. intros w1 H1. hs.
      * eapply int_digit_ok; eauto.
    + eapply int_digit_ok; eauto.
Qed.

Lemma skipn_nth {A} (l : list A) i q rest :
  skipn i l = q :: rest -> nth_error l i = Some q /\ skipn (S i) l = rest.
Proof.
  revert i. induction l as [|x l IH]; intros [|i] H; cbn in *; try discriminate.
  - inversion H; subst. auto.
  - apply IH in H. destruct l; auto.
Qed.

Lemma res_partial i : fin = false -> res = false -> i = 0.
Proof. intros H1 H2. destruct Hfin; congruence. Qed.

Lemma seq_ok c d l L base j Q :
  okc c d (Seq l) L -> goal c (Seq l) L base j Q ->
  forall rest i q a w, skipn i l = q :: rest -> sh (c_skip c) q a -> St L base (owed a + j) w ->
  wp (seq_from ops self c d l i q rest a) Q w.
Proof.
  intros Hok HQ. induction rest as [|q' rest IH]; intros i q a w Hi Hsh HS; cbn [seq_from];
    apply skipn_nth in Hi as [Hi Hi'].
  all: pose proof (seq_dst_ok l i q d L Hi (proj1 Hok)) as Hd;
    destruct (seq_dst l i d) as [di|]; [|now apply wp_raise]; apply wp_bind;
    (eapply Hs; eauto;
     [repeat split; try apply Hok; auto; eapply fits_nth; eauto; apply Hok|]);
    intros r st' w' HP; cbn [fst snd]; destruct r; cbn in HP.
  1,4: idtac.
  - apply wp_ret, HQ. auto.
  - pose proof (skipn_nth _ _ _ _ Hi') as [Hn _].
    pose proof (seq_dst_ok l (S i) q' d L Hn (proj1 Hok)) as Hd'.
    destruct (seq_dst l (S i) d) as [di'|]; [|now apply wp_raise].
    apply wp_bind. eapply create_ok; eauto. intros st w2 [H1 H2]. eapply IH; eauto.
  - apply wp_ret, HQ. auto.
  - apply wp_ret, HQ. destruct HP as (HP1 & HP2 & HP3 & HP4). split4; auto.
    econstructor; eauto. now apply res_partial.
  - apply wp_ret, HQ. auto.
  - apply wp_ret, HQ. destruct HP as (HP1 & HP2 & HP3 & HP4). split4; auto.
    econstructor; eauto. now apply res_partial.
Qed.

Lemma alt_ok c rq d l L base j Q :
  okc c d (Alt l) L -> goal c (Alt l) L base j Q ->
  forall rest i q a w, skipn i l = q :: rest -> sh (c_skip c) q a -> St L base (owed a + j) w ->
  wp (alt_from ops self c rq d i q rest a) Q w.
Proof.
  intros Hok HQ. induction rest as [|q' rest IH]; intros i q a w Hi Hsh HS; cbn [alt_from];
    apply skipn_nth in Hi as [Hi Hi'].
  all: apply wp_bind;
    (eapply Hs; eauto;
     [repeat split; try apply Hok; auto; eapply fits_nth; eauto; apply Hok|]);
    intros r st' w' HP; cbn [fst snd]; destruct r; cbn in HP.
  - apply wp_ret, HQ. auto.
  - apply wp_ret, HQ. auto.
  - apply wp_ret, HQ. destruct HP as (HP1 & HP2 & HP3 & HP4). split4; auto.
    econstructor; eauto. now apply res_partial.
  - apply wp_ret, HQ. auto.
  - apply wp_bind. eapply create_ok; eauto; [apply Hok|]. intros st w2 [H1 H2]. eapply IH; eauto.
  - apply wp_ret, HQ. destruct HP as (HP1 & HP2 & HP3 & HP4). split4; auto.
    econstructor; eauto. now apply res_partial.
Qed.

Lemma nary_ok l i q k Q w :
  nth_error l i = Some q -> (res = false -> i = 0) ->
  (forall rest, skipn i l = q :: rest -> wp (k q rest) Q w) -> wp (nary_enter ops l i k) Q w.
Proof.
  intros Hn Hi Hk. unfold nary_enter. cbn [so_resumable a_ops ops].
  replace (negb res && negb (i =? 0)) with false.
  2: { destruct res; auto. rewrite (Hi eq_refl). reflexivity. }
  assert (exists rest, skipn i l = q :: rest) as [rest E].
  { clear -Hn. revert i Hn. induction l as [|x l IH]; intros [|i] H; cbn in *; try discriminate.
    - inversion H. eauto.
    - auto. }
  rewrite E. auto.
Qed.

Lemma repeat_ok c rq d lo hi q n a L base j w Q :
  okc c d (Repeat lo hi q) L -> sh (c_skip c) q a -> St L base (owed a + j) w ->
  goal c (Repeat lo hi q) L base j Q ->
  wp (repeat_consume ops self c rq d (Repeat lo hi q) lo hi q n a) Q w.
Proof.
  intros Hok Hsh HS HQ. unfold repeat_consume. apply wp_bind. eapply Hs; eauto.
  intros r st' w' HP. cbn [fst snd]. destruct r; cbn in HP.
  - destruct (_ && _); [apply wp_ret, HQ; auto|].
    apply wp_bind. eapply create_ok; eauto; [apply Hok|]. intros st w2 [H1 H2].
    hs.
  - apply wp_ret, HQ. destruct (lo <=? n); auto.
  - apply wp_ret, HQ. destruct HP as (HP1 & HP2 & HP3). split4; try tauto. now constructor.
Qed.

Lemma not_ok c rq d q a L base j w Q :
  okc c d (Not q) L -> sh (c_skip c) q a -> St L base (S (owed a) + j) w ->
  goal c (Not q) L base j Q -> wp (not_consume ops self c rq d q a) Q w.
Proof.
  intros Hok Hsh HS HQ. unfold not_consume. apply wp_bind.
  eapply Hs with (j := S j); eauto; [cbn in HS; rewrite <- plus_n_Sm; exact HS|].
  intros r st' w' HP. cbn [fst snd]. destruct r; cbn in HP.
  - apply wp_bind. eapply wp_commit; eauto. intros. apply wp_ret, HQ. auto.
  - apply wp_bind. eapply wp_commit; eauto. intros. apply wp_ret, HQ. auto.
  - apply wp_ret, HQ. destruct HP as (HP1 & HP2 & HP3). split4; try tauto.
    + cbn. rewrite plus_n_Sm. exact HP1.
    + now constructor.
Qed.

Lemma St_weaken L base k k' w : leak = true -> k' <= k -> St L base k w -> St L base k' w.
Proof.
  intros Hl Hk [H1 (m & Hm & Hr) H3 H4]. constructor; auto. exists m. split; auto.
  unfold lrel in *. rewrite Hl in *. lia.
Qed.

Lemma opt_ok c rq d q a L base j w Q :
  okc c d (Opt q) L -> sh (c_skip c) q a -> St L base (S (owed a) + j) w ->
  goal c (Opt q) L base j Q -> wp (opt_consume ops self c rq d q a) Q w.
Proof.
  intros Hok Hsh HS HQ.
  assert (Hl : leak = true).
  { destruct Hok as (_ & _ & _ & [H|H]); auto. discriminate. }
  unfold opt_consume. apply wp_bind.
  eapply Hs with (j := S j); eauto; [now repeat split; try apply Hok; left| |].
  { cbn in HS; rewrite <- plus_n_Sm; exact HS. }
  intros r st' w' HP. cbn [fst snd]. destruct r; cbn in HP.
  - apply wp_ret, HQ. apply (St_weaken L base (S j) j w' Hl); auto.
  - apply wp_bind. eapply wp_commit; eauto. intros. apply wp_ret, HQ. auto.
  - apply wp_ret, HQ. destruct HP as (HP1 & HP2 & HP3). split4; try tauto.
    + cbn. rewrite plus_n_Sm. exact HP1.
    + now constructor.
Qed.

Lemma forward_ok c c' rq d' p q a L base j w Q :
  okc c' d' q L -> sh (c_skip c') q a -> St L base (owed a + j) w ->
  (forall b, sh (c_skip c') q b -> sh (c_skip c) p (POne b)) ->
  goal c p L base j Q -> wp (forward_consume self c' rq d' q a) Q w.
Proof.
  intros Hok Hsh HS Hf HQ. unfold forward_consume. apply wp_bind. eapply Hs; eauto.
  intros r st' w' HP. apply wp_ret, HQ. cbn. destruct r; cbn in *; auto.
  destruct HP as (HP1 & HP2 & HP3). split4; try tauto. auto.
Qed.

Lemma act_dispatch_wp L base k a land d c (Q : unit -> world -> Prop) w :
  dst_ok d L -> dst_ok (c_bound c) L -> St L base k w ->
  (forall w', St L base k w' -> Q tt w') -> wp (act_dispatch a land d c) Q w.
Proof.
  intros Hd Hb HS HQ. unfold act_dispatch. destruct (conv (ac_land a) land) as [v|] eqn:Ec.
  2: { apply wp_raise. eapply conv_err; eauto. }
  unfold wp. destruct HS as [Hc H2 H3 H4].
  destruct (if ac_param a then _ else _) as [b|e] eqn:El.
  2: { destruct (ac_param a); [|discriminate]. eapply load_err; eauto. now rewrite Hc. }
  clear El. destruct (ac_fun a v b) as [r b'].
  destruct (if ac_param a then match c_bound c with _ => _ end else _) as [cells|e] eqn:Es.
  - assert (length cells = L) as Hl.
    { destruct (ac_param a); [|inversion Es; subst; auto].
      pose proof (store_ok (w_cells w) (c_bound c) b') as Hst. rewrite Hc in Hst. specialize (Hst Hb).
      destruct (c_bound c) as [|lv path t]; [inversion Es; subst; auto|].
      destruct (has_ty t b'); [|discriminate]. rewrite Es in Hst. exact Hst. }
    destruct (ac_void a).
    + apply HQ. constructor; auto.
    + change (wp (m_assign d r) Q (World (w_src w) cells (Event (ac_id a) v :: w_trace w))).
      eapply wp_assign; eauto. constructor; auto.
  - destruct (ac_param a); [|discriminate].
    pose proof (store_ok (w_cells w) (c_bound c) b') as Hst. rewrite Hc in Hst. specialize (Hst Hb).
    destruct (c_bound c) as [|lv path t]; [discriminate|].
    destruct (has_ty t b'); [|inversion Es; auto with safe].
    rewrite Es in Hst. exact Hst.
Qed.

Lemma action_ok c rq d act q land a L base j w Q :
  okc c d (Act act q) L -> sh (c_skip c) q a -> St L base (owed a + j) w ->
  goal c (Act act q) L base j Q -> wp (action_consume self c rq d act q land a) Q w.
Proof.
  intros Hok Hsh HS HQ. unfold action_consume. apply wp_bind.
  eapply celled_ok; eauto; [ok|]. intros r st' v w' HP. destruct r; cbn in HP.
  - apply wp_bind. eapply act_dispatch_wp; eauto; try apply Hok. intros. apply wp_ret, HQ. auto.
  - apply wp_ret, HQ. auto.
  - apply wp_ret, HQ. destruct HP as (HP1 & HP2 & HP3). split4; try tauto.
    constructor; auto.
Qed.

Lemma make_from_err t v e : make_from t v = Err e -> okerr e.
Proof.
  unfold make_from. destruct v; try (intros E; inversion E; auto with safe; fail).
  destruct t; try (intros E; inversion E; auto with safe; fail); try discriminate.
  - destruct l as [|? [|? ?]]; intros E; inversion E; auto with safe.
  - destruct l as [|? [|? ?]]; try (intros E; inversion E; auto with safe; fail). apply conv_err.
  - apply conv_err.
Qed.

Lemma construct_ok c rq d args q buf a L base j w Q :
  okc c d (Construct args q) L -> sh (c_skip c) q a -> St L base (owed a + j) w ->
  goal c (Construct args q) L base j Q -> wp (construct_consume self c rq d args q buf a) Q w.
Proof.
  intros Hok Hsh HS HQ. unfold construct_consume. apply wp_bind.
  eapply celled_ok; eauto; [ok|]. intros r st' v w' HP. destruct r; cbn in HP.
  - destruct (make_from (dst_ty d) v) eqn:E; [|apply wp_raise; eapply make_from_err; eauto].
    apply wp_bind. eapply wp_assign; eauto; [apply Hok|]. intros. apply wp_ret, HQ. auto.
  - apply wp_ret, HQ. auto.
  - apply wp_ret, HQ. destruct HP as (HP1 & HP2 & HP3). split4; try tauto.
    constructor; auto.
Qed.

Lemma except1_ok c rq d q neg a L base j w Q :
  okc c d q L -> sh (c_skip c) q a -> St L base (owed a + j) w ->
  goal c (Except q neg) L base j Q ->
  wp (bind (self c (except_req rq) d q a) (fun y => ret (fst y, PExcept 1 (snd y)))) Q w.
Proof.
  intros Hok Hsh HS HQ. apply wp_bind. eapply Hs; eauto. intros r st' w' HP. apply wp_ret, HQ. cbn.
  destruct r; cbn in *; auto. destruct HP as (HP1 & HP2 & HP3). split4; try tauto.
  now constructor.
Qed.

Lemma except_ok c rq d q neg i a L base j w Q :
  okc c d (Except q neg) L -> sh (c_skip c) (Except q neg) (PExcept i a) -> St L base (owed a + j) w ->
  goal c (Except q neg) L base j Q -> wp (except_consume ops self c rq d q neg i a) Q w.
Proof.
  intros Hok Hsh HS HQ. destruct Hok as (Hd & Hb & Hk & Hf). apply fits_and in Hf as [Hq Hn].
  unfold except_consume. inversion Hsh; subst.
  - apply wp_bind. eapply Hs; eauto; [ok|]. intros r st' w' HP. cbn [fst snd]. destruct r; cbn in HP.
    + apply wp_ret, HQ. auto.
    + apply wp_bind. eapply create_ok; eauto. intros st w2 [H4 H5]. eapply except1_ok; eauto. ok.
    + apply wp_ret, HQ. destruct HP as (HP1 & HP2 & HP3). split4; try tauto. now constructor.
  - eapply except1_ok; eauto. ok.
Qed.

Lemma list_ok c rq d q sep i a L base j w Q :
  okc c d (PList q sep) L -> sh (c_skip c) (PList q sep) (PListSt i a) ->
  St L base (S (owed a) + j) w ->
  goal c (PList q sep) L base j Q -> wp (list_consume ops self c rq d (PList q sep) q sep i a) Q w.
Proof.
  intros Hok Hsh HS HQ. pose proof Hok as (Hd & Hb & Hk & Hf). apply fits_and in Hf as [Hq Hn].
  cbn in HS. rewrite plus_n_Sm in HS.
  unfold list_consume. inversion Hsh; subst; apply wp_bind.
  - eapply Hs; eauto; [ok|]. intros r st' w' HP. cbn [fst snd]. destruct r; cbn in HP.
    + apply wp_bind. eapply wp_cancel; eauto. intros w1 HS1.
      apply wp_bind. eapply wp_prepare; eauto. intros w2 HS2.
      apply wp_bind. eapply create_ok; [exact I|exact HS2|]. intros st w3 [HS4 HS5].
      eapply Hs; eauto.
      * now constructor.
      * cbn. rewrite plus_n_Sm. exact HS4.
    + apply wp_bind. eapply wp_commit; eauto. intros. apply wp_ret, HQ. auto.
    + apply wp_ret, HQ. destruct HP as (HP1 & HP2 & HP3). split4; try tauto.
      * cbn. rewrite plus_n_Sm. exact HP1.
      * now constructor.
  - eapply Hs; eauto; [ok|]. intros r st' w' HP. cbn [fst snd]. destruct r; cbn in HP.
    + apply wp_bind. eapply create_ok; eauto. intros st w3 [HS4 HS5].
      eapply Hs; eauto.
      * now constructor.
      * cbn. rewrite plus_n_Sm. exact HS4.
    + apply wp_bind. eapply wp_commit; eauto. intros. apply wp_ret, HQ. auto.
    + apply wp_ret, HQ. destruct HP as (HP1 & HP2 & HP3). split4; try tauto.
      * cbn. rewrite plus_n_Sm. exact HP1.
      * now constructor.
Qed.

Lemma recur_ok c d id b a L base j w Q :
  okc c d (Recur id b) L -> sh (c_skip c) (Recur id b) (PRecur a) ->
  St L base (owed (PRecur a) + j) w ->
  goal c (Recur id b) L base j Q -> wp (recur_consume ops env self c d id a) Q w.
Proof.
  intros Hok Hsh HS HQ. unfold recur_consume. destruct (env id) as [q|] eqn:E.
  2: { apply wp_raise. auto with safe. }
  assert (HK : forall a' w', St L base (owed a' + j) w' -> sh (c_skip c) q a' ->
            wp (bind (self c recur_req d q a') (fun x => ret (fst x, PRecur (Some (snd x))))) Q w').
  { intros a' w' H1 H2. apply wp_bind. eapply Hs; eauto.
    - repeat split; try apply Hok. eauto.
    - intros r st' w'' HP. apply wp_ret, HQ. destruct r; cbn in *; auto.
      destruct HP as (HP1 & HP2 & HP3). split4; try tauto. econstructor; eauto. }
  apply wp_bind. destruct a as [a|].
  - apply wp_ret. apply HK; auto. inversion Hsh; subst. congruence.
  - eapply create_ok; eauto; [apply Hok|]. intros st w' [H1 H2]. now apply HK.
Qed.

Lemma step_ok : safe_self (consume_step ops env self).
Proof.
  intros c rq d p st L base j w Q Hok Hsh HS HQ.
  fold (goal c p L base j Q) in HQ. unfold consume_step.
  assert (Hf : forall c' d' q, dst_ok d' L -> dst_ok (c_bound c') L -> fits (c_skip c') -> fits q ->
             okc c' d' q L) by (now repeat split).
  pose proof Hok as (Hd & Hb & Hk & Hp).
  inversion Hsh; subst; cbn -[owed except_consume list_consume] in *.
  - now eapply skip_ok'; eauto.
  - now eapply clean_ok; eauto.
  - now eapply atomic_ok; eauto.
  - now eapply char_ok; eauto.
  - now eapply char_symbol_ok; eauto.
  - now eapply eoi_ok; eauto.
  - apply wp_ret, HQ. auto.
  - apply wp_ret, HQ. auto.
  - now eapply lit_ok; eauto.
  - now eapply sym_ok; eauto.
  - now eapply uint_ok; eauto.
  - now eapply int_ok; eauto.
  - eapply nary_ok; eauto. intros rest Hr. now eapply seq_ok; eauto.
  - eapply nary_ok; eauto. intros rest Hr. now eapply alt_ok; eauto.
  - now eapply repeat_ok; eauto.
  - now eapply not_ok; eauto.
  - now eapply opt_ok; eauto.
  - eapply (forward_ok c c); [now apply Hf|eassumption|eassumption| |exact HQ].
    intros; now apply sh_discard.
  - eapply (forward_ok c (Ctx Fail (c_bound c)));
      [apply Hf; auto using fits_fail|eassumption|eassumption| |exact HQ].
    intros; now apply sh_lexeme.
  - apply fits_and in Hp as [Hq Hsk].
    eapply (forward_ok c (Ctx s (c_bound c))); [now apply Hf|eassumption|eassumption| |exact HQ].
    intros; now apply sh_with_skipper.
  - eapply (forward_ok c (Ctx (c_skip c) d)); [now apply Hf|eassumption|eassumption| |exact HQ].
    intros; now apply sh_bind_dst.
  - now eapply construct_ok; eauto.
  - now eapply action_ok; eauto.
  - now eapply except_ok; eauto.
  - now eapply except_ok; eauto.
  - now eapply list_ok; eauto.
  - now eapply list_ok; eauto.
  - now eapply recur_ok; eauto.
  - now eapply recur_ok; eauto.
Qed.
End Classes.

Lemma consume_safe n : safe_self (consume ops env n).
Proof.
  induction n as [|n IH]; cbn.
  - intros c rq d p st L base j w Q _ _ _ _. apply wp_raise. auto with safe.
  - now apply step_ok.
Qed.

End Safety.
