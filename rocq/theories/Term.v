(** Guarded patterns come to an end.

    Total correctness over the reference cursor, with all input given: an object created at
    the position [X] never goes back behind [X], whatever the marks that Optional leaves
    behind, and is behind [X] when something that eats has matched. *)
From Coq Require Import List ZArith Bool Arith Lia.
From Verif Require Import Base CharSet Source Dst Pattern Parser Session SpecSession SpecTerm SpecCut Rel Safety Big PegTerm.
Import ListNotations.

Section Tot.
Context (inp : list Z).
Let ops := a_ops true.
Let world := (Parser.world cursor).

(** Bounds that are not reached ([0]: none). *)
Definition far (N : nat) : Prop := N = 0 \/ 2 <= N /\ length inp < N.

(** [F N n]: a computation with fuel [n], the same for all the bounds [N].  It comes to an
    end, and if without error then so that [Q]. *)
Definition tot {A} (F : nat -> nat -> M cursor A) (Q : A -> world -> Prop) (w : world) : Prop :=
  exists n o, (forall N m, far N -> n <= m -> F N m w = o) /\
  match o with Done (a, w') => Q a w' | Err e => e <> EFuel end.

Lemma tot_err {A} (F : nat -> nat -> M cursor A) (Q : A -> world -> Prop) w e : (forall N n, F N n w = Err e) -> e <> EFuel -> tot F Q w.
Proof. intros H He. exists 0, (Err e). auto. Qed.

Lemma tot_done {A} (F : nat -> nat -> M cursor A) (Q : A -> world -> Prop) w a w' : (forall N n, F N n w = Done (a, w')) -> Q a w' -> tot F Q w.
Proof. intros H HQ. exists 0, (Done (a, w')). auto. Qed.

Lemma tot_ret {A} (a : A) (Q : A -> world -> Prop) w : Q a w -> tot (fun _ _ => ret a) Q w.
Proof. intros H. eapply tot_done; eauto. reflexivity. Qed.

Lemma tot_raise {A} e (Q : A -> world -> Prop) w : e <> EFuel -> tot (fun _ _ => raise e) Q w.
Proof. intros H. eapply tot_err; eauto. reflexivity. Qed.

Lemma tot_bind {A B} (F : nat -> nat -> M cursor A) (K : nat -> nat -> A -> M cursor B) Q w :
  tot F (fun a w' => tot (fun N n => K N n a) Q w') w -> tot (fun N n => bind (F N n) (K N n)) Q w.
Proof.
  intros (n & o & Hn & H). destruct o as [[a w']|e].
  - destruct H as (n2 & o2 & Hn2 & H2). exists (Nat.max n n2), o2. split; auto.
    intros N m HN Hm. unfold bind. rewrite Hn by (auto; lia). apply Hn2; auto. lia.
  - exists n, (Err e). split; auto. intros N m HN Hm. unfold bind. now rewrite Hn.
Qed.

Lemma tot_cons {A} (F : nat -> nat -> M cursor A) (Q Q' : A -> world -> Prop) w :
  tot F Q w -> (forall a w', Q a w' -> Q' a w') -> tot F Q' w.
Proof. intros (n & o & Hn & H) HQ. exists n, o. split; auto. destruct o as [[a w']|e]; auto. Qed.

Lemma tot_ext {A} (F G : nat -> nat -> M cursor A) Q w : (forall N n, far N -> F N n w = G N n w) -> tot F Q w -> tot G Q w.
Proof. intros HE (n & o & Hn & H). exists n, o. split; auto. intros N m HN Hm. rewrite <- HE; auto. Qed.

Lemma tot_eq {A} (F G : nat -> nat -> M cursor A) Q w : (forall N n, far N -> G N n = F N n) -> tot F Q w -> tot G Q w.
Proof. intros HE. apply tot_ext. intros N n HN. now rewrite HE. Qed.

Lemma tot_shift {A} (F : nat -> nat -> M cursor A) Q w : tot (fun N n => F N (S n)) Q w -> tot F Q w.
Proof.
  intros (n & o & Hn & H). exists (S n), o. split; auto. intros N [|m] HN Hm; [lia|]. apply Hn; auto. lia.
Qed.

Lemma tot_with_cell {A} v (F : nat -> nat -> nat -> M cursor A) (Q : A * val -> world -> Prop) w :
  (forall lvl w1, w_src w1 = w_src w ->
     tot (fun N n => F N n lvl) (fun a w' => forall v' w'', w_src w'' = w_src w' -> Q (a, v') w'') w1) ->
  tot (fun N n => with_cell v (F N n)) Q w.
Proof.
  intros H. unfold with_cell.
  destruct (H (length (w_cells w)) (World (w_src w) (w_cells w ++ [v]) (w_trace w)) eq_refl) as (n & o & Hn & HO).
  destruct o as [[a w']|e].
  - destruct (nth_error (w_cells w') (length (w_cells w))) as [v'|] eqn:E.
    + eexists n, _. split; [intros N m HN Hm; rewrite Hn, E by auto; reflexivity|]. now apply HO.
    + exists n, (Err EShape). split; [intros N m HN Hm; rewrite Hn, E by auto; reflexivity|discriminate].
  - exists n, (Err e). split; auto. intros N m HN Hm. now rewrite Hn.
Qed.

(** Position and marks: all at [X] or behind, [k] marks at least on top of [base]. *)
Record St (X : nat) (base : list nat) (k : nat) (w : world) : Prop := {
  st_inp : a_inp (w_src w) = inp;
  st_pos : X <= a_pos (w_src w) <= length inp;
  st_stk : exists m, a_stk (w_src w) = m ++ base /\ k <= length m /\ Forall (fun y => X <= y <= length inp) m }.

Definition pos (w : world) : nat := a_pos (w_src w).

Lemma St_src X base k w w' : w_src w' = w_src w -> St X base k w -> St X base k w'.
Proof. intros E []. constructor; rewrite E; auto. Qed.

Lemma St_le X base k k' w : k' <= k -> St X base k w -> St X base k' w.
Proof. intros H [A C (m & E & F & G)]. constructor; auto. exists m. repeat split; auto. lia. Qed.

(** A new start at the present position. *)
Lemma St_here X base k w : St X base k w -> St (pos w) (a_stk (w_src w)) 0 w.
Proof. intros [A C _]. constructor; auto. unfold pos. lia. exists []. repeat split; auto. Qed.

(** ... and the end of what was started there. *)
Lemma St_back X base k w Y w' : St X base k w -> St Y (a_stk (w_src w)) 0 w' -> X <= Y -> St X base k w'.
Proof.
  intros [A C (m & E & F & G)] [A' C' (m' & E' & F' & G')] H. constructor; auto; [lia|].
  exists (m' ++ m). rewrite E', E, app_assoc. split; auto. rewrite app_length. split; [lia|].
  apply Forall_app. split; auto. eapply Forall_impl; [|exact G']. cbn. lia.
Qed.

Lemma pop X base k w : St X base (S k) w ->
  exists y m, a_stk (w_src w) = y :: m ++ base /\ k <= length m /\ X <= y <= length inp /\ Forall (fun y => X <= y <= length inp) m.
Proof.
  intros [_ _ (m & E & F & G)]. destruct m as [|y m]; [cbn in F; lia|]. inversion G; subst. exists y, m. cbn in F. repeat split; auto; lia.
Qed.

(** ** Operations of the source *)
Ltac runs := eapply tot_done; [intros N n; reflexivity|].

Lemma t_empty (Q : bool -> world -> Prop) w : Q (a_empty (w_src w)) w -> tot (fun _ _ => m_empty ops) Q w.
Proof. intros H. runs. exact H. Qed.

Lemma t_final (Q : bool -> world -> Prop) w : Q (a_fin (w_src w)) w -> tot (fun _ _ => m_final ops) Q w.
Proof. intros H. runs. exact H. Qed.

Lemma t_next (Q : Z -> world -> Prop) w : (forall c, Q c w) -> tot (fun _ _ => m_next ops) Q w.
Proof.
  intros H. unfold tot, m_next. cbn. destruct (a_next (w_src w)) as [c|e] eqn:E.
  - exists 0, (Done (c, w)). auto.
  - exists 0, (Err e). split; auto. unfold a_next, of_option in E. destruct (nth_error _ _); [discriminate|]. now injection E as <-.
Qed.

Lemma t_advance X base k (Q : unit -> world -> Prop) w : St X base k w ->
  (forall w', St X base k w' -> pos w' = S (pos w) -> a_stk (w_src w') = a_stk (w_src w) -> a_empty (w_src w) = false -> Q tt w') -> tot (fun _ _ => m_advance ops) Q w.
Proof.
  intros HS H. unfold tot, m_advance, m_src. cbn. unfold a_advance. destruct (a_empty (w_src w)) eqn:E.
  - eexists 0, _. split; [reflexivity|]. discriminate.
  - eexists 0, _. split; [reflexivity|]. destruct HS as [A C D]. unfold a_empty in E. rewrite A in E. apply Nat.leb_gt in E.
    apply H; auto. constructor; cbn; auto. lia.
Qed.

Lemma t_prepare X base k (Q : unit -> world -> Prop) w : St X base k w ->
  (forall w', St X base (S k) w' -> pos w' = pos w -> a_stk (w_src w') = pos w :: a_stk (w_src w) -> Q tt w') -> tot (fun _ _ => m_prepare ops) Q w.
Proof.
  intros HS H. runs. apply H; auto. destruct HS as [A C (m & E & F & G)]. constructor; cbn; auto.
  exists (a_pos (w_src w) :: m). rewrite E. repeat split; cbn; auto. lia.
Qed.

Lemma t_commit X base k (Q : unit -> world -> Prop) w : St X base (S k) w ->
  (forall w', St X base k w' -> Q tt w') -> tot (fun _ _ => m_commit ops) Q w.
Proof.
  intros HS H. destruct (pop _ _ _ _ HS) as (y & m & E & F & Hy & G). destruct HS as [A C _].
  eapply tot_done; [intros N n; unfold m_commit, m_src; cbn; unfold a_commit; rewrite E; reflexivity|].
  apply H. constructor; cbn; auto. exists m. auto.
Qed.

Lemma t_cancel X base k (Q : unit -> world -> Prop) w : St X base (S k) w ->
  (forall w', St X base k w' -> pos w' = pos w -> Q tt w') -> tot (fun _ _ => m_cancel ops) Q w.
Proof.
  intros HS H. destruct (pop _ _ _ _ HS) as (y & m & E & F & Hy & G). destruct HS as [A C _].
  eapply tot_done; [intros N n; unfold m_cancel, m_src; cbn; unfold a_cancel; rewrite E; reflexivity|].
  apply H; auto. constructor; cbn; auto. exists m. auto.
Qed.

(** Operations on the cells run out of no fuel. *)
Lemma t_cells f (Q : unit -> world -> Prop) w : (forall c, f c <> Err EFuel) ->
  (forall w', w_src w' = w_src w -> Q tt w') -> tot (fun _ _ => on_cells f) Q w.
Proof.
  intros Hf H. unfold tot, on_cells. destruct (f (w_cells w)) as [c|e] eqn:E.
  - eexists 0, _. split; [reflexivity|]. now apply H.
  - eexists 0, _. split; [reflexivity|]. intros ->. now apply (Hf (w_cells w)).
Qed.
Lemma t_assign d v (Q : unit -> world -> Prop) w : (forall w', w_src w' = w_src w -> Q tt w') -> tot (fun _ _ => m_assign d v) Q w.
Proof. apply t_cells. intros c. apply nf_assign. Qed.

Lemma t_num g d (Q : unit -> world -> Prop) w : (forall w', w_src w' = w_src w -> Q tt w') -> tot (fun _ _ => on_cells (fun cs => num_op g cs d)) Q w.
Proof. apply t_cells. intros c. apply nf_num. Qed.

Lemma t_neg d ng (Q : unit -> world -> Prop) w : (forall w', w_src w' = w_src w -> Q tt w') -> tot (fun _ _ => int_negate d ng) Q w.
Proof. intros H. unfold int_negate. destruct ng; [now apply t_num|now apply tot_ret, H]. Qed.

Lemma act_src {S} a v d c (w w' : Parser.world S) : act_dispatch a v d c w = Done (tt, w') -> w_src w' = w_src w.
Proof.
  unfold act_dispatch. destruct (conv _ _) as [x|]; [|discriminate]. destruct (if ac_param a then _ else _) as [b|]; [|discriminate].
  destruct (ac_fun a x b) as [r b']. destruct (if ac_param a then _ else _) as [cs|]; [|discriminate].
  destruct (ac_void a); [intros [= <-]; reflexivity|]. unfold m_assign, on_cells. destruct (assign _ _ _); [|discriminate]. intros [= <-]. reflexivity.
Qed.

Lemma t_act a v d c (Q : unit -> world -> Prop) w : (forall w', w_src w' = w_src w -> Q tt w') -> tot (fun _ _ => act_dispatch a v d c) Q w.
Proof.
  intros H. unfold tot. pose proof (quiet_act a v d c w) as HQ. destruct (act_dispatch a v d c w) as [[[] w']|e] eqn:E; eexists 0, _; (split; [reflexivity|]).
  - apply H. eapply act_src; eauto.
  - congruence.
Qed.

(** ** Creation *)
(** Objects as they are when created. *)
Inductive fr : pat -> pat -> pst -> Prop :=
| fr_skip sk p s a : is_fail sk = false -> fr Fail sk s -> fr sk p a -> fr sk p (PSkip false s a)
| fr_clean sk p a : fr sk p a -> fr sk p (PClean a)
| fr_atomic sk p b a : fr sk p a -> fr sk p (PAtomic b a)
| fr_char sk s : fr sk (Char s) PLeaf
| fr_char_symbol sk m : fr sk (CharSymbol m) PLeaf
| fr_eoi sk : fr sk Eoi PLeaf
| fr_pass sk : fr sk Pass PLeaf
| fr_fail sk : fr sk Fail PLeaf
| fr_lit sk s : fr sk (Lit s) (PLit s)
| fr_sym sk m : fr sk (Symbol m) (PSym (trie_build m) None)
| fr_uint sk b lo hi : fr sk (UInt b lo hi) (PUInt 0)
| fr_int sk b lo hi : fr sk (Int b lo hi) (PInt 0 true false)
| fr_seq sk l q t a : l = q :: t -> fr sk q a -> fr sk (Seq l) (PNary 0 a)
| fr_alt sk l q t a : l = q :: t -> fr sk q a -> fr sk (Alt l) (PNary 0 a)
| fr_repeat sk lo hi q a : fr sk q a -> fr sk (Repeat lo hi q) (PRepeat 0 a)
| fr_not sk q a : fr sk q a -> fr sk (Not q) (PNot a)
| fr_opt sk q a : fr sk q a -> fr sk (Opt q) (POpt a)
| fr_discard sk q a : fr sk q a -> fr sk (Discard q) (POne a)
| fr_lexeme sk q a : fr Fail q a -> fr sk (Lexeme q) (POne a)
| fr_with_skipper sk q s a : fr s q a -> fr sk (WithSkipper q s) (POne a)
| fr_bind_dst sk q a : fr sk q a -> fr sk (BindDst q) (POne a)
| fr_construct sk args q b a : fr sk q a -> fr sk (Construct args q) (PConstruct b a)
| fr_act sk act q b a : fr sk q a -> fr sk (Act act q) (PAction b a)
| fr_except sk q neg a : fr sk neg a -> fr sk (Except q neg) (PExcept 0 a)
| fr_list sk q sep a : fr sk q a -> fr sk (PList q sep) (PListSt 0 a)
| fr_recur sk id b : fr sk (Recur id b) (PRecur None).

Definition made (X : nat) (base : list nat) (j : nat) (sk p : pat) (P : nat) (st : pst) (w : world) : Prop :=
  St X base (owed st + j) w /\ pos w = P /\ fr sk p st.

(** [mk] creates an object. *)
Definition makes (sk p : pat) (mk : M cursor pst) : Prop :=
  forall X base j w, St X base j w -> tot (fun _ _ => mk) (made X base j sk p (pos w)) w.

Lemma t_adapt sk k rq d p raw :
  match k with None => True | Some mk => is_fail sk = false /\ makes Fail sk mk end ->
  (forall rq d, makes sk p (raw rq d)) -> makes sk p (adapt ops k rq d p raw).
Proof.
  intros Hk Hr X base j w HS. unfold adapt. destruct (r_recur rq); [now apply Hr|].
  set (atomic := fun rq => if r_atomic rq && negb (f_atomic p)
     then bind (with_cell (default_init (dst_value_ty d))
            (fun lvl => raw (unatomic_req rq) (dst_cell lvl (dst_value_ty d))))
          (fun x => ret (PAtomic (snd x) (fst x))) else raw rq d).
  assert (HA : forall rq, makes sk p (atomic rq)).
  { clear -Hr. intros rq X base j w HS. unfold atomic. destruct (_ && _); [|now apply Hr].
    apply (tot_bind (fun _ _ => _) (fun _ _ => _)). apply (tot_with_cell _ (fun _ _ => _)). intros lvl w1 E1.
    eapply tot_cons; [apply Hr, (St_src _ _ _ _ _ E1 HS)|]. intros st w' (H1 & H2 & H3) v' w'' E2. apply tot_ret.
    split; [|split]; [eapply St_src; eauto|unfold pos in *; rewrite E2; congruence|now constructor]. }
  assert (HC : makes sk p (if r_clean rq && negb (f_clean p) then
          bind (atomic (unclean_req rq)) (fun c => bind (m_prepare ops) (fun _ => ret (PClean c)))
        else atomic rq)).
  { clear -HA. intros X base j w HS. destruct (_ && _); [|now apply HA].
    apply (tot_bind (fun _ _ => _) (fun _ _ => _)). eapply tot_cons; [apply HA, HS|]. intros st w' (H1 & H2 & H3).
    apply (tot_bind (fun _ _ => _) (fun _ _ => _)). eapply t_prepare; eauto. intros w'' H4 E _. apply tot_ret.
    split; [exact H4|]. split; [congruence|now constructor]. }
  destruct k as [mk|]; [|now apply HC]. destruct Hk as [Hf Hk].
  apply (tot_bind (fun _ _ => _) (fun _ _ => _)). eapply tot_cons; [apply Hk, HS|]. intros s w1 (H1 & H2 & H3).
  apply (tot_bind (fun _ _ => _) (fun _ _ => _)). eapply tot_cons; [apply HC, H1|]. intros a w2 (H4 & H5 & H6).
  apply tot_ret. split; [|split; [congruence|now constructor]]. cbn.
  replace (owed s + owed a + j) with (owed a + (owed s + j)) by lia. exact H4.
Qed.

Lemma nf_seq l i d e : seq_dst l i d = Err e -> e <> EFuel.
Proof. intros E ->. now apply (nf_seq_dst l i d). Qed.

Lemma t_create_in p : forall sk k rq d,
  match k with None => True | Some mk => is_fail sk = false /\ makes Fail sk mk end -> makes sk p (create_in ops k rq d p).
Proof.
  assert (Leaf : forall sk p st, owed st = 0 -> fr sk p st -> makes sk p (ret st)).
  { intros sk p0 st Ho Hf X base j w HS. apply tot_ret. split; [now rewrite Ho|auto]. }
  assert (One : forall (F : pst -> pst) sk p (mk : M cursor pst) sk' q,
            (forall a, owed (F a) = owed a) -> (forall a, fr sk' q a -> fr sk p (F a)) ->
            makes sk' q mk -> makes sk p (bind mk (fun a => ret (F a)))).
  { intros F sk q mk sk' q' Ho Hf Hm X base j w HS. apply (tot_bind (fun _ _ => _) (fun _ _ => _)). eapply tot_cons; [apply Hm, HS|].
    intros a w' (H1 & H2 & H3). apply tot_ret. split; [now rewrite Ho|auto]. }
  assert (Mark : forall (F : pst -> pst) sk p (mk : M cursor pst) q,
            (forall a, owed (F a) = S (owed a)) -> (forall a, fr sk q a -> fr sk p (F a)) ->
            makes sk q mk -> makes sk p (bind mk (fun a => bind (m_prepare ops) (fun _ => ret (F a))))).
  { intros F sk q mk q' Ho Hf Hm X base j w HS. apply (tot_bind (fun _ _ => _) (fun _ _ => _)). eapply tot_cons; [apply Hm, HS|].
    intros a w' (H1 & H2 & H3). apply (tot_bind (fun _ _ => _) (fun _ _ => _)). eapply t_prepare; eauto. intros w'' H4 E _.
    apply tot_ret. split; [now rewrite Ho|split; [congruence|auto]]. }
  assert (Cell : forall v (F : val -> pst -> pst) sk p (mk : nat -> M cursor pst) q,
            (forall v a, owed (F v a) = owed a) -> (forall v a, fr sk q a -> fr sk p (F v a)) ->
            (forall lvl, makes sk q (mk lvl)) -> makes sk p (bind (with_cell v mk) (fun x => ret (F (snd x) (fst x))))).
  { intros v F sk q mk q' Ho Hf Hm X base j w HS. apply (tot_bind (fun _ _ => _) (fun _ _ => _)). apply (tot_with_cell _ (fun _ _ => _)). intros lvl w1 E1.
    eapply tot_cons; [apply Hm, (St_src _ _ _ _ _ E1 HS)|]. intros st w' (H1 & H2 & H3) v' w'' E2. apply tot_ret. cbn [fst snd].
    split; [rewrite Ho; eapply St_src; eauto|]. split; [unfold pos in *; rewrite E2; congruence|auto]. }
  assert (Bad : forall sk p, makes sk p (raise EType)) by (intros sk p0 X base j w HS; apply tot_raise; discriminate).
  assert (Num : forall sk p d st, owed st = 0 -> fr sk p st -> makes sk p (bind (on_cells (fun c => num_zero c d)) (fun _ => ret st))).
  { intros sk p0 d st Ho Hf X base j w HS. apply (tot_bind (fun _ _ => _) (fun _ _ => _)). apply t_cells; [intros c; apply nf_zero|].
    intros w' E. apply tot_ret. split; [rewrite Ho; eapply St_src; eauto|]. split; [unfold pos; now rewrite E|auto]. }
  induction p using pat_ind'; intros sk k rq d Hk; cbn [create_in]; apply t_adapt; auto; clear rq d; intros rq d.
  1-3: apply Leaf; [reflexivity|constructor].
  1: destruct (r_consumes rq); [apply Bad|apply Leaf; [reflexivity|constructor]].
  1-3: apply Leaf; [reflexivity|constructor].
  1-2: apply Num; [reflexivity|constructor].
  - destruct l as [|q l]; [apply Bad|]. inversion H; subst.
    destruct (seq_dst (q :: l) 0 d) as [d'|e] eqn:E; [|intros X base j w HS; apply tot_raise; eapply nf_seq; eauto].
    apply (One (PNary 0) sk (Seq (q :: l)) _ sk q); auto. intros a Ha. eapply fr_seq; eauto.
  - destruct l as [|q l]; [apply Bad|]. inversion H; subst.
    apply (One (PNary 0) sk (Alt (q :: l)) _ sk q); auto. intros a Ha. eapply fr_alt; eauto.
  - destruct (_ && _); [apply Bad|]. apply (One (PRepeat 0) sk _ _ sk p); auto. intros a Ha. now constructor.
  - apply (Mark PNot sk _ _ p); auto. intros a Ha. now constructor.
  - apply (Mark POpt sk _ _ p); auto. intros a Ha. now constructor.
  - apply (One POne sk _ _ sk p); auto. intros a Ha. now constructor.
  - apply (One POne sk _ _ Fail p); auto. intros a Ha. now constructor.
  - apply (One POne sk _ _ p2 p1); auto. intros a Ha. now constructor.
    apply IHp1. destruct (is_fail p2) eqn:E; auto.
  - apply (One POne sk _ _ sk p); auto. intros a Ha. now constructor.
  - apply (Cell _ PConstruct sk _ _ p); auto. intros v a Ha. now constructor.
  - apply (Cell _ PAction sk _ _ p); auto. intros v a0 Ha. now constructor.
  - apply (One (PExcept 0) sk _ _ sk p2); auto. intros a Ha. now constructor.
  - apply (Mark (PListSt 0) sk _ _ p1); auto. intros a Ha. now constructor.
  - apply Leaf; [reflexivity|constructor].
Qed.

(** Bounds that are not reached make no difference to the objects created. *)
Lemma cut_fail N p : is_fail (cut N p) = is_fail p.
Proof. now destruct p. Qed.

Lemma cut_atomic N p : f_atomic (cut N p) = f_atomic p.
Proof. induction p using pat_ind'; cbn; auto. Qed.

Lemma cut_clean N p : far N -> f_clean (cut N p) = f_clean p.
Proof.
  intros HN. induction p using pat_ind'; cbn; auto.
  all: destruct (Z.eqb_spec hi 0) as [->|]; auto; cbn; apply Z.eqb_neq; destruct HN as [->|[? _]]; cbn; lia.
Qed.

Lemma cut_ignores N p : ignores (cut N p) = ignores p.
Proof. induction p using pat_ind'; cbn; auto. Qed.

Lemma cut_index N l : forall i, tuple_index1 (map (cut N) l) i = tuple_index1 l i.
Proof. induction l as [|p l IH]; intros i; cbn; auto. rewrite cut_ignores. destruct i; auto. Qed.

Lemma cut_seq_dst N l i d : seq_dst (map (cut N) l) i d = seq_dst l i d.
Proof.
  unfold seq_dst. destruct d as [|lv path t]; auto. rewrite nth_error_map. destruct (nth_error l i) as [p|]; cbn; auto.
  now rewrite cut_ignores, cut_index.
Qed.

Lemma cut_repeat_req N lo hi rq : repeat_req lo (most N lo hi) rq = repeat_req lo hi rq.
Proof.
  unfold most. destruct (Nat.eqb_spec hi 0) as [->|]; cbn; auto. destruct (Nat.eqb_spec N 0) as [->|]; cbn; auto.
  unfold repeat_req. destruct (Nat.eqb_spec lo (lo + N)); [lia|]. destruct (Nat.eqb_spec lo 0); cbn; auto.
Qed.

Definition same {A} (m1 m2 : M cursor A) : Prop := forall w, m1 w = m2 w.

Lemma same_bind {A B} (m1 m2 : M cursor A) (k1 k2 : A -> M cursor B) : same m1 m2 -> (forall a, same (k1 a) (k2 a)) -> same (bind m1 k1) (bind m2 k2).
Proof. intros H1 H2 w. unfold bind. rewrite H1. destruct (m2 w) as [[a w']|]; auto. apply H2. Qed.

Lemma same_with_cell {A} v (f g : nat -> M cursor A) : (forall l, same (f l) (g l)) -> same (with_cell v f) (with_cell v g).
Proof. intros H w. unfold with_cell. now rewrite H. Qed.

Lemma same_refl {A} (m : M cursor A) : same m m.
Proof. intros w. reflexivity. Qed.

Definition same_opt (k1 k2 : option (M cursor pst)) : Prop :=
  match k1, k2 with None, None => True | Some m1, Some m2 => same m1 m2 | _, _ => False end.

Lemma same_adapt N k1 k2 rq d p raw1 raw2 : far N -> same_opt k1 k2 -> (forall rq d, same (raw1 rq d) (raw2 rq d)) ->
  same (adapt ops k1 rq d (cut N p) raw1) (adapt ops k2 rq d p raw2).
Proof.
  intros HN Hk Hr. unfold adapt. rewrite cut_atomic, (cut_clean N p HN). destruct (r_recur rq); [apply Hr|].
  assert (HA : forall rq, same (if r_atomic rq && negb (f_atomic p)
     then bind (with_cell (default_init (dst_value_ty d))
            (fun lvl => raw1 (unatomic_req rq) (dst_cell lvl (dst_value_ty d))))
          (fun x => ret (PAtomic (snd x) (fst x))) else raw1 rq d) (if r_atomic rq && negb (f_atomic p)
     then bind (with_cell (default_init (dst_value_ty d))
            (fun lvl => raw2 (unatomic_req rq) (dst_cell lvl (dst_value_ty d))))
          (fun x => ret (PAtomic (snd x) (fst x))) else raw2 rq d)).
  { intros rq'. destruct (_ && _); [|apply Hr]. apply same_bind; [|intros; apply same_refl]. apply same_with_cell. intros l. apply Hr. }
  destruct k1 as [m1|], k2 as [m2|]; try now destruct Hk.
  - apply same_bind; auto. intros s. apply same_bind; [|intros; apply same_refl].
    destruct (r_clean rq && _); [|apply HA]. apply same_bind; [apply HA|]. intros; apply same_refl.
  - destruct (r_clean rq && _); [|apply HA]. apply same_bind; [apply HA|]. intros; apply same_refl.
Qed.

Lemma same_create_in N p : far N -> forall k1 k2 rq d, same_opt k1 k2 -> same (create_in ops k1 rq d (cut N p)) (create_in ops k2 rq d p).
Proof.
  intros HN. induction p using pat_ind'; intros k1 k2 rq d Hk.
  all: match goal with |- same (create_in _ _ _ _ (cut _ ?p)) _ => cbn [create_in cut]; apply (same_adapt N k1 k2 rq d p _ _ HN Hk) end; clear rq d; intros rq d; try apply same_refl.
  - destruct l as [|q l]; [apply same_refl|]. cbn [map cut]. pose proof (cut_seq_dst N (q :: l) 0 d) as ED. cbn [map] in ED. rewrite ED.
    destruct (seq_dst (q :: l) 0 d); [|apply same_refl]. inversion H; subst. apply same_bind; [|intros; apply same_refl]. cbn. auto.
  - destruct l as [|q l]; [apply same_refl|]. cbn [map cut]. inversion H; subst. apply same_bind; [|intros; apply same_refl]. cbn. auto.
  - destruct (_ && _); [apply same_refl|]. rewrite cut_repeat_req. apply same_bind; [|intros; apply same_refl]. auto.
  - apply same_bind; [|intros; apply same_refl]. auto.
  - apply same_bind; [|intros; apply same_refl]. auto.
  - apply same_bind; [|intros; apply same_refl]. auto.
  - apply same_bind; [|intros; apply same_refl]. apply IHp. exact I.
  - apply same_bind; [|intros; apply same_refl]. apply IHp1. rewrite cut_fail. destruct (is_fail p2); cbn; auto. apply IHp2. exact I.
  - apply same_bind; [|intros; apply same_refl]. auto.
  - apply same_bind; [|intros; apply same_refl]. apply same_with_cell. auto.
  - apply same_bind; [|intros; apply same_refl]. apply same_with_cell. auto.
  - apply same_bind; [|intros; apply same_refl]. auto.
  - apply same_bind; [|intros; apply same_refl]. auto.
Qed.

Lemma same_create N sk b rq d p : far N -> same (create ops (Ctx (cut N sk) b) rq d (cut N p)) (create ops (Ctx sk b) rq d p).
Proof.
  intros HN. apply same_create_in; auto. unfold mk_skip_of. cbn [c_skip]. rewrite cut_fail. destruct (is_fail sk); cbn; auto.
  apply same_create_in; auto. exact I.
Qed.

Lemma t_create sk b rq d p X base j w : St X base j w ->
  tot (fun N _ => create ops (Ctx (cut N sk) b) rq d (cut N p)) (made X base j sk p (pos w)) w.
Proof.
  intros HS. apply (tot_ext (fun _ _ => create ops (Ctx sk b) rq d p)); [intros N n HN; symmetry; now apply same_create|].
  revert X base j w HS. change (makes sk p (create ops (Ctx sk b) rq d p)).
  apply t_create_in. unfold mk_skip_of. cbn [c_skip]. destruct (is_fail sk) eqn:E; auto. split; auto. apply t_create_in. exact I.
Qed.
(** ** Runs *)
Context (eager : nat -> bool) (rank : nat -> nat) (env : nat -> option pat).
Definition envf (N : nat) : nat -> option pat := match N with 0 => env | _ => cut_env N env end.
Notation eats := (eats eager).

Lemma cut_none p : cut 0 p = p.
Proof.
  induction p using pat_ind'; cbn [cut]; try congruence.
  - now destruct (Z.eqb_spec hi 0) as [->|].
  - now destruct (Z.eqb_spec hi 0) as [->|].
  - f_equal. induction H; cbn; congruence.
  - f_equal. induction H; cbn; congruence.
  - unfold most. cbn. rewrite andb_false_r. congruence.
Qed.

Lemma envf_cut N id : envf N id = option_map (cut N) (env id).
Proof. destruct N; [|reflexivity]. cbn. destruct (env id); cbn; auto. now rewrite cut_none. Qed.

Definition marks (X : nat) (base : list nat) (k : nat) (stk : list nat) : Prop :=
  exists m, stk = m ++ base /\ k <= length m /\ Forall (fun y => X <= y <= length inp) m.

Lemma St_split X base a b w : St X base (a + b) w -> exists stk, marks X base b stk /\ St X stk a w.
Proof.
  intros [A C (m & E & F & G)]. exists (skipn a m ++ base). split.
  - exists (skipn a m). split; auto. split; [rewrite skipn_length; lia|].
    rewrite <- (firstn_skipn a m) in G. now apply Forall_app in G.
  - constructor; auto. exists (firstn a m). rewrite app_assoc, firstn_skipn. split; auto. split; [rewrite firstn_length; lia|].
    rewrite <- (firstn_skipn a m) in G. now apply Forall_app in G.
Qed.

Lemma St_join X base b Z stk a w : marks X base b stk -> St Z stk a w -> X <= Z -> St X base (a + b) w.
Proof.
  intros (m & -> & F & G) [A C (m' & E' & F' & G')] H. constructor; auto; [lia|].
  exists (m' ++ m). rewrite E', app_assoc. split; auto. rewrite app_length. split; [lia|].
  apply Forall_app. split; auto. eapply Forall_impl; [|exact G']. cbn. lia.
Qed.

Lemma St_marks X base k w : St X base k w -> marks X base k (a_stk (w_src w)).
Proof. intros [_ _ (m & E & F & G)]. exists m. auto. Qed.

Lemma St_low X base k w : St X base k w -> X <= pos w.
Proof. intros [_ C _]. unfold pos. lia. Qed.

Lemma St_high X base k w : St X base k w -> pos w <= length inp.
Proof. intros [_ C _]. unfold pos. lia. Qed.

Lemma pos_src w w' : w_src w' = w_src w -> pos w' = pos w.
Proof. intros E. unfold pos. now rewrite E. Qed.

Definition post (X : nat) (base : list nat) (j : nat) (e : bool) (x : result * pst) (w' : world) : Prop :=
  St X base j w' /\ (fst x = SUCCESS -> e = true -> X < pos w').

Definition Run1 (bound : dst) (L : nat) (sk p : pat) (st : pst) : Prop :=
  forall rq d X base j w, length inp - X <= L -> St X base (owed st + j) w ->
  tot (fun N n => consume ops (envf N) n (Ctx (cut N sk) bound) rq d (cut N p) st) (post X base j (eats p)) w.

Definition RunS (L : nat) (sk p : pat) : Prop := forall bound st, fr sk p st -> Run1 bound L sk p st.

Definition good (L : nat) (sk : pat) : Prop := is_fail sk = true \/ eats sk = true /\ RunS L Fail sk.

Lemma RunS_le L L' sk p : L' <= L -> RunS L sk p -> RunS L' sk p.
Proof. intros H HR bound st Hf rq d X base j w HL. apply HR; auto. lia. Qed.

Lemma good_le L L' sk : L' <= L -> good L sk -> good L' sk.
Proof. intros H [?|[? ?]]; [now left|right; split; auto]. eapply RunS_le; eauto. Qed.

Lemma post_back X base j w Y e e' x w' :
  St X base j w -> X <= Y -> post Y (a_stk (w_src w)) 0 e x w' -> (fst x = SUCCESS -> e' = true -> X < Y \/ e = true) -> post X base j e' x w'.
Proof.
  intros HS HY (B & C) H. split; [eapply St_back; eauto|].
  intros E1 E2. pose proof (St_low _ _ _ _ B). destruct (H E1 E2) as [?|E]; [lia|]. specialize (C E1 E). lia.
Qed.

Ltac tb := apply tot_bind.
Ltac par := apply tot_ret; split; [eapply St_le; [|eassumption]; lia|discriminate].
Ltac step := apply tot_shift; cbn [consume consume_step cut].
Ltac back H P := refine (post_back _ _ _ _ _ _ _ _ _ H _ P _); [lia|].

(** The adapters. *)
Definition bare (st : pst) : bool := match st with PSkip _ _ _ | PClean _ | PAtomic _ _ => false | _ => true end.

Lemma adapters L sk p : good L sk -> (forall bound st, fr sk p st -> bare st = true -> Run1 bound L sk p st) -> RunS L sk p.
Proof.
  intros Hg Hr bound st. induction st; intros Hf; try (apply Hr; [exact Hf|reflexivity]); clear Hr.
  - (* Skip *)
    inversion Hf as [? ? ? ? Hs Fs Fa| | | | | | | | | | | | | | | | | | | | | | | | |]; subst. specialize (IHst2 Fa). clear IHst1 Hf.
    destruct Hg as [Hg|[He HR]]; [congruence|].
    assert (Loop : forall m s, fr Fail sk s -> forall rq d X Z base j stk w, length inp - X <= L -> length inp - Z < m -> X <= Z ->
              marks X base (owed st2 + j) stk -> St Z stk (owed s) w ->
              tot (fun N n => consume ops (envf N) n (Ctx (cut N sk) bound) rq d (cut N p) (PSkip false s st2)) (post X base j (eats p)) w).
    { induction m as [|m IH]; intros s Fs' rq d X Z base j stk w HL Hm HZ HM HS; [lia|].
      step. unfold skip_consume. tb. eapply tot_cons; [apply (HR DNil s Fs' skip_req DNil Z stk 0); [lia|now rewrite Nat.add_0_r]|].
      intros [r s'] w1 (B & C). cbn [fst snd] in *. pose proof (St_low _ _ _ _ B) as D.
      destruct r; [| |apply tot_ret; split; [eapply St_le; [|exact (St_join _ _ _ _ _ _ _ HM B HZ)]; lia|discriminate]].
      - tb. eapply tot_cons; [apply (t_create Fail DNil), (St_here _ _ _ _ B)|].
        intros s2 w2 (A2 & B2 & C2). specialize (C eq_refl He). rewrite Nat.add_0_r in A2.
        pose proof (St_high _ _ _ _ B) as D2.
        apply (IH s2 C2 rq d X (pos w1) base j (a_stk (w_src w1)) w2 HL ltac:(lia) ltac:(lia)); auto.
        pose proof (St_marks _ _ _ _ (St_join _ _ _ _ _ _ _ HM B HZ)) as M. now cbn in M.
      - step. unfold skip_consume. tb. eapply tot_cons; [apply (IHst2 rq d X base j w1 HL); now apply (St_join _ _ _ _ _ _ _ HM B HZ)|].
        intros [r s2] w2 HP. apply tot_ret. exact HP. }
    intros rq d X base j w HL HS. cbn [owed] in HS. rewrite <- Nat.add_assoc in HS. destruct (St_split _ _ _ _ _ HS) as (stk & HM & HS').
    eapply (Loop (S (length inp - X)) st1); eauto.
  - (* Clean *)
    inversion Hf as [|? ? ? Fa| | | | | | | | | | | | | | | | | | | | | | | |]; subst. specialize (IHst Fa).
    intros rq d X base j w HL HS. cbn [owed] in HS. step. unfold clean_consume. tb.
    eapply tot_cons; [apply (IHst _ d X base (S j) w HL); now rewrite Nat.add_succ_r|].
    intros [r a] w1 (B & C). cbn [fst snd] in *. destruct r; [| |par]; tb.
    + eapply t_cancel; eauto. intros w2 H2 E2. apply tot_ret. split; auto. rewrite E2. exact C.
    + eapply t_commit; eauto. intros w2 H2. apply tot_ret. split; auto. discriminate.
  - (* Atomic *)
    inversion Hf as [| |? ? ? ? Fa| | | | | | | | | | | | | | | | | | | | | | |]; subst. specialize (IHst Fa).
    intros rq d X base j w HL HS. cbn [owed] in HS. step. unfold atomic_consume. tb. apply tot_with_cell. intros lvl w1 E1.
    eapply tot_cons; [apply (IHst _ _ X base j w1 HL), (St_src _ _ _ _ _ E1 HS)|].
    intros [r a] w2 (B & C) v' w3 E3. cbn [fst snd] in *.
    pose proof (St_src _ _ _ _ _ E3 B) as B'. rewrite <- (pos_src _ _ E3) in C. destruct r; [| |par].
    + tb. apply t_assign. intros w4 E4. apply tot_ret. split; [eapply St_src; eauto|]. now rewrite (pos_src _ _ E4).
    + apply tot_ret. split; [auto|discriminate].
Qed.
(** Leaves. *)
Lemma t_starved X base j e st w : St X base j w -> tot (fun _ _ => starved ops st) (post X base j e) w.
Proof.
  intros HS. unfold starved. tb. apply t_final. apply tot_ret. split; [auto|now destruct (a_fin _)].
Qed.

Lemma t_fails X base j e st w : St X base j w -> tot (fun _ _ => ret (FAILURE, st)) (post X base j e) w.
Proof. intros HS. apply tot_ret. split; [auto|discriminate]. Qed.

Lemma run_char L sk s bound st : fr sk (Char s) st -> bare st = true -> Run1 bound L sk (Char s) st.
Proof.
  intros Hf Hb rq d X base j w HL HS. inversion Hf; subst; try discriminate. cbn [owed] in HS. step. unfold char_consume.
  tb. apply t_empty. destruct (a_empty _); [now apply t_starved|]. tb. apply t_next. intros x.
  destruct (is_valid s x); [|now apply t_fails]. tb. apply t_assign. intros w1 E1. pose proof (St_src _ _ _ _ _ E1 HS) as H1.
  tb. eapply t_advance; eauto. intros w2 H2 E2 _ _. apply tot_ret. split; auto. intros _ _.
  pose proof (St_low _ _ _ _ H1). lia.
Qed.

Lemma run_char_symbol L sk m bound st : fr sk (CharSymbol m) st -> bare st = true -> Run1 bound L sk (CharSymbol m) st.
Proof.
  intros Hf Hb rq d X base j w HL HS. inversion Hf; subst; try discriminate. cbn [owed] in HS. step. unfold char_symbol_consume.
  tb. apply t_empty. destruct (a_empty _); [now apply t_starved|]. tb. apply t_next. intros x.
  destruct (assoc x m); [|now apply t_fails]. tb. apply t_assign. intros w1 E1. pose proof (St_src _ _ _ _ _ E1 HS) as H1.
  apply tot_ret. split; [auto|discriminate].
Qed.

Lemma run_eoi L sk bound st : fr sk Eoi st -> bare st = true -> Run1 bound L sk Eoi st.
Proof.
  intros Hf Hb rq d X base j w HL HS. inversion Hf; subst; try discriminate. cbn [owed] in HS. step. unfold eoi_consume.
  tb. apply t_empty. destruct (a_empty _); [|now apply t_fails]. tb. apply t_final.
  apply tot_ret. split; [auto|discriminate].
Qed.

Lemma run_pass L sk bound st : fr sk Pass st -> bare st = true -> Run1 bound L sk Pass st.
Proof.
  intros Hf Hb rq d X base j w HL HS. inversion Hf; subst; try discriminate. cbn [owed] in HS. step.
  apply tot_ret. split; [auto|discriminate].
Qed.

Lemma run_fail L sk bound st : fr sk Fail st -> bare st = true -> Run1 bound L sk Fail st.
Proof.
  intros Hf Hb rq d X base j w HL HS. inversion Hf; subst; try discriminate. cbn [owed] in HS. step. now apply t_fails.
Qed.

Lemma run_lit L sk s bound st : fr sk (Lit s) st -> bare st = true -> Run1 bound L sk (Lit s) st.
Proof.
  intros Hf Hb rq d X base j w HL HS. inversion Hf; subst; try discriminate. cbn [owed] in HS. clear Hf Hb HL. cbn [SpecTerm.eats].
  assert (Loop : forall l X base j w, St X base j w ->
            tot (fun N n => consume ops (envf N) n (Ctx (cut N sk) bound) rq d (cut N (Lit s)) (PLit l)) (post X base j (negb (length l =? 0))) w).
  { clear. induction l as [|x l IH]; intros X base j w HS; step; unfold lit_consume.
    - apply tot_ret. split; [auto|discriminate].
    - tb. apply t_empty. destruct (a_empty _); [now apply t_starved|]. tb. apply t_next. intros y.
      destruct (y =? x)%Z; [|now apply t_fails]. tb. eapply t_advance; eauto. intros w1 H1 E1 _ _.
      eapply tot_cons; [apply (IH (pos w1) (a_stk (w_src w1)) 0), (St_here _ _ _ _ H1)|]. intros r w2 HP. pose proof (St_low _ _ _ _ HS).
      back H1 HP. lia. }
  now apply Loop.
Qed.

(** The bound on the digits is not reached. *)
Lemma not_reached N c hi : far N -> (0 <= c < Z.of_nat (length inp))%Z ->
  (c + 1 =? (if (hi =? 0)%Z then Z.of_nat N else hi))%Z = (c + 1 =? hi)%Z.
Proof.
  intros HN Hc. destruct (Z.eqb_spec hi 0) as [->|]; auto. transitivity false; [|symmetry]; apply Z.eqb_neq; destruct HN as [->|[_ HN]]; cbn; lia.
Qed.

Lemma run_uint L sk b lo hi bound st : fr sk (UInt b lo hi) st -> bare st = true -> Run1 bound L sk (UInt b lo hi) st.
Proof.
  intros Hf Hb rq d X base j w HL HS. inversion Hf; subst; try discriminate. cbn [owed] in HS. clear Hf Hb HL. cbn [SpecTerm.eats].
  assert (Loop : forall m c X base j w, length inp - pos w < m -> (0 <= c <= Z.of_nat (pos w))%Z -> St X base j w ->
            tot (fun N n => consume ops (envf N) n (Ctx (cut N sk) bound) rq d (cut N (UInt b lo hi)) (PUInt c)) (post X base j ((1 <=? lo)%Z && (c <=? 0)%Z)) w).
  { clear. induction m as [|m IH]; intros c X base j w Hm Hc HS; [lia|]. step. unfold uint_consume.
    assert (V : forall f : bool, tot (fun _ _ : nat => ret (if f then if (lo <=? c)%Z then SUCCESS else FAILURE else PARTIAL, PUInt c)) (post X base j ((1 <=? lo)%Z && (c <=? 0)%Z)) w).
    { intros [|]; [|par]. destruct (lo <=? c)%Z eqn:E; [|now apply t_fails]. apply tot_ret. split; auto. intros _ E2.
      apply andb_prop in E2 as [E2 E3]. lia. }
    tb. apply t_empty. destruct (a_empty _); [tb; apply t_final, V|]. tb. apply t_next. intros y.
    destruct (digit_valid b y); [|exact (V true)]. clear V.
    tb. apply t_num. intros w1 E1. pose proof (St_src _ _ _ _ _ E1 HS) as H1.
    tb. apply t_num. intros w2 E2. pose proof (St_src _ _ _ _ _ E2 H1) as H2. assert (P : pos w2 = pos w) by (unfold pos; now rewrite E2, E1).
    tb. eapply t_advance; eauto. intros w3 H3 E3 _ _. pose proof (St_low _ _ _ _ HS). pose proof (St_high _ _ _ _ H3).
    apply (tot_ext (fun N n => if (c + 1 =? hi)%Z then ret (SUCCESS, PUInt (c + 1)) else
      consume ops (envf N) n (Ctx (cut N sk) bound) rq d (cut N (UInt b lo hi)) (PUInt (c + 1)))).
    { intros N n HN. cbv zeta. now rewrite (not_reached N c hi HN) by lia. }
    destruct (_ =? _)%Z.
    - apply tot_ret. split; auto. cbn. lia.
    - eapply tot_cons; [apply (IH (c + 1)%Z (pos w3) (a_stk (w_src w3)) 0); [lia|lia|exact (St_here _ _ _ _ H3)]|]. intros r w4 HP. back H3 HP. lia. }
  eapply tot_cons; [eapply (Loop (S (length inp - pos w)) 0%Z); [lia|lia|exact HS]|]. intros r w' HP. now rewrite andb_true_r in HP.
Qed.

Lemma run_int L sk b lo hi bound st : fr sk (Int b lo hi) st -> bare st = true -> Run1 bound L sk (Int b lo hi) st.
Proof.
  intros Hf Hb rq d X base j w HL HS. inversion Hf; subst; try discriminate. cbn [owed] in HS. clear Hf Hb HL. cbn [SpecTerm.eats].
  assert (Loop : forall m c lk ng X base j w, length inp - pos w < m -> (0 <= c <= Z.of_nat (pos w))%Z -> St X base j w ->
            tot (fun N n => consume ops (envf N) n (Ctx (cut N sk) bound) rq d (cut N (Int b lo hi)) (PInt c lk ng)) (post X base j ((1 <=? lo)%Z && (c <=? 0)%Z)) w).
  { clear. induction m as [|m IH]; intros c lk ng X base j w Hm Hc HS; [lia|]. step. unfold int_consume.
    assert (V : forall lk ng, tot (fun _ _ : nat => bind (int_negate d ng) (fun _ => ret (if (lo <=? c)%Z then SUCCESS else FAILURE, PInt c lk ng)))
                  (post X base j ((1 <=? lo)%Z && (c <=? 0)%Z)) w).
    { intros lk' ng'. tb. apply t_neg. intros w' E'. pose proof (St_src _ _ _ _ _ E' HS) as H'.
      destruct (lo <=? c)%Z eqn:E; [|now apply t_fails]. apply tot_ret. split; auto. intros _ E2.
      apply andb_prop in E2 as [E2 E3]. lia. }
    assert (Go : forall w1 w2 c lk ng, St X base j w1 -> pos w1 = pos w -> St X base j w2 -> pos w2 = S (pos w1) -> (0 <= c <= Z.of_nat (pos w2))%Z ->
               tot (fun N n => consume ops (envf N) n (Ctx (cut N sk) bound) rq d (cut N (Int b lo hi)) (PInt c lk ng)) (post X base j true) w2).
    { intros w1 w2 c' lk' ng' H1 E1 H2 E2 Hc'. pose proof (St_low _ _ _ _ HS). pose proof (St_high _ _ _ _ H2).
      eapply tot_cons; [apply (IH c' lk' ng' (pos w2) (a_stk (w_src w2)) 0); [lia|exact Hc'|exact (St_here _ _ _ _ H2)]|]. intros r w3 HP. back H2 HP. lia. }
    assert (Up : forall F, tot F (post X base j true) w -> tot F (post X base j ((1 <=? lo)%Z && (c <=? 0)%Z)) w).
    { intros F HF. eapply tot_cons; [exact HF|]. intros r w' (B & C). split; auto. }
    assert (Dig : forall lk y, tot (fun N n => int_digit ops (consume ops (envf N) n) (Ctx (cut N sk) bound) rq d (cut N (Int b lo hi)) b lo (if (hi =? 0)%Z then Z.of_nat N else hi) c lk ng y)
                  (post X base j ((1 <=? lo)%Z && (c <=? 0)%Z)) w).
    { intros lk' y. unfold int_digit. destruct (digit_valid b y); [|apply V]. apply Up.
      tb. apply t_num. intros w1 E1. pose proof (St_src _ _ _ _ _ E1 HS) as H1.
      tb. apply t_num. intros w2 E2. pose proof (St_src _ _ _ _ _ E2 H1) as H2. assert (P : pos w2 = pos w) by (unfold pos; now rewrite E2, E1).
      tb. eapply t_advance; eauto. intros w3 H3 E3 _ _. pose proof (St_low _ _ _ _ HS). pose proof (St_high _ _ _ _ H3).
      apply (tot_ext (fun N n => if (c + 1 =? hi)%Z then bind (int_negate d ng) (fun _ => ret (SUCCESS, PInt (c + 1) lk' ng)) else
        consume ops (envf N) n (Ctx (cut N sk) bound) rq d (cut N (Int b lo hi)) (PInt (c + 1) lk' ng))).
      { intros N n HN. cbv zeta. now rewrite (not_reached N c hi HN) by lia. }
      destruct (_ =? _)%Z.
      - tb. apply t_neg. intros w4 E4. apply tot_ret. split; [eapply St_src; eauto|]. rewrite (pos_src _ _ E4). lia.
      - apply (Go w2 w3); auto. lia. }
    tb. apply t_empty. destruct (a_empty _); [tb; apply t_final; destruct (a_fin _); [apply V|par]|]. tb. apply t_next. intros y.
    destruct ((c =? 0)%Z && lk); [|apply Dig]. destruct (y =? 45)%Z; [|destruct (y =? 43)%Z; [|apply Dig]].
    all: apply Up; tb; eapply t_advance; eauto; intros w1 H1 E1 _ _; apply (Go w w1); auto; lia. }
  eapply tot_cons; [eapply (Loop (S (length inp - pos w)) 0%Z); [lia|lia|exact HS]|]. intros r w' HP. now rewrite andb_true_r in HP.
Qed.

Lemma run_symbol L sk m bound st : fr sk (Symbol m) st -> bare st = true -> Run1 bound L sk (Symbol m) st.
Proof.
  intros Hf Hb rq d X base j w HL HS. inversion Hf; subst; try discriminate. cbn [owed] in HS. clear Hf Hb HL. cbn [SpecTerm.eats].
  assert (Loop : forall k nx v X base j w, length inp - pos w < k -> St X base (owed (PSym nx v) + j) w ->
            tot (fun N n => consume ops (envf N) n (Ctx (cut N sk) bound) rq d (cut N (Symbol m)) (PSym nx v)) (post X base j (match v with None => true | Some _ => false end)) w).
  { clear. induction k as [|k IH]; intros nx v X base j w Hm HS; [lia|]. step. unfold sym_consume.
    assert (V : tot (fun _ _ : nat => sym_stop ops d nx v) (post X base j (match v with None => true | Some _ => false end)) w).
    { unfold sym_stop. destruct v as [v|]; [|now apply t_fails]. cbn [owed] in HS. unfold sym_value, of_option. destruct (trie_val v); [|now apply tot_raise].
      tb. apply t_assign. intros w1 E1. tb. eapply t_commit; [exact (St_src _ _ _ _ _ E1 HS)|]. intros w2 H2.
      apply tot_ret. split; [auto|discriminate]. }
    tb. apply t_empty. destruct (a_empty _); [tb; apply t_final; destruct (a_fin _); [exact V|par]|]. tb. apply t_next. intros y.
    destruct (assoc y (trie_child nx)) as [nx'|]; [|exact V]. clear V.
    tb. eapply t_advance; eauto. intros w1 H1 E1 _ _. pose proof (St_low _ _ _ _ HS). pose proof (St_high _ _ _ _ H1).
    destruct (trie_val nx') as [x|].
    - assert (T : tot (fun _ _ : nat => match v with Some _ => m_cancel ops | None => ret tt end) (fun _ w2 => St X base j w2 /\ pos w2 = pos w1) w1).
      { destruct v; [eapply t_cancel; eauto|apply tot_ret; auto]. }
      tb. eapply tot_cons; [exact T|]. intros _ w2 [H2 E2]. destruct (trie_child nx').
      + tb. apply t_assign. intros w3 E3. apply tot_ret. split; [eapply St_src; eauto|]. rewrite (pos_src _ _ E3). lia.
      + tb. eapply t_prepare; [exact (St_here _ _ _ _ H2)|]. intros w3 H3 E3 _.
        eapply tot_cons; [apply (IH nx' (Some nx') (pos w2) (a_stk (w_src w2)) 0); [lia|exact H3]|]. intros r w4 HP. back H2 HP. lia.
    - destruct v as [v|].
      + apply IH; [lia|exact H1].
      + eapply tot_cons; [apply (IH nx' None (pos w1) (a_stk (w_src w1)) 0); [lia|exact (St_here _ _ _ _ H1)]|]. intros r w4 HP. back H1 HP. lia. }
  eapply (Loop (S (length inp - pos w)) _ None); [lia|exact HS].
Qed.

(** Combinators. *)
Fixpoint sgood (L : nat) (sk : pat) (l : list pat) : Prop :=
  match l with
  | [] => True
  | q :: t => RunS L sk q /\ forall L', L' <= L -> (eats q = true -> L' < L) -> sgood L' sk t
  end.

Lemma sgood_le sk l : forall L L', L' <= L -> sgood L sk l -> sgood L' sk l.
Proof.
  destruct l as [|q t]; cbn; auto. intros L L' HL [A B]. split; [eapply RunS_le; eauto|].
  intros L2 H2 H3. apply B; [lia|]. intros E. specialize (H3 E). lia.
Qed.

Lemma run_seq L sk l bound st : sgood L sk l -> fr sk (Seq l) st -> bare st = true -> Run1 bound L sk (Seq l) st.
Proof.
  intros Hg Hf Hb rq d X base j w HL HS. inversion Hf as [| | | | | | | | | | | |? ? q t a El Fa| | | | | | | | | | | | |]; subst; try discriminate. cbn [owed] in HS. step.
  cbn [SpecTerm.eats].
  assert (Loop : forall full t i L q a, sgood L sk (q :: t) -> fr sk q a -> forall d X base j w, length inp - X <= L -> St X base (owed a + j) w ->
    tot (fun N n => seq_from ops (consume ops (envf N) n) (Ctx (cut N sk) bound) d (map (cut N) full) i (cut N q) (map (cut N) t) a) (post X base j (existsb eats (q :: t))) w).
  2: { exact (Loop (q :: t) t 0 L q a Hg Fa d X base j w HL HS). }
  clear. intros full. induction t as [|q' t IH]; intros i L q a [Hq Ht] Fa d X base j w HL HS;
    (eapply tot_eq; [intros N n HN; cbn [map seq_from]; rewrite cut_seq_dst; reflexivity|]).
  - destruct (seq_dst full i d) eqn:E; [|apply tot_raise; eapply nf_seq; eauto].
    tb. eapply tot_cons; [apply (Hq bound a Fa); eauto|]. intros [r a'] w1 HP. cbn [fst snd].
    cbn [existsb]. rewrite orb_false_r. destruct r; apply tot_ret; exact HP.
  - destruct (seq_dst full i d) eqn:E; [|apply tot_raise; eapply nf_seq; eauto].
    tb. eapply tot_cons; [apply (Hq bound a Fa); eauto|]. intros [r a'] w1 (B & C). cbn [fst snd] in *.
    destruct r; [| |par].
    + specialize (C eq_refl). eapply tot_eq; [intros N n HN; rewrite cut_seq_dst; reflexivity|].
      destruct (seq_dst full (S i) d) eqn:E'; [|apply tot_raise; eapply nf_seq; eauto].
      tb. eapply tot_cons; [apply (t_create sk bound), (St_here _ _ _ _ B)|]. intros a2 w2 (A2 & B2 & C2).
      pose proof (St_low _ _ _ _ B). pose proof (St_high _ _ _ _ B).
      eapply tot_cons; [apply (IH (S i) (length inp - pos w1) q' a2); [apply Ht; [lia|intros Eq; specialize (C Eq); lia]|exact C2|reflexivity|exact A2]|].
      intros x w3 HP. back B HP. cbn [existsb]. intros _ Eo. apply orb_prop in Eo as [Eo|Eo]; [left; now apply C|now right].
    + now apply t_fails.
Qed.

Lemma run_alt L sk l bound st : Forall (RunS L sk) l -> fr sk (Alt l) st -> bare st = true -> Run1 bound L sk (Alt l) st.
Proof.
  intros Hg Hf Hb rq d X base j w HL HS. inversion Hf as [| | | | | | | | | | | | |? ? q t a El Fa| | | | | | | | | | | |]; subst; try discriminate. cbn [owed] in HS. step.
  cbn [SpecTerm.eats].
  assert (Loop : forall t i q a, Forall (RunS L sk) (q :: t) -> fr sk q a -> forall d X base j w, length inp - X <= L -> St X base (owed a + j) w ->
    tot (fun N n => alt_from ops (consume ops (envf N) n) (Ctx (cut N sk) bound) rq d i (cut N q) (map (cut N) t) a) (post X base j (forallb eats (q :: t))) w).
  2: { exact (Loop t 0 q a Hg Fa d X base j w HL HS). }
  clear. induction t as [|q' t IH]; intros i q a Hg Fa d X base j w HL HS; cbn [map alt_from]; inversion Hg as [|? ? Hq Ht]; subst.
  - tb. eapply tot_cons; [apply (Hq bound a Fa); eauto|]. intros [r a'] w1 HP. cbn [fst snd].
    cbn [forallb]. rewrite andb_true_r. destruct r; apply tot_ret; exact HP.
  - tb. eapply tot_cons; [apply (Hq bound a Fa); eauto|]. intros [r a'] w1 (B & C). cbn [fst snd] in *.
    destruct r; [| |par].
    + apply tot_ret. split; auto. cbn [forallb]. intros _ Ea. apply andb_prop in Ea as [Ea _]. auto.
    + tb. eapply tot_cons; [apply (t_create sk bound), (St_here _ _ _ _ B)|]. intros a2 w2 (A2 & B2 & C2).
      pose proof (St_low _ _ _ _ B).
      eapply tot_cons; [apply (IH (S i) q' a2 ltac:(auto) C2 d (pos w1) (a_stk (w_src w1)) 0 w2); [lia|exact A2]|].
      intros x w3 HP. back B HP. cbn [forallb]. intros _ Ea. apply andb_prop in Ea as [_ Ea]. now right.
Qed.

Lemma not_full N c lo hi : far N -> (hi = 0 -> S c <= length inp) ->
  negb (most N lo hi =? 0) && (S c =? most N lo hi) = negb (hi =? 0) && (S c =? hi).
Proof.
  intros HN Hc. unfold most. destruct (Nat.eqb_spec hi 0) as [E|E]; [specialize (Hc E); subst; cbn [negb andb]|].
  - destruct (Nat.eqb_spec N 0); cbn [negb andb]; auto. destruct HN as [->|[_ HN]]; [lia|]. apply andb_false_iff. right. apply Nat.eqb_neq. lia.
  - cbn [negb andb]. destruct (Nat.eqb_spec hi 0); [lia|reflexivity].
Qed.

Lemma run_repeat L sk lo hi q bound st : RunS L sk q -> hi <> 0 \/ eats q = true ->
  fr sk (Repeat lo hi q) st -> bare st = true -> Run1 bound L sk (Repeat lo hi q) st.
Proof.
  intros Hq Hh Hf Hb rq d X base j w HL HS. inversion Hf as [| | | | | | | | | | | | | |? ? ? ? a Fa| | | | | | | | | | |]; subst; try discriminate. cbn [owed] in HS. cbn [SpecTerm.eats].
  assert (Loop : forall m c a X base j w, (if eats q then length inp - X else hi - c) < m -> (eats q = true /\ c <= X \/ c < hi) -> length inp - X <= L -> fr sk q a -> St X base (owed a + j) w ->
            tot (fun N n => consume ops (envf N) n (Ctx (cut N sk) bound) rq d (cut N (Repeat lo hi q)) (PRepeat c a)) (post X base j ((1 <=? lo) && eats q && (c =? 0))) w).
  { clear - Hq. induction m as [|m IH]; intros c a X base j w Hm Hc HL Fa HS; [lia|]. step. unfold repeat_consume.
    eapply tot_eq; [intros N n HN; rewrite cut_repeat_req; reflexivity|].
    tb. eapply tot_cons; [apply (Hq bound a Fa); eauto|]. intros [r a'] w1 (B & C). cbn [fst snd] in *.
    destruct r; [| |par].
    - specialize (C eq_refl). pose proof (St_low _ _ _ _ B). pose proof (St_high _ _ _ _ B). cbv zeta.
      eapply tot_eq; [intros N n HN; rewrite (not_full N c lo hi HN); [reflexivity|]|].
      { intros ->. destruct Hc as [[Hc Hx]|Hc]; [specialize (C Hc)|]; lia. }
      destruct (negb (hi =? 0) && (S c =? hi)) eqn:Eh.
      + apply tot_ret. split; auto. intros _ E. apply andb_prop in E as [E _]. apply andb_prop in E as [_ E]. auto.
      + tb. eapply tot_cons; [apply (t_create sk bound), (St_here _ _ _ _ B)|]. intros a2 w2 (A2 & B2 & C2).
        eapply tot_cons; [apply (IH (S c) a2 (pos w1) (a_stk (w_src w1)) 0 w2); [| |lia|exact C2|exact A2]|].
        * destruct (eats q); [specialize (C eq_refl)|]; lia.
        * destruct Hc as [[Hc Hx]|Hc]; [left; specialize (C Hc); split; [exact Hc|lia]|right].
          apply andb_false_iff in Eh as [Eh|Eh]; [apply negb_false_iff, Nat.eqb_eq in Eh; lia|apply Nat.eqb_neq in Eh; lia].
        * intros x w3 HP. back B HP. intros _ E. left. apply andb_prop in E as [E _]. apply andb_prop in E as [_ E]. auto.
    - destruct (lo <=? c) eqn:El; [|now apply t_fails]. apply tot_ret. split; auto. intros _ E.
      apply andb_prop in E as [E E3]. apply andb_prop in E as [E E2]. apply Nat.leb_le in E, El. apply Nat.eqb_eq in E3. lia. }
  eapply tot_cons; [eapply (Loop (S (length inp + hi)) 0 a X base j w); [destruct (eats q); lia|destruct Hh; [right; lia|left; split; auto; lia]|exact HL|exact Fa|exact HS]|].
  intros x w' HP. now rewrite andb_true_r in HP.
Qed.

Lemma run_not L sk q bound st : RunS L sk q -> fr sk (Not q) st -> bare st = true -> Run1 bound L sk (Not q) st.
Proof.
  intros Hq Hf Hb rq d X base j w HL HS. inversion Hf as [| | | | | | | | | | | | | | |? ? a Fa| | | | | | | | | |]; subst; try discriminate. cbn [owed] in HS. step. unfold not_consume.
  tb. eapply tot_cons; [apply (Hq bound a Fa _ d X base (S j)); auto; now rewrite Nat.add_succ_r|]. intros [r a'] w1 (B & C). cbn [fst snd] in *.
  destruct r; [| |par]; tb; eapply t_commit; eauto; intros w2 H2; apply tot_ret; (split; [auto|discriminate]).
Qed.

Lemma run_opt L sk q bound st : RunS L sk q -> fr sk (Opt q) st -> bare st = true -> Run1 bound L sk (Opt q) st.
Proof.
  intros Hq Hf Hb rq d X base j w HL HS. inversion Hf as [| | | | | | | | | | | | | | | |? ? a Fa| | | | | | | | |]; subst; try discriminate. cbn [owed] in HS. step. unfold opt_consume.
  tb. eapply tot_cons; [apply (Hq bound a Fa _ d X base (S j)); auto; now rewrite Nat.add_succ_r|]. intros [r a'] w1 (B & C). cbn [fst snd] in *.
  destruct r; [| |par].
  - apply tot_ret. split; [|discriminate]. eapply St_le; [|exact B]. lia.
  - tb; eapply t_commit; eauto; intros w2 H2; apply tot_ret; (split; [auto|discriminate]).
Qed.

Lemma run_one L sk sk' b' b rq rq' d d' p q a X base j w :
  RunS L sk' q -> fr sk' q a -> length inp - X <= L -> St X base (owed a + j) w -> eats p = eats q ->
  (forall N n, consume ops (envf N) (S n) (Ctx (cut N sk) b) rq d (cut N p) (POne a) = forward_consume (consume ops (envf N) n) (Ctx (cut N sk') b') rq' d' (cut N q) a) ->
  tot (fun N n => consume ops (envf N) n (Ctx (cut N sk) b) rq d (cut N p) (POne a)) (post X base j (eats p)) w.
Proof.
  intros Hq Fa HL HS He H. apply tot_shift. apply (tot_eq (fun N n => forward_consume (consume ops (envf N) n) (Ctx (cut N sk') b') rq' d' (cut N q) a)); [intros N n _; apply H|]. unfold forward_consume.
  tb. eapply tot_cons; [apply (Hq b' a Fa); eauto|]. intros [r a'] w1 HP. apply tot_ret. rewrite He. exact HP.
Qed.

Lemma run_discard L sk q bound st : RunS L sk q -> fr sk (Discard q) st -> bare st = true -> Run1 bound L sk (Discard q) st.
Proof.
  intros Hq Hf Hb rq d X base j w HL HS. inversion Hf; subst; try discriminate. eapply (run_one L sk _ bound bound); eauto; reflexivity.
Qed.

Lemma run_lexeme L sk q bound st : RunS L Fail q -> fr sk (Lexeme q) st -> bare st = true -> Run1 bound L sk (Lexeme q) st.
Proof.
  intros Hq Hf Hb rq d X base j w HL HS. inversion Hf; subst; try discriminate. eapply (run_one L sk _ bound bound); eauto; reflexivity.
Qed.

Lemma run_with_skipper L sk q s bound st : RunS L s q -> fr sk (WithSkipper q s) st -> bare st = true -> Run1 bound L sk (WithSkipper q s) st.
Proof.
  intros Hq Hf Hb rq d X base j w HL HS. inversion Hf; subst; try discriminate. eapply (run_one L sk _ bound bound); eauto; reflexivity.
Qed.

Lemma run_bind_dst L sk q bound st : RunS L sk q -> fr sk (BindDst q) st -> bare st = true -> Run1 bound L sk (BindDst q) st.
Proof.
  intros Hq Hf Hb rq d X base j w HL HS. inversion Hf; subst; try discriminate. eapply (run_one L sk _ d bound); eauto; reflexivity.
Qed.

Lemma run_construct L sk args q bound st : RunS L sk q -> fr sk (Construct args q) st -> bare st = true -> Run1 bound L sk (Construct args q) st.
Proof.
  intros Hq Hf Hb rq d X base j w HL HS. inversion Hf as [| | | | | | | | | | | | | | | | | | | | |? ? ? b a Fa| | | |]; subst; try discriminate. cbn [owed] in HS. step. unfold construct_consume.
  tb. apply tot_with_cell. intros lvl w1 E1. eapply tot_cons; [apply (Hq bound a Fa _ _ X base j w1 HL), (St_src _ _ _ _ _ E1 HS)|].
  intros [r a'] w2 (B & C) v' w3 E3. cbn [fst snd] in *. pose proof (St_src _ _ _ _ _ E3 B) as B'. rewrite <- (pos_src _ _ E3) in C.
  destruct r; [| |par]; [|now apply t_fails].
  destruct (make_from (dst_ty d) v') eqn:Em; [|apply tot_raise; intros ->; now apply (nf_make (dst_ty d) v')].
  tb. apply t_assign. intros w4 E4. apply tot_ret. split; [eapply St_src; eauto|]. now rewrite (pos_src _ _ E4).
Qed.

Lemma run_act L sk act q bound st : RunS L sk q -> fr sk (Act act q) st -> bare st = true -> Run1 bound L sk (Act act q) st.
Proof.
  intros Hq Hf Hb rq d X base j w HL HS. inversion Hf as [| | | | | | | | | | | | | | | | | | | | | |? ? ? b a Fa| | |]; subst; try discriminate. cbn [owed] in HS. step. unfold action_consume.
  tb. apply tot_with_cell. intros lvl w1 E1. eapply tot_cons; [apply (Hq bound a Fa _ _ X base j w1 HL), (St_src _ _ _ _ _ E1 HS)|].
  intros [r a'] w2 (B & C) v' w3 E3. cbn [fst snd] in *. pose proof (St_src _ _ _ _ _ E3 B) as B'. rewrite <- (pos_src _ _ E3) in C.
  destruct r; [| |par]; [|now apply t_fails].
  tb. apply (tot_eq (fun _ _ => act_dispatch act v' d (Ctx sk bound))); [intros N n _; reflexivity|]. apply t_act. intros w4 E4. apply tot_ret. split; [eapply St_src; eauto|]. now rewrite (pos_src _ _ E4).
Qed.

Lemma run_except L sk q neg bound st : RunS L sk q -> RunS L sk neg -> fr sk (Except q neg) st -> bare st = true -> Run1 bound L sk (Except q neg) st.
Proof.
  intros Hq Hn Hf Hb rq d X base j w HL HS. inversion Hf as [| | | | | | | | | | | | | | | | | | | | | | |? ? ? a Fa| |]; subst; try discriminate. cbn [owed] in HS. step. unfold except_consume.
  tb. eapply tot_cons; [apply (Hn bound a Fa); eauto|]. intros [r a'] w1 (B & C). cbn [fst snd] in *.
  destruct r; [| |par]; [now apply t_fails|].
  tb. eapply tot_cons; [apply (t_create sk bound), (St_here _ _ _ _ B)|]. intros a2 w2 (A2 & B2 & C2).
  pose proof (St_low _ _ _ _ B).
  tb. eapply tot_cons; [apply (Hq bound a2 C2 _ _ (pos w1) (a_stk (w_src w1)) 0 w2); [lia|exact A2]|]. intros [r a3] w3 HP. apply tot_ret.
  eapply post_back; [exact B| |exact HP|]; [lia|]. cbn. auto.
Qed.

Lemma run_list L sk q sep bound st : RunS L sk q -> (forall L', L' <= L -> (eats q = true -> L' < L) -> RunS L' sk sep) -> eats q = true \/ eats sep = true ->
  fr sk (PList q sep) st -> bare st = true -> Run1 bound L sk (PList q sep) st.
Proof.
  intros Hq Hs He Hf Hb rq d X base j w HL HS. inversion Hf as [| | | | | | | | | | | | | | | | | | | | | | | |? ? ? a Fa|]; subst; try discriminate. cbn [owed] in HS. cbn [SpecTerm.eats].
  assert (Loop : forall m a X Z base j stk w, length inp - Z < m -> X <= Z -> length inp - X <= L -> fr sk q a -> marks X base (S j) stk -> St Z stk (owed a) w ->
            tot (fun N n => consume ops (envf N) n (Ctx (cut N sk) bound) rq d (cut N (PList q sep)) (PListSt 0 a)) (post X base j false) w).
  { clear - Hq Hs He. induction m as [|m IH]; intros a X Z base j stk w Hm HZ HL Fa HM HS; [lia|]. step. unfold list_consume.
    tb. eapply tot_cons; [apply (Hq bound a Fa _ _ Z stk 0); [lia|now rewrite Nat.add_0_r]|]. intros [r a'] w1 (B & C). cbn [fst snd] in *.
    pose proof (St_join _ _ _ _ _ _ _ HM B HZ) as J. pose proof (St_low _ _ _ _ B) as B0. cbn [plus] in J.
    destruct r; [| |par].
    - specialize (C eq_refl). tb. eapply t_cancel; eauto. intros w2 H2 E2. pose proof (St_high _ _ _ _ H2) as B2. tb. eapply t_prepare; [exact (St_here _ _ _ _ H2)|].
      intros w3 H3 E3 T3. tb. eapply tot_cons; [apply (t_create sk bound), (St_here _ _ _ _ H3)|]. intros a4 w4 (A4 & B4 & C4).
      rewrite Nat.add_0_r in A4. step. unfold list_consume.
      tb. eapply tot_cons; [apply (Hs (length inp - pos w3) ltac:(lia) ltac:(intros Eq; specialize (C Eq); lia) bound a4 C4 _ _ (pos w3) (a_stk (w_src w3)) 0); [lia|now rewrite Nat.add_0_r]|].
      intros [r a5] w5 (B5 & C5). cbn [fst snd] in *.
      assert (M3 : marks X base (S j) (a_stk (w_src w3))).
      { eapply St_marks. apply (St_join X base j (pos w2) (a_stk (w_src w2)) 1); [now apply St_marks|exact H3|lia]. }
      pose proof (St_join _ _ _ _ _ _ _ M3 B5 ltac:(lia)) as J5. cbn [plus] in J5. pose proof (St_low _ _ _ _ B5). pose proof (St_high _ _ _ _ B5).
      destruct r; [| |par].
      + specialize (C5 eq_refl). tb. eapply tot_cons; [apply (t_create sk bound), (St_here _ _ _ _ B5)|]. intros a6 w6 (A6 & B6 & C6).
        rewrite Nat.add_0_r in A6. eapply (IH a6 X (pos w5) base j (a_stk (w_src w5))); [| | |exact C6|now apply St_marks|exact A6]; try lia.
        destruct He as [He|He]; [specialize (C He)|specialize (C5 He)]; lia.
      + tb; eapply t_commit; eauto; intros w7 H7; apply tot_ret; (split; [auto|discriminate]).
    - tb; eapply t_commit; eauto; intros w2 H2; apply tot_ret; (split; [auto|discriminate]). }
  replace (S (owed a) + j) with (owed a + S j) in HS by lia. destruct (St_split _ _ _ _ _ HS) as (stk & HM & HS').
  eapply (Loop (S (length inp - X)) a X X); eauto.
Qed.

Lemma run_recur L sk id b bound st : (forall q, env id = Some q -> RunS L sk q /\ (eager id = true -> eats q = true)) ->
  fr sk (Recur id b) st -> bare st = true -> Run1 bound L sk (Recur id b) st.
Proof.
  intros Hq Hf Hb rq d X base j w HL HS. inversion Hf; subst; try discriminate. cbn [owed] in HS. step. unfold recur_consume.
  eapply tot_eq; [intros N n HN; rewrite envf_cut; reflexivity|].
  destruct (env id) as [q|] eqn:E; [|now apply tot_raise]. cbn [option_map]. destruct (Hq q eq_refl) as [HR He].
  tb. eapply tot_cons; [apply (t_create sk bound); exact HS|]. intros a2 w2 (A2 & B2 & C2).
  tb. eapply tot_cons; [apply (HR bound a2 C2); eauto|]. intros [r a3] w3 (B & C). apply tot_ret. split; [exact B|]. intros E1 E2. exact (C E1 (He E2)).
Qed.

(** ** All patterns *)
Context (Henv : all_guarded eager rank env).
Notation guarded := (guarded eager rank).

(** [id] may be called under the guard [b]. *)
Definition below (b : option nat) (id : nat) : Prop := match b with None => True | Some k => rank id < k end.

Lemma run_pat L b :
  (forall id, below b id -> forall q, env id = Some q -> forall sk, good L sk -> RunS L sk q) ->
  (forall L', L' < L -> forall p sk, guarded None p = true -> good L' sk -> RunS L' sk p) ->
  forall p, guarded b p = true -> forall sk, good L sk -> RunS L sk p.
Proof.
  intros HR Low p. assert (GF : good L Fail) by now left.
  assert (LowS : forall l L' sk, L' < L -> guarded None (Seq l) = true -> good L' sk -> sgood L' sk l).
  { intros l. induction l as [|q t IH]; intros L' sk HL Hg Gs; cbn; auto. cbn in Hg. apply andb_prop in Hg as [G1 G2]. split; [apply Low; auto|].
    intros L2 H2 _. apply IH; [lia| |eapply good_le; eauto]. now destruct (eats q). }
  induction p using pat_ind'; intros Hg sk Gs; apply adapters; auto; intros bound st.
  1-9: first [apply run_char | apply run_char_symbol | apply run_eoi | apply run_pass | apply run_fail | apply run_lit
             | apply run_symbol | apply run_uint | apply run_int].
  - apply run_seq. revert b HR H Hg. clear bound st. induction l as [|q t IH]; intros b HR HF Hg; cbn; auto.
    cbn in Hg. apply andb_prop in Hg as [G1 G2]. inversion HF; subst. split; [auto|]. intros L' HL' HE. destruct (eats q) eqn:Eq.
    + apply LowS; auto. eapply good_le; eauto.
    + eapply sgood_le; [exact HL'|]. eapply IH; eauto.
  - apply run_alt. cbn in Hg. induction H; constructor; cbn in Hg; apply andb_prop in Hg as [G1 G2]; auto.
  - cbn in Hg. apply andb_prop in Hg as [G1 G2]. apply run_repeat; auto. apply orb_prop in G2 as [G2|G2]; [left|now right].
    apply negb_true_iff, Nat.eqb_neq in G2. exact G2.
  - apply run_not; auto.
  - apply run_opt; auto.
  - apply run_discard; auto.
  - apply run_lexeme; auto.
  - cbn in Hg. apply andb_prop in Hg as [G1 G2]. apply run_with_skipper. apply IHp1; auto. apply orb_prop in G2 as [G2|G2]; [now left|].
    apply andb_prop in G2 as [G2 G3]. right. split; auto.
  - apply run_bind_dst; auto.
  - apply run_construct; auto.
  - apply run_act; auto.
  - cbn in Hg. apply andb_prop in Hg as [G1 G2]. apply run_except; auto.
  - cbn in Hg. apply andb_prop in Hg as [G1 G3]. apply andb_prop in G1 as [G1 G2]. apply run_list; auto.
    + intros L' HL' HE. destruct (eats p1) eqn:Eq; [apply Low; auto; eapply good_le; eauto|]. eapply RunS_le; [exact HL'|]. auto.
    + now apply orb_prop in G3.
  - apply run_recur. intros q Eq. split; [|now apply Henv]. eapply HR; eauto. cbn in Hg. destruct b; cbn in *; auto. now apply Nat.ltb_lt.
Qed.

Lemma run_all : forall L p sk, guarded None p = true -> good L sk -> RunS L sk p.
Proof.
  intros L. induction L as [L IH] using lt_wf_ind. intros p sk Hg Gs. apply (run_pat L None); auto.
  intros id _ q Eq. assert (HG : forall G q, guarded (Some G) q = true -> forall sk, good L sk -> RunS L sk q).
  { intros G. induction G as [G IHG] using lt_wf_ind. intros q'. apply run_pat; auto. cbn. intros id' Hid q2 E2. apply (IHG (rank id')); auto. now apply Henv. }
  apply (HG (rank id)). now apply Henv.
Qed.
End Tot.
