(** C66: one mark is left for each match of an Optional. *)
From Coq Require Import List ZArith Bool Arith Lia.
From Verif Require Import Base CharSet Source Dst Pattern Parser Session SourceProofs SpecSource SpecSession Rel Safety Keep Limit Chunk SessionProofs SessionThms Big SpecMarks.
Import ListNotations.

Section Count.
Context {S : Type} (ops : source_ops S) (size : S -> nat).
Hypothesis Hadv : forall s s', so_advance ops s = Done s' -> size s' = size s.
Hypothesis Hprep : forall s, size (so_prepare ops s) = Datatypes.S (size s).
Hypothesis Hcom : forall s s', so_commit ops s = Done s' -> size s = Datatypes.S (size s').
Hypothesis Hcan : forall s s', so_cancel ops s = Done s' -> size s = Datatypes.S (size s').
Context (W : nat -> bool) (env : nat -> option pat).
Hypothesis Henv : forall i q, env i = Some q -> watched W q = true.

Notation world := (Parser.world S).
Definition cnt (w : world) : nat := called W (w_trace w).
Definition sz (w : world) : nat := size (w_src w).

(** [f] has [a] marks to give back, and [post x] when it is done, calls of the watching callbacks counted as
    marks given back. *)
Definition bal {A} (f : M S A) (a : nat) (post : A -> nat) : Prop :=
  forall w x w', f w = Done (x, w') -> sz w' + cnt w + a = sz w + cnt w' + post x.

Lemma bal_ret {A} (x : A) post : bal (ret x) (post x) post.
Proof. intros w y w' E. inversion E; subst. lia. Qed.
Lemma bal_ret' {A} (x : A) a post : a = post x -> bal (ret x) a post.
Proof. intros ->. apply bal_ret. Qed.
Lemma bal_raise {A} e a (post : A -> nat) : bal (raise e) a post.
Proof. intros w y w' E. discriminate. Qed.
Lemma bal_bind {A B} (f : M S A) (g : A -> M S B) a mid post :
  bal f a mid -> (forall x, bal (g x) (mid x) post) -> bal (bind f g) a post.
Proof.
  intros Hf Hg w y w' E. unfold bind in E. destruct (f w) as [[x w1]|] eqn:E1; [|discriminate].
  specialize (Hf _ _ _ E1). specialize (Hg _ _ _ _ E). lia.
Qed.
Lemma bal_frame {A} (f : M S A) a post k : bal f a post -> bal f (a + k) (fun x => post x + k).
Proof. intros H w x w' E. specialize (H _ _ _ E). lia. Qed.
Lemma bal_eq {A} (f : M S A) a a' post post' : bal f a post -> (forall x, a + post' x = a' + post x) -> bal f a' post'.
Proof. intros H He w x w' E. specialize (H _ _ _ E). specialize (He x). lia. Qed.

(** Operations that leave the marks alone. *)
Definition still {A} (f : M S A) : Prop := forall w x w', f w = Done (x, w') -> sz w' = sz w /\ cnt w' = cnt w.
Lemma bal_still {A B} (f : M S A) (g : A -> M S B) a post : still f -> (forall x, bal (g x) a post) -> bal (bind f g) a post.
Proof.
  intros Hf Hg. apply bal_bind with (mid := fun _ => a); auto. intros w x w' E. destruct (Hf _ _ _ E). lia.
Qed.
Lemma still_empty : still (m_empty ops). Proof. intros w x w' E. now inversion E. Qed.
Lemma still_final : still (m_final ops). Proof. intros w x w' E. now inversion E. Qed.
Lemma still_next : still (m_next ops).
Proof. intros w x w' E. unfold m_next in E. destruct (so_next _ _); now inversion E. Qed.
Lemma still_advance : still (m_advance ops).
Proof.
  intros w x w' E. unfold m_advance, m_src in E. destruct (so_advance _ _) eqn:E1; inversion E; subst.
  split; auto. exact (Hadv _ _ E1).
Qed.
Lemma still_cells f : still (@on_cells S f).
Proof. intros w x w' E. unfold on_cells in E. destruct (f _); inversion E; subst; now split. Qed.
Lemma still_assign d v : still (@m_assign S d v).
Proof. apply still_cells. Qed.
Lemma still_ret {A} (x : A) : still (ret x). Proof. intros w y w' E. now inversion E. Qed.
Lemma still_negate d b : still (@int_negate S d b).
Proof. unfold int_negate. destruct b; [apply still_cells|apply still_ret]. Qed.

Lemma bal_prepare : bal (m_prepare ops) 0 (fun _ => 1).
Proof. intros w x w' E. inversion E; subst. unfold sz, cnt. cbn [w_src w_trace]. rewrite Hprep. lia. Qed.
Lemma bal_commit : bal (m_commit ops) 1 (fun _ => 0).
Proof.
  intros w x w' E. unfold m_commit, m_src in E. destruct (so_commit _ _) eqn:E1; inversion E; subst.
  apply Hcom in E1. unfold sz, cnt. cbn [w_src w_trace]. lia.
Qed.
Lemma bal_cancel : bal (m_cancel ops) 1 (fun _ => 0).
Proof.
  intros w x w' E. unfold m_cancel, m_src in E. destruct (so_cancel _ _) eqn:E1; inversion E; subst.
  apply Hcan in E1. unfold sz, cnt. cbn [w_src w_trace]. lia.
Qed.
Lemma bal_drop {A B} (f : M S A) (g : A -> M S B) a post : bal f 1 (fun _ => 0) -> (forall x, bal (g x) a post) -> bal (bind f g) (Datatypes.S a) post.
Proof.
  intros Hf Hg. apply bal_bind with (mid := fun _ => a); auto.
  eapply bal_eq; [exact Hf|]. intros. cbn beta. lia.
Qed.
Lemma bal_take {B} (g : unit -> M S B) a post : (forall x, bal (g x) (Datatypes.S a) post) -> bal (bind (m_prepare ops) g) a post.
Proof.
  intros Hg. apply bal_bind with (mid := fun _ => Datatypes.S a); auto. eapply bal_eq; [exact bal_prepare|]. intros. cbn beta. lia.
Qed.
Lemma bal_cell {A} v (f : nat -> M S A) a post : (forall l, bal (f l) a post) -> bal (with_cell v f) a (fun x => post (fst x)).
Proof.
  intros H w x w' E. unfold with_cell in E. destruct (f _ _) as [[y w1]|] eqn:E1; [|discriminate].
  destruct (nth_error _ _); inversion E; subst. specialize (H _ _ _ _ E1). unfold sz, cnt in *. cbn [w_src w_trace fst] in *. lia.
Qed.

(** ** Creation *)
Lemma bal_adapt k rq d p raw : (forall mk, k = Some mk -> bal mk 0 owed) -> (forall rq d, bal (raw rq d) 0 owed) ->
  bal (adapt ops k rq d p raw) 0 owed.
Proof.
  intros Hk Hr. unfold adapt. destruct (r_recur rq); [apply Hr|].
  assert (forall rq0, bal (if r_atomic rq0 && negb (f_atomic p)
      then bind (with_cell (default_init (dst_value_ty d)) (fun lvl => raw (unatomic_req rq0) (dst_cell lvl (dst_value_ty d)))) (fun x => ret (PAtomic (snd x) (fst x)))
      else raw rq0 d) 0 owed) as HA.
  { intros rq0. destruct (_ && _); [|apply Hr]. eapply bal_bind; [apply bal_cell; intros; apply Hr|]. intros [x v]. apply bal_ret'. reflexivity. }
  assert (bal (if r_clean rq && negb (f_clean p)
     then bind (if r_atomic (unclean_req rq) && negb (f_atomic p)
      then bind (with_cell (default_init (dst_value_ty d)) (fun lvl => raw (unatomic_req (unclean_req rq)) (dst_cell lvl (dst_value_ty d)))) (fun x => ret (PAtomic (snd x) (fst x)))
      else raw (unclean_req rq) d) (fun c => bind (m_prepare ops) (fun _ => ret (PClean c)))
     else if r_atomic rq && negb (f_atomic p)
      then bind (with_cell (default_init (dst_value_ty d)) (fun lvl => raw (unatomic_req rq) (dst_cell lvl (dst_value_ty d)))) (fun x => ret (PAtomic (snd x) (fst x)))
      else raw rq d) 0 owed) as HC.
  { destruct (r_clean rq && negb (f_clean p)); [|apply HA]. eapply bal_bind; [apply HA|]. intros x. apply bal_take. intros _. apply bal_ret'. reflexivity. }
  destruct k as [mk|]; [|exact HC].
  eapply bal_bind; [apply Hk; reflexivity|]. intros s. eapply bal_bind.
  - eapply bal_eq; [apply bal_frame with (k := owed s); exact HC|]. intros. cbn. reflexivity.
  - intros c. apply bal_ret'. cbn. lia.
Qed.

Lemma bal_create_in p : forall k rq d, (forall mk, k = Some mk -> bal mk 0 owed) -> bal (create_in ops k rq d p) 0 owed.
Proof.
  assert (HO : forall (f : M S pst) g, bal f 0 owed -> (forall x, owed (g x) = owed x) -> bal (bind f (fun c => ret (g c))) 0 owed).
  { intros f g Hf Hg. eapply bal_bind; [exact Hf|]. intros x. apply bal_ret'. now rewrite Hg. }
  assert (HP : forall (f : M S pst) g, bal f 0 owed -> (forall x, owed (g x) = Datatypes.S (owed x)) ->
     bal (bind f (fun c => bind (m_prepare ops) (fun _ => ret (g c)))) 0 owed).
  { intros f g Hf Hg. eapply bal_bind; [exact Hf|]. intros x. apply bal_take. intros _. apply bal_ret'. now rewrite Hg. }
  induction p using pat_ind'; intros k rq0 d0 Hk; cbn [create_in]; apply bal_adapt; auto; intros rq d; try (apply bal_ret'; reflexivity);
    try (apply HO; auto; fail); try (apply HP; auto; fail).
  - destruct (r_consumes rq); [apply bal_raise|apply bal_ret'; reflexivity].
  - apply bal_still; [apply still_cells|]. intros. apply bal_ret'. reflexivity.
  - apply bal_still; [apply still_cells|]. intros. apply bal_ret'. reflexivity.
  - destruct l as [|q l]; [apply bal_raise|]. inversion H; subst. destruct (seq_dst _ _ _); [|apply bal_raise]. apply HO; auto.
  - destruct l as [|q l]; [apply bal_raise|]. inversion H; subst. apply HO; auto.
  - destruct (_ && _); [apply bal_raise|]. apply HO; auto.
  - apply HO; auto. apply IHp. discriminate.
  - apply HO; auto. apply IHp1. destruct (is_fail p2); [discriminate|]. intros mk E. inversion E; subst. apply IHp2. discriminate.
  - eapply bal_bind; [apply bal_cell; intros; apply IHp; auto|]. intros [x v]. apply bal_ret'. reflexivity.
  - eapply bal_bind; [apply bal_cell; intros; apply IHp; auto|]. intros [x v]. apply bal_ret'. reflexivity.
Qed.

Lemma bal_create c rq d p : bal (create ops c rq d p) 0 owed.
Proof.
  apply bal_create_in. unfold mk_skip_of. destruct (is_fail _); [discriminate|]. intros mk E. inversion E; subst. apply bal_create_in. discriminate.
Qed.

(** ** consume *)
Definition xtra (p : pat) : nat := match p with Act a _ => if W (ac_id a) then 1 else 0 | _ => 0 end.
Definition wok (p : pat) : bool := match p with Act _ q => watched W q | _ => watched W p end.
Definition after (k : nat) (x : result * pst) : nat :=
  match fst x with SUCCESS => 0 | FAILURE => k | PARTIAL => owed (snd x) + k end.
Definition bself (self : @consume_ty S) : Prop := forall c rq d p st, watched W (c_skip c) = true -> wok p = true ->
  bal (self c rq d p st) (owed st + xtra p) (after (xtra p)).

Lemma watched_wok p : watched W p = true -> wok p = true /\ xtra p = 0.
Proof.
  destruct p; cbn; auto. intros H. apply andb_prop in H as [H1 H2]. apply negb_true_iff in H1. now rewrite H1.
Qed.

Section Step.
Variable self : @consume_ty S.
Hypothesis IH : bself self.

Lemma run_part {B} c rq d p st k (g : result * pst -> M S B) post : watched W (c_skip c) = true -> watched W p = true ->
  (forall x, bal (g x) (after 0 x + k) post) -> bal (bind (self c rq d p st) g) (owed st + k) post.
Proof.
  intros Hc Hp Hg. destruct (watched_wok p Hp) as [H1 H2].
  eapply bal_bind; [|exact Hg]. pose proof (IH c rq d p st Hc H1) as H. rewrite H2, Nat.add_0_r in H.
  now apply bal_frame with (k := k) in H.
Qed.

Lemma run_part0 {B} c rq d p st (g : result * pst -> M S B) post : watched W (c_skip c) = true -> watched W p = true ->
  (forall x, bal (g x) (after 0 x) post) -> bal (bind (self c rq d p st) g) (owed st) post.
Proof.
  intros Hc Hp Hg. rewrite <- (Nat.add_0_r (owed st)). apply run_part; auto. intros x. rewrite Nat.add_0_r. apply Hg.
Qed.

Lemma make_part {B} c rq d p k (g : pst -> M S B) post : (forall a, bal (g a) (owed a + k) post) -> bal (bind (create ops c rq d p) g) k post.
Proof.
  intros Hg. eapply bal_bind; [|exact Hg]. pose proof (bal_create c rq d p) as H. now apply bal_frame with (k := k) in H.
Qed.

Lemma again c rq d p st k : watched W (c_skip c) = true -> watched W p = true -> k = owed st -> bal (self c rq d p st) k (after 0).
Proof.
  intros Hc Hp ->. destruct (watched_wok p Hp) as [H1 H2]. pose proof (IH c rq d p st Hc H1) as H. now rewrite H2, Nat.add_0_r in H.
Qed.

Lemma bal_starved st k : owed st = 0 -> k = 0 -> bal (starved ops st) k (after 0).
Proof.
  intros H ->. unfold starved. apply bal_still; [apply still_final|]. intros f. apply bal_ret'. destruct f; cbn; auto. unfold after; cbn. lia.
Qed.

Ltac pick := match goal with p : pat |- _ => destruct p; try apply bal_raise; cbn [xtra owed wok watched] in *; rewrite ?Nat.add_0_r end.

Lemma step_count c rq d p st : watched W (c_skip c) = true -> wok p = true ->
  bal (consume_step ops env self c rq d p st) (owed st + xtra p) (after (xtra p)).
Proof.
  intros Hc Hp. 
  assert (HD : forall (X : M S (result * pst)), match st with PSkip _ _ _ | PClean _ | PAtomic _ _ => False | _ => True end ->
     consume_step ops env self c rq d p st = X -> bal X (owed st + xtra p) (after (xtra p)) ->
     bal (consume_step ops env self c rq d p st) (owed st + xtra p) (after (xtra p))) by (intros X _ ->; auto).
  destruct st; try (clear HD; cbn [consume_step]).
  - (* skip *) unfold skip_consume. cbn [owed]. destruct done.
    + eapply bal_bind; [apply IH; auto|]. intros [r a]. apply bal_ret'. destruct r; reflexivity.
    + rewrite <- Nat.add_assoc. apply run_part; auto. intros [r a]. cbn [fst snd]. destruct r; cbn [after fst snd].
      * apply make_part. intros s. eapply bal_eq; [apply IH; auto|]. intros. cbn [owed]. lia.
      * eapply bal_eq; [apply IH; auto|]. intros. cbn [owed]. lia.
      * apply bal_ret'. cbn. lia.
  - (* clean *) unfold clean_consume. cbn [owed]. replace (Datatypes.S (owed st) + xtra p) with (owed st + xtra p + 1) by lia.
    eapply bal_bind; [apply bal_frame, IH; auto|]. intros [r a]. cbn [fst snd]. destruct r; unfold after; cbn [fst snd owed].
    + rewrite Nat.add_comm. apply bal_drop; [apply bal_cancel|]. intros _. apply bal_ret'. reflexivity.
    + rewrite Nat.add_comm. apply bal_drop; [apply bal_commit|]. intros _. apply bal_ret'. reflexivity.
    + apply bal_ret'. cbn. lia.
  - (* atomic *) unfold atomic_consume. cbn [owed]. eapply bal_bind; [apply bal_cell; intros; apply IH; auto|].
    intros [[r a] b]. cbn [fst]. destruct r; try (apply bal_ret'; reflexivity).
    apply bal_still; [apply still_assign|]. intros. apply bal_ret'. reflexivity.
  - (* leaf *) pick.
    + unfold char_consume. apply bal_still; [apply still_empty|]. intros e. destruct e; [apply bal_starved; auto|].
      apply bal_still; [apply still_next|]. intros z. destruct (is_valid _ z); [|apply bal_ret'; reflexivity].
      apply bal_still; [apply still_assign|]. intros _. apply bal_still; [apply still_advance|]. intros _. apply bal_ret'. reflexivity.
    + unfold char_symbol_consume. apply bal_still; [apply still_empty|]. intros e. destruct e; [apply bal_starved; auto|].
      apply bal_still; [apply still_next|]. intros z. destruct (assoc z _); [|apply bal_ret'; reflexivity].
      apply bal_still; [apply still_assign|]. intros _. apply bal_ret'. reflexivity.
    + unfold eoi_consume. apply bal_still; [apply still_empty|]. intros e. destruct e; [|apply bal_ret'; reflexivity].
      apply bal_still; [apply still_final|]. intros f. apply bal_ret'. destruct f; reflexivity.
    + apply bal_ret'. reflexivity.
    + apply bal_ret'. reflexivity.
  - (* literal *) pick. unfold lit_consume. destruct rest as [|x rest]; [apply bal_ret'; reflexivity|].
    apply bal_still; [apply still_empty|]. intros e. destruct e; [apply bal_starved; auto|].
    apply bal_still; [apply still_next|]. intros z. destruct (Z.eqb z x); [|apply bal_ret'; reflexivity].
    apply bal_still; [apply still_advance|]. intros _. apply again; auto.
  - (* symbol *) pick. unfold sym_consume.
    assert (forall nx, bal (sym_stop ops d nx valid) (owed (PSym nx valid)) (after 0)) as HS.
    { intros nx. unfold sym_stop. destruct valid as [v|]; [|apply bal_ret'; reflexivity]. destruct (sym_value v); [|apply bal_raise].
      apply bal_still; [apply still_assign|]. intros _. cbn [owed]. apply bal_drop; [apply bal_commit|]. intros _. apply bal_ret'. reflexivity. }
    apply bal_still; [apply still_empty|]. intros e. destruct e.
    { apply bal_still; [apply still_final|]. intros f. destruct f; [apply HS|apply bal_ret'; cbn; destruct valid; reflexivity]. }
    apply bal_still; [apply still_next|]. intros z. destruct (assoc z _) as [nx|]; [|apply HS].
    apply bal_still; [apply still_advance|]. intros _. destruct (trie_val nx).
    + assert (bal (match trie_child nx with [] => bind (m_assign d v) (fun _ => ret (SUCCESS, PSym nx valid))
               | _ :: _ => bind (m_prepare ops) (fun _ => self c rq d (Symbol m) (PSym nx (Some nx))) end) 0 (after 0)) as HT.
      { destruct (trie_child nx).
        - apply bal_still; [apply still_assign|]. intros _. apply bal_ret'. reflexivity.
        - apply bal_take. intros _. apply again; auto. }
      destruct valid; cbn [owed].
      * apply bal_drop; [apply bal_cancel|]. intros _. exact HT.
      * apply bal_still; [apply still_ret|]. intros _. exact HT.
    + apply again; auto.
  - (* uint *) pick. unfold uint_consume. apply bal_still; [apply still_empty|]. intros e. destruct e.
    { apply bal_still; [apply still_final|]. intros f. apply bal_ret'. destruct f; [destruct (_ <=? _)%Z|]; reflexivity. }
    apply bal_still; [apply still_next|]. intros z. destruct (digit_valid _ z); [|apply bal_ret'; destruct (_ <=? _)%Z; reflexivity].
    do 2 (apply bal_still; [apply still_cells|]; intros _). apply bal_still; [apply still_advance|]. intros _. cbv zeta.
    destruct (_ =? _)%Z; [apply bal_ret'; reflexivity|apply again; auto].
  - (* int *) pick. unfold int_consume.
    assert (forall lk ng z, bal (int_digit ops self c rq d (Int base dmin dmax) base dmin dmax count lk ng z) 0 (after 0)) as HG.
    { intros. unfold int_digit. destruct (digit_valid _ z).
      - do 2 (apply bal_still; [apply still_cells|]; intros _). apply bal_still; [apply still_advance|]. intros _. cbv zeta.
        destruct (_ =? _)%Z; [|apply again; auto]. apply bal_still; [apply still_negate|]. intros _. apply bal_ret'. reflexivity.
      - apply bal_still; [apply still_negate|]. intros _. apply bal_ret'. destruct (_ <=? _)%Z; reflexivity. }
    apply bal_still; [apply still_empty|]. intros e. destruct e.
    { apply bal_still; [apply still_final|]. intros f. destruct f; [|apply bal_ret'; reflexivity].
      apply bal_still; [apply still_negate|]. intros _. apply bal_ret'. destruct (_ <=? _)%Z; reflexivity. }
    apply bal_still; [apply still_next|]. intros z. destruct (_ && _); [|apply HG].
    destruct (_ =? _)%Z; [apply bal_still; [apply still_advance|]; intros _; apply again; auto|].
    destruct (_ =? _)%Z; [apply bal_still; [apply still_advance|]; intros _; apply again; auto|]. apply HG.
  - (* nary *) pick; unfold nary_enter; (destruct (_ && _); [apply bal_raise|]);
      (destruct (skipn i l) as [|q rest] eqn:El; [apply bal_raise|]);
      (assert (watched W q = true /\ forallb (watched W) rest = true) as [Hq Hrest] by
        (apply andb_true_iff; change (forallb (watched W) (q :: rest) = true); rewrite <- El; rewrite forallb_forall in Hp |- *;
         intros x Hx; apply Hp; rewrite <- (firstn_skipn i l); apply in_or_app; now right)); clear El.
    + revert q Hq i st Hrest. generalize l at 1 as ll. induction rest as [|q' rest IHr]; intros ll q Hq i st Hrest; cbn [seq_from].
      * destruct (seq_dst _ _ _); [|apply bal_raise]. apply run_part0; auto. intros [r x]. destruct r; apply bal_ret'; reflexivity.
      * cbn [forallb] in Hrest. apply andb_prop in Hrest as [H1 H2].
        destruct (seq_dst _ _ _); [|apply bal_raise]. apply run_part0; auto. intros [r x]. destruct r; try (apply bal_ret'; reflexivity).
        cbn [fst snd after]. destruct (seq_dst _ _ _); [|apply bal_raise]. apply make_part. intros b. rewrite Nat.add_0_r. apply IHr; auto.
    + revert q Hq i st Hrest. induction rest as [|q' rest IHr]; intros q Hq i st Hrest; cbn [alt_from].
      * apply run_part0; auto. intros [r x]. destruct r; apply bal_ret'; reflexivity.
      * cbn [forallb] in Hrest. apply andb_prop in Hrest as [H1 H2].
        apply run_part0; auto. intros [r x]. destruct r; try (apply bal_ret'; reflexivity).
        cbn [fst snd after]. apply make_part. intros b. rewrite Nat.add_0_r. apply IHr; auto.
  - (* except *) pick. apply andb_prop in Hp as [Hp1 Hp2]. unfold except_consume. destruct i as [|[|i]]; [| |apply bal_raise].
    + apply run_part0; auto. intros [r x]. cbn [fst snd]. destruct r; try (apply bal_ret'; reflexivity).
      apply make_part. intros b. rewrite Nat.add_0_r. apply run_part0; auto. intros [r y]. apply bal_ret'. destruct r; reflexivity.
    + apply run_part0; auto. intros [r y]. apply bal_ret'. destruct r; reflexivity.
  - (* list *) pick. apply andb_prop in Hp as [Hp1 Hp2]. unfold list_consume. destruct i as [|[|i]]; [| |apply bal_raise];
      replace (Datatypes.S (owed st)) with (owed st + 1) by lia; apply run_part; auto; intros [r x]; destruct r; unfold after; cbn [fst snd]; rewrite ?Nat.add_0_l.
    + apply bal_drop; [apply bal_cancel|]. intros _. apply bal_take. intros _. apply make_part. intros b. apply again; cbn; auto.
      * now rewrite Hp1, Hp2. * lia.
    + apply bal_drop; [apply bal_commit|]. intros _. apply bal_ret'. reflexivity.
    + apply bal_ret'. cbn. lia.
    + apply make_part. intros b. apply again; cbn; auto. * now rewrite Hp1, Hp2. * lia.
    + apply bal_drop; [apply bal_commit|]. intros _. apply bal_ret'. reflexivity.
    + apply bal_ret'. cbn. lia.
  - (* repeat *) pick. unfold repeat_consume. apply run_part0; auto. intros [r x]. cbn [fst snd]. destruct r; unfold after; cbn [fst snd].
    + cbv zeta. destruct (_ && _); [apply bal_ret'; reflexivity|]. apply make_part. intros b. rewrite Nat.add_0_r. apply again; auto.
    + apply bal_ret'. destruct (_ <=? _); reflexivity.
    + apply bal_ret'. reflexivity.
  - (* not *) pick. unfold not_consume. replace (Datatypes.S (owed st)) with (owed st + 1) by lia. apply run_part; auto. intros [r x]. destruct r; unfold after; cbn [fst snd].
    + apply bal_drop; [apply bal_commit|]. intros _. apply bal_ret'. reflexivity.
    + apply bal_drop; [apply bal_commit|]. intros _. apply bal_ret'. reflexivity.
    + apply bal_ret'. cbn. lia.
  - (* optional *) pick. destruct p; try discriminate. apply andb_prop in Hp as [Hp1 Hp2]. unfold opt_consume.
    assert (xtra (Act a p) = 1) as HX by (cbn; now rewrite Hp1).
    replace (Datatypes.S (owed st)) with (owed st + xtra (Act a p)) by lia. eapply bal_bind; [apply IH; auto|]. rewrite HX. intros [r x]. destruct r; unfold after; cbn [fst snd].
    + apply bal_ret'. reflexivity.
    + apply bal_drop; [apply bal_commit|]. intros _. apply bal_ret'. reflexivity.
    + apply bal_ret'. cbn. lia.
  - (* forwarding *) pick; unfold forward_consume; try (apply andb_prop in Hp as [Hp1 Hp2]); apply run_part0; auto; intros [r x]; apply bal_ret'; destruct r; reflexivity.
  - (* action *) pick. unfold action_consume. eapply bal_bind.
    { apply bal_cell. intros. pose proof (proj1 (watched_wok p Hp)) as Hw. pose proof (proj2 (watched_wok p Hp)) as Hx.
      pose proof (bal_frame _ _ _ (if W (ac_id a) then 1 else 0) (IH c (action_req rq) (dst_cell l (ac_land a)) p st Hc Hw)) as HB.
      rewrite Hx, Nat.add_0_r in HB. exact HB. }
    intros [[r x] v]. cbn [fst snd]. destruct r; unfold after; cbn [fst snd]; try (apply bal_ret'; unfold after; cbn; lia).
    apply bal_bind with (mid := fun _ => 0); [|intros _; apply bal_ret'; reflexivity]. intros w y w' E. unfold act_dispatch in E.
    destruct (conv _ v) as [v'|]; [|discriminate]. destruct (if ac_param a then _ else _) as [b|]; [|discriminate].
    destruct (ac_fun a v' b) as [r' b']. destruct (if ac_param a then _ else _) as [cs|]; [|discriminate].
    assert (sz w' = sz w /\ w_trace w' = Event (ac_id a) v' :: w_trace w) as [HZ HT].
    { destruct (ac_void a); [inversion E; subst; now split|]. unfold m_assign, on_cells in E. cbn in E. destruct (assign _ _ _); inversion E; subst; now split. }
    rewrite HZ. unfold cnt, called. rewrite HT. cbn [filter ev_act]. destruct (W (ac_id a)); cbn [length]; lia.
  - (* construct *) pick. unfold construct_consume. eapply bal_bind.
    { apply bal_cell. intros. apply again; auto. }
    intros [[r x] v]. cbn [fst snd]. destruct r; try (apply bal_ret'; reflexivity).
    destruct (make_from _ _); [|apply bal_raise]. apply bal_still; [apply still_assign|]. intros _. apply bal_ret'. reflexivity.
  - (* recur *) pick. unfold recur_consume. destruct (env _) as [q|] eqn:Eq; [|apply bal_raise]. pose proof (Henv _ _ Eq) as Hq.
    assert (forall b, bal (bind (self c recur_req d q b) (fun x => ret (fst x, PRecur (Some (snd x))))) (owed b) (after 0)) as HR.
    { intros b. apply run_part0; auto. intros [r x]. apply bal_ret'. destruct r; reflexivity. }
    destruct c0 as [b|]; cbn [owed].
    + apply bal_bind with (mid := fun b => owed b); [apply bal_ret'; reflexivity|exact HR].
    + apply bal_bind with (mid := fun b => owed b); [apply bal_create; auto|exact HR].
Qed.

End Step.

Theorem consume_count n : bself (consume ops env n).
Proof.
  induction n as [|n IH]; intros c rq d p st Hc Hp; cbn [consume]; [apply bal_raise|]. now apply step_count.
Qed.

End Count.

(** ** The two sources *)
Lemma parse_count env W n t v p inp r w : (forall i q, env i = Some q -> watched W q = true) -> watched W p = true ->
  parse env n t v p inp = Done (r, w) -> r <> PARTIAL -> length (sf_stack (w_src w)) = called W (w_trace w).
Proof.
  intros He Hp E Hr. unfold parse, top_run, bind in E.
  set (size := fun s : sfwd => length (sf_stack s)).
  assert (Hadv : forall s s', so_advance sf_ops s = Done s' -> size s' = size s).
  { intros s s'. cbn. unfold sf_advance. destruct (sf_cur s); [discriminate|]. intros X. now inversion X. }
  assert (Hprep : forall s, size (so_prepare sf_ops s) = Datatypes.S (size s)) by reflexivity.
  assert (Hcom : forall s s', so_commit sf_ops s = Done s' -> size s = Datatypes.S (size s')).
  { intros s s'. cbn. unfold sf_commit, size. destruct (sf_stack s); [discriminate|]. intros X. now inversion X. }
  assert (Hcan : forall s s', so_cancel sf_ops s = Done s' -> size s = Datatypes.S (size s')).
  { intros s s'. cbn. unfold sf_cancel, size. destruct (sf_stack s); [discriminate|]. intros X. now inversion X. }
  destruct (top_create sf_ops t p _) as [[st w1]|] eqn:E1; [|discriminate].
  apply (bal_create sf_ops size Hprep W) in E1.
  destruct (top_consume _ _ _ _ _ _ _) as [[[r1 st2] w2]|] eqn:E2; inversion E; subst. clear E.
  destruct (watched_wok W p Hp) as [H1 H2].
  apply (consume_count sf_ops size Hadv Hprep Hcom Hcan W env He n (top_ctx t) default_req (top_dst t) p st eq_refl H1) in E2.
  rewrite H2 in E2. unfold sz, cnt, after, called, size in *. cbn [w_src w_trace sf_make sf_stack length filter fst snd] in *.
  destruct r; try congruence; lia.
Qed.

Definition cs_size (s : cseq) : nat := length (cs_marks s) + cs_starved s.

Lemma cs_cleanup_size s s' : cs_cleanup s = Done s' -> cs_size s' = cs_size s.
Proof.
  unfold cs_cleanup, cs_size. destruct (cs_marks s) eqn:Em; [|intros X; inversion X; subst; now rewrite Em].
  unfold obind. destruct (buf_drop _ _); [|discriminate]. intros X. now inversion X.
Qed.
Lemma cs_add_size b f s s' : cs_add b f s = Done s' -> cs_size s' = cs_size s.
Proof.
  unfold cs_add, cs_size. destruct (cs_final s); [discriminate|]. destruct b; [intros X; now inversion X|].
  destruct (cs_empty s); intros X; inversion X; subst; cbn; auto. rewrite app_length, repeat_length. lia.
Qed.

Section Sessions.
Context (env : nat -> option pat) (W : nat -> bool).
Hypothesis He : forall i q, env i = Some q -> watched W q = true.

Lemma cs_adv s s' : so_advance cs_ops s = Done s' -> cs_size s' = cs_size s.
Proof.
  cbn. unfold cs_advance, cs_size. destruct (cs_cur s) as [[i o]|]; [|discriminate]. destruct (buf_find _ _); [|discriminate].
  destruct (_ <=? _); [discriminate|]. destruct (_ =? _); intros X; now inversion X.
Qed.
Lemma cs_prep s : cs_size (so_prepare cs_ops s) = Datatypes.S (cs_size s).
Proof. cbn. unfold cs_prepare, cs_size. destruct (cs_cur s); cbn; lia. Qed.
Lemma cs_com s s' : so_commit cs_ops s = Done s' -> cs_size s = Datatypes.S (cs_size s').
Proof.
  cbn. unfold cs_commit. destruct (cs_starved s) eqn:Es.
  - destruct (cs_marks s) eqn:Em; [discriminate|]. intros X. apply cs_cleanup_size in X. rewrite X. unfold cs_size. cbn. rewrite ?Em, ?Es. cbn. lia.
  - intros X. inversion X; subst. unfold cs_size. cbn. lia.
Qed.
Lemma cs_can s s' : so_cancel cs_ops s = Done s' -> cs_size s = Datatypes.S (cs_size s').
Proof.
  cbn. unfold cs_cancel. destruct (cs_starved s) eqn:Es.
  - destruct (cs_marks s) eqn:Em; [discriminate|]. intros X. apply cs_cleanup_size in X. rewrite X. unfold cs_size. cbn. rewrite ?Em, ?Es. cbn. lia.
  - intros X. inversion X; subst. unfold cs_size. cbn. lia.
Qed.

(** Between two calls: the marks of the parser itself, and one per match of an Optional. *)
Lemma calls_count n t p l : watched W p = true -> forall s s', do_calls cs_ops cs_add env n t p l s = Done s' ->
  cs_size (w_src (s_world s)) = called W (w_trace (s_world s)) + match s_res s with None => owed (s_st s) | Some _ => 0 end ->
  cs_size (w_src (s_world s')) = called W (w_trace (s_world s')) + match s_res s' with None => owed (s_st s') | Some _ => 0 end.
Proof.
  intros Hp. induction l as [|k l IH]; intros s s' E H; cbn [do_calls] in E; [inversion E; now subst|].
  unfold obind in E. destruct (do_call _ _ _ _ _ _ k s) as [s1|] eqn:E1; [|discriminate]. apply (IH _ _ E). clear IH E s' l.
  unfold do_call in E1. destruct (s_res s) eqn:Er; [inversion E1; subst; now rewrite Er|]. destruct k as [b f|].
  - unfold obind in E1. destruct (cs_add b f _) eqn:Ea; inversion E1; subst. cbn. now rewrite (cs_add_size _ _ _ _ Ea).
  - destruct (top_consume _ _ _ _ _ _ _) as [[[r st] w]|] eqn:E2; [|discriminate].
    destruct (watched_wok W p Hp) as [H1 H2].
    apply (consume_count cs_ops cs_size cs_adv cs_prep cs_com cs_can W env He n (top_ctx t) default_req (top_dst t) p _ eq_refl H1) in E2.
    rewrite H2 in E2. unfold sz, cnt, after in E2. cbn [fst snd] in E2. destruct r; inversion E1; subst; cbn [s_world s_res s_st]; lia.
Qed.

Lemma session_count n t v p l s : watched W p = true -> run_session env n t v p l = Done s ->
  cs_size (w_src (s_world s)) = called W (w_trace (s_world s)) + match s_res s with None => owed (s_st s) | Some _ => 0 end.
Proof.
  intros Hp E. unfold run_session in E. destruct (top_create _ _ _ _) as [[st w]|] eqn:E1; [|discriminate].
  apply (calls_count _ _ _ _ Hp _ _ E). cbn [s_world s_res s_st].
  apply (bal_create cs_ops cs_size cs_prep W) in E1. unfold sz, cnt, called, cs_size in *. cbn in E1. cbn [length]. lia.
Qed.
End Sessions.

(** Without a mark, the buffers held are those that are not read. *)
Lemma unmarked env t v p n l s : run_session env n t v p l = Done s -> cs_marks (w_src (s_world s)) = [] ->
  match cs_bufs (w_src (s_world s)) with
  | [] => cs_unread (w_src (s_world s)) = []
  | (_, b) :: tl => exists k, k < length b /\ cs_unread (w_src (s_world s)) = skipn k b ++ concat (map snd tl)
  end.
Proof.
  intros E Hm. pose proof (session_sim env t v p n l) as S1. rewrite E in S1.
  destruct (a_session env t v p n l) as [a|] eqn:A; [|destruct S1].
  destruct S1 as (R1 & _ & Rw1). destruct Rw1 as ([d [rc1 rc2 rc3 rc4 rc5 rc6 rc7 rc8 rc9]] & _).
  set (src := w_src (s_world s)) in *. rewrite Hm in rc9. cbn in rc9. unfold cs_unread.
  destruct (cs_cur src) as [[i off]|]; cbn in rc9.
  - destruct (cs_bufs src) as [|[j b] tl]; cbn in rc9; [discriminate|]. inversion rc9; subst j.
    destruct (loc_split _ _ _ _ _ rc6) as (pre & b' & post & Eb & Hn & Ho & Hpp).
    destruct pre as [|[j ?] pre].
    + cbn in Eb. inversion Eb; subst. exists off. cbn. now rewrite Nat.eqb_refl.
    + cbn in Eb. inversion Eb; subst. cbn in Hn. tauto.
  - destruct (cs_bufs src) as [|[i b] tl]; cbn in rc9; [reflexivity|discriminate].
Qed.

Theorem marks_counted env W t v p : (forall i q, env i = Some q -> watched W q = true) -> watched W p = true ->
  (forall n inp r w, parse env n t v p inp = Done (r, w) -> length (sf_stack (w_src w)) = called W (w_trace w)) /\
  (forall n l s r, run_session env n t v p l = Done s -> s_res s = Some r ->
     let src := w_src (s_world s) in
     length (cs_marks src) + cs_starved src = called W (w_trace (s_world s)) /\
     (called W (w_trace (s_world s)) = 0 ->
      match cs_bufs src with
      | [] => cs_unread src = []
      | (_, b) :: tl => exists k, k < length b /\ cs_unread src = skipn k b ++ concat (map snd tl)
      end)).
Proof.
  intros He Hp. split.
  - intros n inp r w E. apply (parse_count env W n t v p inp r w He Hp E). destruct (parse_never_partial _ _ _ _ _ _ _ _ E); congruence.
  - intros n l s r E Hr. pose proof (session_count env W He n t v p l s Hp E) as HC. rewrite Hr, Nat.add_0_r in HC. unfold cs_size in HC.
    split; [exact HC|]. intros H0. apply (unmarked _ _ _ _ _ _ _ E). destruct (cs_marks _); auto. cbn in HC. lia.
Qed.
