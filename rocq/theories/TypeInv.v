(** The machine keeps to the types, over any data source. *)
From Coq Require Import List ZArith Bool Arith Lia.
From Verif Require Import Base CharSet Source Dst Pattern Parser Rel Safety Leaf SpecType TypeMem.
Import ListNotations.

Section Inv.
Context {S : Type} (ops : source_ops S) (env : nat -> option pat).
Context (strict calm : bool) (uses : nat -> ty -> ty -> Prop) (stores : nat -> bool) (known : action -> Prop).
Notation sets := (sets stores).
Notation typed := (typed strict calm uses stores known).

Definition fine (e : err) : Prop :=
  e <> EType /\ (strict = true -> e <> EUb UbUninit) /\ (calm = true -> e <> EUb UbOverflow) /\
  (all_defined uses env -> e <> EUb UbRecur).

Hypothesis Hnext : forall s e, so_next ops s = Err e -> fine e.
Hypothesis Hadv : forall s e, so_advance ops s = Err e -> fine e.
Hypothesis Hcom : forall s e, so_commit ops s = Err e -> fine e.
Hypothesis Hcan : forall s e, so_cancel ops s = Err e -> fine e.
Hypothesis Henv : env_typed strict calm uses stores known env.

(** ** Statements about runs *)

Definition wp {A} (m : M S A) (Q : A -> list val -> list event -> Prop) (cs : list val) (tr : list event) : Prop :=
  forall s, match m (World s cs tr) with
            | Done (a, w) => Q a (w_cells w) (w_trace w)
            | Err e => fine e
            end.

Lemma wp_mono {A} (m : M S A) (Q Q' : A -> list val -> list event -> Prop) cs tr :
  wp m Q cs tr -> (forall a cs' tr', Q a cs' tr' -> Q' a cs' tr') -> wp m Q' cs tr.
Proof. intros H HQ s. specialize (H s). destruct (m _) as [[a w]|]; auto. Qed.
Lemma wp_ret {A} (a : A) (Q : A -> list val -> list event -> Prop) cs tr : Q a cs tr -> wp (ret a) Q cs tr.
Proof. intros H s. exact H. Qed.
Lemma wp_raise {A} e (Q : A -> list val -> list event -> Prop) cs tr : fine e -> wp (raise e) Q cs tr.
Proof. intros H s. exact H. Qed.
Lemma wp_bind {A B} (m : M S A) (f : A -> M S B) Q cs tr : wp m (fun a => wp (f a) Q) cs tr -> wp (bind m f) Q cs tr.
Proof. intros H s. specialize (H s). unfold bind. destruct (m _) as [[a [s' cs' tr']]|]; auto. apply H. Qed.

Lemma wp_empty (Q : bool -> list val -> list event -> Prop) cs tr : (forall b, Q b cs tr) -> wp (m_empty ops) Q cs tr.
Proof. intros H s. apply H. Qed.
Lemma wp_final (Q : bool -> list val -> list event -> Prop) cs tr : (forall b, Q b cs tr) -> wp (m_final ops) Q cs tr.
Proof. intros H s. apply H. Qed.
Lemma wp_next (Q : Z -> list val -> list event -> Prop) cs tr : (forall c, Q c cs tr) -> wp (m_next ops) Q cs tr.
Proof. intros H s. unfold m_next. cbn. destruct (so_next ops s) eqn:E; eauto. Qed.
Lemma wp_src f (Q : unit -> list val -> list event -> Prop) cs tr : (forall s e, f s = Err e -> fine e) -> Q tt cs tr -> wp (m_src f) Q cs tr.
Proof. intros Hf H s. unfold m_src. cbn. destruct (f s) eqn:E; eauto. Qed.
Lemma wp_advance (Q : unit -> list val -> list event -> Prop) cs tr : Q tt cs tr -> wp (m_advance ops) Q cs tr.
Proof. now apply wp_src. Qed.
Lemma wp_prepare (Q : unit -> list val -> list event -> Prop) cs tr : Q tt cs tr -> wp (m_prepare ops) Q cs tr.
Proof. apply wp_src. discriminate. Qed.
Lemma wp_commit (Q : unit -> list val -> list event -> Prop) cs tr : Q tt cs tr -> wp (m_commit ops) Q cs tr.
Proof. now apply wp_src. Qed.
Lemma wp_cancel (Q : unit -> list val -> list event -> Prop) cs tr : Q tt cs tr -> wp (m_cancel ops) Q cs tr.
Proof. now apply wp_src. Qed.

Lemma fine_shape : fine EShape. Proof. repeat split; discriminate. Qed.
Lemma fine_fuel : fine EFuel. Proof. repeat split; discriminate. Qed.
Lemma fine_over : calm <> true -> fine (EUb UbOverflow). Proof. intros H. repeat split; try discriminate. congruence. Qed.
Lemma fine_uninit : strict <> true -> fine (EUb UbUninit). Proof. intros H. repeat split; try discriminate. congruence. Qed.
Lemma fine_recur id t bt : uses id t bt -> env id = None -> fine (EUb UbRecur).
Proof. intros H E. repeat split; try discriminate. intros HD. exfalso. exact (HD _ _ _ H E). Qed.

(** ** Memory *)

(** The value handed to an action is of the type it takes. *)
Definition evok (e : event) : Prop :=
  exists a, known a /\ ac_id a = ev_act e /\ has_ty (ac_land a) (ev_val e) = true.

Definition I (tys : list ty) (cs : list val) (tr : list event) : Prop := Mem tys cs /\ Forall evok tr.
Definition Next (tys : list ty) (cs cs' : list val) (tr' : list event) : Prop := I tys cs' tr' /\ grows cs cs'.

Lemma next_refl tys cs tr : I tys cs tr -> Next tys cs cs tr.
Proof. split; auto using grows_refl. Qed.
Lemma next_trans tys a b tr c tr' : Next tys a b tr -> Next tys b c tr' -> Next tys a c tr'.
Proof. intros [_ H1] [H2 H3]. split; eauto using grows_trans. Qed.
Lemma next_I tys a b tr : Next tys a b tr -> I tys b tr. Proof. now intros []. Qed.

Lemma next_det tys cs cs' tr tr' d t : I tys cs tr -> Next tys cs cs' tr' -> dref tys d t -> detb cs d = true -> detb cs' d = true.
Proof. intros [H _] [[H1 _] H2] Hd. eapply det_grows; eauto. Qed.

Lemma wp_cells f tys d t (Q : unit -> list val -> list event -> Prop) cs tr : I tys cs tr -> stored tys cs d t (f cs) ->
  (forall cs', Next tys cs cs' tr -> (is_num t = true -> detb cs' d = true) -> Q tt cs' tr) -> wp (on_cells f) Q cs tr.
Proof.
  intros [HM HT] (cs' & E & HM' & Hg & Hd) H s. unfold on_cells. cbn. rewrite E. apply H; auto. split; auto. now split.
Qed.

Lemma mem_length tys cs : Mem tys cs -> length cs = length tys.
Proof. induction 1; cbn; auto. Qed.

Lemma wp_with_cell {A} tys t v (f : nat -> M S A) (Q : A * val -> list val -> list event -> Prop) cs tr :
  I tys cs tr -> object t v ->
  (I (tys ++ [t]) (cs ++ [v]) tr -> dref (tys ++ [t]) (dst_cell (length cs) t) t ->
   detb (cs ++ [v]) (dst_cell (length cs) t) = dfd v ->
   wp (f (length cs)) (fun a cs' tr' => Next (tys ++ [t]) (cs ++ [v]) cs' tr' /\
     forall cs0 v', cs' = cs0 ++ [v'] -> Next tys cs cs0 tr' -> object t v' ->
       detb cs' (dst_cell (length cs) t) = dfd v' -> Q (a, v') cs0 tr') (cs ++ [v]) tr) ->
  wp (with_cell v f) Q cs tr.
Proof.
  intros [HM HT] Ho H s. pose proof (mem_length _ _ HM) as HL. unfold with_cell. cbn.
  assert (wp (f (length cs)) (fun a cs' tr' => Next (tys ++ [t]) (cs ++ [v]) cs' tr' /\
     forall cs0 v', cs' = cs0 ++ [v'] -> Next tys cs cs0 tr' -> object t v' ->
       detb cs' (dst_cell (length cs) t) = dfd v' -> Q (a, v') cs0 tr') (cs ++ [v]) tr) as H'.
  { apply H. - split; auto. now apply mem_snoc. - rewrite HL. apply dref_cell. - now apply det_cell. }
  clear H. specialize (H' s). destruct (f _ _) as [[a [s' cs' tr']]|]; auto. cbn in *. destruct H' as [[[HM' HT'] Hg] HQ].
  destruct (mem_split _ _ _ HM') as (cs0 & v' & -> & HL0 & HM0 & Ho').
  assert (length cs = length cs0) as HL' by congruence.
  rewrite nth_error_app2, HL', Nat.sub_diag by lia. cbn [nth_error w_cells w_trace].
  rewrite firstn_app, firstn_all, Nat.sub_diag, firstn_O, app_nil_r.
  destruct (grows_snoc _ _ _ _ HL' Hg) as [Hg0 _].
  apply HQ; auto. - split; auto. now split. - rewrite HL'. now apply det_cell.
Qed.

(** ** What the static check says *)

Definition typedq (rq : req) : ty -> ty -> pat -> Prop := typed (r_atomic rq) (r_consumes rq) (r_recur rq).

Definition number (t : ty) : Prop := (t = TNil \/ is_num t = true) /\ (calm = true -> wraps t = true).

Definition body (rq : req) (t bt : ty) (p : pat) : Prop :=
  match p with
  | Char _ => takes_num t = true
  | CharSymbol m => forall c v, In (c, v) m -> accepts (value_ty t) v = true
  | Symbol m => forall k v, In (k, v) m -> accepts (value_ty t) v = true
  | Eoi | Fail | Lit _ => True
  | Pass => r_consumes rq = false
  | UInt _ _ _ | Int _ _ _ => number t
  | Seq l => l <> [] /\ forall i q, nth_error l i = Some q ->
               exists t', part_ty t (count (firstn i l)) q = Some t' /\ typedq seq_req t' bt q
  | Alt l => l <> [] /\ forall i q, nth_error l i = Some q -> typedq (alt_req rq) t bt q
  | Repeat lo hi q => r_consumes rq && (lo =? 0) = false /\ typedq (repeat_req lo hi rq) t bt q
  | Not q => typedq (not_req rq) t bt q
  | Opt q => typedq (opt_req rq) t bt q
  | Discard q => typedq rq TNil bt q
  | Lexeme q => typedq rq t bt q
  | WithSkipper q s => typedq skip_req TNil TNil s /\ typedq rq t bt q
  | BindDst q => typedq (unatomic_req rq) t t q
  | Construct args q =>
    wf_ty (TTuple args) = true /\ makes t args = true /\ (forall ts, t = TTuple ts -> ts = args) /\
    typedq (unatomic_req rq) (TTuple args) bt q
  | Act a q =>
    known a /\ wf_ty (ac_land a) = true /\ callback a t bt /\ typedq (action_req rq) (ac_land a) bt q /\
    (strict = true -> is_num (ac_land a) = true -> sets q = true)
  | Except q n => typedq neg_req TNil bt n /\ typedq (except_req rq) t bt q
  | PList q sep => typedq list_req t bt q /\ typedq sep_req TNil bt sep
  | Recur id _ => uses id t bt
  end.

Definition buffered (rq : req) (p : pat) : bool := negb (r_recur rq) && r_atomic rq && negb (f_atomic p).

Lemma fail_typed at_ cs rc t bt : typed at_ cs rc t bt Fail.
Proof. cbn. split; auto. Qed.

Lemma typed_body rq t bt p : typedq rq t bt p ->
  if buffered rq p then
    (strict = true -> is_num (value_ty t) = true -> sets p = true) /\ body (unatomic_req rq) (value_ty t) bt p
  else body rq t bt p.
Proof.
  intros H. unfold typedq, buffered in *. set (b := negb (r_recur rq) && r_atomic rq && negb (f_atomic p)).
  assert (b = true -> r_recur rq = false) as Hr by (unfold b; destruct (r_recur rq); auto; discriminate).
  assert ((b = true -> strict = true -> is_num (if b then value_ty t else t) = true -> sets p = true) /\
          body (if b then unatomic_req rq else rq) (if b then value_ty t else t) bt p) as [H1 H2];
    [|destruct b; auto].
  destruct p; cbn [SpecType.typed] in H; fold b in H; destruct H as [H0 H]; (split; [exact H0|]); cbn [body];
    clearbody b; try (destruct b; [specialize (Hr eq_refl)|]; unfold typedq, repeat_req, not_req, opt_req, unatomic_req, action_req, except_req, neg_req, list_req, sep_req in *; cbn [r_atomic r_consumes r_recur] in *; rewrite ?Hr in *; auto; fail).
  - destruct H as [Hl H]. split; auto. clear - H. generalize dependent (if b then value_ty t else t). clear t.
    intros t H. change (forall i q, nth_error l i = Some q ->
      exists t', part_ty t (0 + count (firstn i l)) q = Some t' /\ typedq seq_req t' bt q).
    revert H. generalize 0. induction l as [|p l IH]; intros k H [|i] q Hq; try discriminate; destruct H as [(t' & Ht & Hp) H].
    + injection Hq as ->. exists t'. cbn. rewrite Nat.add_0_r. auto.
    + destruct (IH _ H i q Hq) as (u & Hu & Hq'). exists u. split; auto. rewrite <- Hu. f_equal. cbn [firstn]. unfold count. cbn [filter].
      destruct (ignores p); cbn; lia.
  - destruct H as [Hl H]. split; auto. intros i q Hq.
    assert (typed (if b then false else r_atomic rq) (r_consumes rq) false (if b then value_ty t else t) bt q) as HT.
    { clear Hl H0. revert i Hq. induction l as [|p l IH]; intros [|i] Hq; try discriminate; destruct H as [Hp H].
      - now injection Hq as ->. - eauto. }
    destruct b; exact HT.
  - destruct b; [rewrite (Hr eq_refl) in H|]; exact H.
  - destruct b; [rewrite (Hr eq_refl) in H|]; exact H.
  - destruct H as [Hs H]. split.
    + destruct Hs as [Hf|Hs]; [|exact Hs]. destruct p2; try discriminate. apply fail_typed.
    + destruct b; [rewrite (Hr eq_refl) in H|]; exact H.
Qed.

(** ** Objects *)

(** All values in a trie satisfy [P]. *)
Inductive tall (P : val -> Prop) : trie -> Prop :=
| tall_node v c : (forall x, v = Some x -> P x) -> (forall k n, assoc k c = Some n -> tall P n) -> tall P (Node v c).

Definition sval (q : pat) : bool := negb (ignores q) && sets q.

(** [obj rq b bb sk t bt p st]: [st] is an object for [p] with a destination of type [t], which
    is determinate if [b]; the bound destination, of type [bt], is if [bb]. *)
Inductive obj : req -> bool -> bool -> pat -> ty -> ty -> pat -> pst -> Prop :=
| o_skip rq b bb sk t bt p done s a :
    (done = false -> obj skip_req true true Fail TNil TNil sk s) -> obj rq b bb sk t bt p a -> obj rq b bb sk t bt p (PSkip done s a)
| o_clean rq b bb sk t bt p a : obj (unclean_req rq) b bb sk t bt p a -> obj rq b bb sk t bt p (PClean a)
| o_atomic rq b bb sk t bt p buf a : object (value_ty t) buf ->
    (strict = true -> is_num (value_ty t) = true -> sets p = true) ->
    obj (unatomic_req rq) (dfd buf) bb sk (value_ty t) bt p a -> obj rq b bb sk t bt p (PAtomic buf a)
| o_char rq b bb sk t bt s : takes_num t = true -> obj rq b bb sk t bt (Char s) PLeaf
| o_csym rq b bb sk t bt m : (forall c v, In (c, v) m -> accepts (value_ty t) v = true) -> obj rq b bb sk t bt (CharSymbol m) PLeaf
| o_eoi rq b bb sk t bt : obj rq b bb sk t bt Eoi PLeaf
| o_pass rq b bb sk t bt : obj rq b bb sk t bt Pass PLeaf
| o_fail rq b bb sk t bt : obj rq b bb sk t bt Fail PLeaf
| o_lit rq b bb sk t bt s r : obj rq b bb sk t bt (Lit s) (PLit r)
| o_sym rq b bb sk t bt m nx v : tall (fun v => accepts (value_ty t) v = true) nx ->
    (forall n, v = Some n -> tall (fun v => accepts (value_ty t) v = true) n) -> obj rq b bb sk t bt (Symbol m) (PSym nx v)
| o_uint rq b bb sk t bt x y z n : number t -> (is_num t = true -> b = true) ->
    obj rq b bb sk t bt (UInt x y z) (PUInt n)
| o_int rq b bb sk t bt x y z n lk ng : number t -> (is_num t = true -> b = true) ->
    obj rq b bb sk t bt (Int x y z) (PInt n lk ng)
| o_seq rq b bb sk t bt l i q t' a : body rq t bt (Seq l) -> nth_error l i = Some q ->
    part_ty t (count (firstn i l)) q = Some t' -> obj seq_req (part_b t q b) bb sk t' bt q a ->
    (strict = true -> is_num t = true -> existsb sval (firstn i l) = true -> b = true) ->
    (strict = true -> is_num bt = true -> existsb binds (firstn i l) = true -> bb = true) ->
    obj rq b bb sk t bt (Seq l) (PNary i a)
| o_alt rq b bb sk t bt l i q a : body rq t bt (Alt l) -> nth_error l i = Some q -> obj (alt_req rq) b bb sk t bt q a ->
    obj rq b bb sk t bt (Alt l) (PNary i a)
| o_repeat rq b bb sk t bt lo hi q n a : body rq t bt (Repeat lo hi q) -> obj (repeat_req lo hi rq) b bb sk t bt q a ->
    (strict = true -> is_num t = true -> 1 <= n -> sets q = true -> b = true) ->
    (strict = true -> is_num bt = true -> 1 <= n -> binds q = true -> bb = true) ->
    obj rq b bb sk t bt (Repeat lo hi q) (PRepeat n a)
| o_not rq b bb sk t bt q a : obj (not_req rq) b bb sk t bt q a -> obj rq b bb sk t bt (Not q) (PNot a)
| o_opt rq b bb sk t bt q a : obj (opt_req rq) b bb sk t bt q a -> obj rq b bb sk t bt (Opt q) (POpt a)
| o_discard rq b bb sk t bt q a : obj rq true bb sk TNil bt q a -> obj rq b bb sk t bt (Discard q) (POne a)
| o_lexeme rq b bb sk t bt q a : obj rq b bb Fail t bt q a -> obj rq b bb sk t bt (Lexeme q) (POne a)
| o_with rq b bb sk t bt q s a : typedq skip_req TNil TNil s -> obj rq b bb s t bt q a -> obj rq b bb sk t bt (WithSkipper q s) (POne a)
| o_bind rq b bb sk t bt q a : obj (unatomic_req rq) b b sk t t q a -> obj rq b bb sk t bt (BindDst q) (POne a)
| o_construct rq b bb sk t bt args q buf a : body rq t bt (Construct args q) -> has_ty (TTuple args) buf = true ->
    obj (unatomic_req rq) true bb sk (TTuple args) bt q a -> obj rq b bb sk t bt (Construct args q) (PConstruct buf a)
| o_act rq b bb sk t bt x q v a : body rq t bt (Act x q) -> object (ac_land x) v ->
    obj (action_req rq) (dfd v) bb sk (ac_land x) bt q a -> obj rq b bb sk t bt (Act x q) (PAction v a)
| o_except0 rq b bb sk t bt q n a : body rq t bt (Except q n) -> obj neg_req true bb sk TNil bt n a ->
    obj rq b bb sk t bt (Except q n) (PExcept 0 a)
| o_except1 rq b bb sk t bt q n a : obj (except_req rq) b bb sk t bt q a -> obj rq b bb sk t bt (Except q n) (PExcept 1 a)
| o_list0 rq b bb sk t bt q s a : body rq t bt (PList q s) -> obj list_req b bb sk t bt q a -> obj rq b bb sk t bt (PList q s) (PListSt 0 a)
| o_list1 rq b bb sk t bt q s a : body rq t bt (PList q s) -> obj sep_req true bb sk TNil bt s a ->
    obj rq b bb sk t bt (PList q s) (PListSt 1 a)
| o_recur rq b bb sk t bt id nl a : uses id t bt ->
    (forall st q, a = Some st -> env id = Some q -> obj recur_req b bb sk t bt q st) -> obj rq b bb sk t bt (Recur id nl) (PRecur a).

Lemma obj_mono rq b bb sk t bt p st : obj rq b bb sk t bt p st ->
  forall b' bb', (b = true -> b' = true) -> (bb = true -> bb' = true) -> obj rq b' bb' sk t bt p st.
Proof.
  induction 1; intros b' bb' Hb Hbb; try (econstructor; eauto; fail).
  econstructor; eauto. apply IHobj; auto. unfold part_b. destruct (ignores q); auto. destruct t; auto.
Qed.

(** ** Constructors *)

Definition made (tys : list ty) (rq : req) (d : dst) (sk : pat) (t bt : ty) (p : pat) (cs : list val)
  (st : pst) (cs' : list val) (tr' : list event) : Prop :=
  Next tys cs cs' tr' /\ obj rq (detb cs' d) false sk t bt p st.

Definition mks (mk : option (M S pst)) (sk : pat) : Prop :=
  match mk with
  | None => True
  | Some m => forall tys cs tr, I tys cs tr -> wp m (made tys skip_req DNil Fail TNil TNil sk cs) cs tr
  end.

Definition raw_ok (mk : option (M S pst)) (bt : ty) (p : pat) (raw : req -> dst -> M S pst) (sk : pat) : Prop :=
  forall rq d t tys cs tr, I tys cs tr -> dref tys d t -> wf_ty t = true -> body rq t bt p ->
  wp (raw rq d) (made tys rq d sk t bt p cs) cs tr.

Lemma adapt_ok mk sk rq d p raw tys t bt cs tr : mks mk sk -> raw_ok mk bt p raw sk ->
  I tys cs tr -> dref tys d t -> wf_ty t = true -> typedq rq t bt p ->
  wp (adapt ops mk rq d p raw) (made tys rq d sk t bt p cs) cs tr.
Proof.
  intros Hmk Hraw HI Hd W HT. apply typed_body in HT. unfold adapt. destruct (r_recur rq) eqn:Er.
  { unfold buffered in HT. rewrite Er in HT. now apply Hraw. }
  assert (forall rq' cs1 tr1, I tys cs1 tr1 -> r_atomic rq' = r_atomic rq ->
    (if buffered rq p then
      (strict = true -> is_num (value_ty t) = true -> sets p = true) /\ body (unatomic_req rq') (value_ty t) bt p
     else body rq' t bt p) ->
    wp (if r_atomic rq' && negb (f_atomic p) then
        let t := dst_value_ty d in
        x <- with_cell (default_init t) (fun lvl => raw (unatomic_req rq') (dst_cell lvl t)) ;;
        ret (PAtomic (snd x) (fst x))
      else raw rq' d) (made tys rq' d sk t bt p cs1) cs1 tr1) as HA.
  { intros rq' cs1 tr1 HI1 Ea HT1. unfold buffered in HT1. rewrite Er in HT1. cbn [negb andb] in HT1. rewrite Ea.
    destruct (r_atomic rq && negb (f_atomic p)); [|now apply Hraw]. destruct HT1 as [Hs HT1].
    cbv zeta. rewrite (dref_value _ _ _ Hd). apply wp_bind.
    apply (wp_with_cell tys (value_ty t)); auto; [now apply init_object, wf_value|]. intros HI2 Hd2 Hb2.
    eapply wp_mono; [apply Hraw; eauto using wf_value|]. intros st cs' tr' [HN Ho]. split; auto.
    intros cs0 v' -> HN0 Hv' Hdet. apply wp_ret. split; auto. cbn [fst snd]. rewrite Hdet in Ho. apply o_atomic; auto. }
  assert (forall cs1 tr1, I tys cs1 tr1 ->
    wp (let atomic rq :=
      if r_atomic rq && negb (f_atomic p) then
        let t := dst_value_ty d in
        x <- with_cell (default_init t) (fun lvl => raw (unatomic_req rq) (dst_cell lvl t)) ;;
        ret (PAtomic (snd x) (fst x))
      else raw rq d in
      if r_clean rq && negb (f_clean p) then
        c <- atomic (unclean_req rq) ;; m_prepare ops ;;; ret (PClean c)
      else atomic rq) (made tys rq d sk t bt p cs1) cs1 tr1) as HC.
  { intros cs1 tr1 HI1. cbv zeta. destruct (r_clean rq && negb (f_clean p)); [|now apply HA].
    apply wp_bind. eapply wp_mono.
    - apply HA; auto. destruct (buffered rq p) eqn:Eb; [exact HT|].
      clear - HT Er. destruct p; cbn [body] in *; auto; unfold typedq in *; cbn [r_atomic r_consumes r_recur unclean_req alt_req] in *;
        rewrite ?Er in *; auto.
    - intros st cs' tr' [HN Ho]. apply wp_bind, wp_prepare, wp_ret. split; auto. now constructor. }
  destruct mk as [m|]; [|now apply HC]. apply wp_bind. eapply wp_mono; [exact (Hmk tys cs tr HI)|].
  intros s cs1 tr1 [HN1 Hs]. apply wp_bind. eapply wp_mono; [apply HC; eapply next_I; eauto|].
  intros a cs2 tr2 [HN2 Ha]. apply wp_ret. split; eauto using next_trans. constructor; auto. intros _. eapply obj_mono; eauto.
Qed.

Lemma assoc_upd {A} k (a : A) l j : assoc j (assoc_set k a l) = if Z.eqb j k then Some a else assoc j l.
Proof.
  induction l as [|[k' a'] l IH]; cbn; auto. destruct (Z.eqb k k') eqn:E; cbn.
  - apply Z.eqb_eq in E as <-. now destruct (Z.eqb j k).
  - rewrite IH. destruct (Z.eqb j k') eqn:E1; auto. destruct (Z.eqb j k) eqn:E2; auto.
    apply Z.eqb_eq in E1 as <-. rewrite Z.eqb_sym in E2. congruence.
Qed.

Lemma tall_insert (P : val -> Prop) v : P v -> forall k n, tall P n -> tall P (trie_insert k v n).
Proof.
  intros Hv. induction k as [|c k IH]; intros n Hn; inversion Hn as [x ch H1 H2 E]; cbn.
  - constructor; auto. now intros x' [= <-].
  - constructor; auto. intros j m. rewrite assoc_upd. destruct (Z.eqb j c) eqn:Ec; [|eauto].
    intros [= <-]. apply IH. destruct (assoc c ch) eqn:Ea; eauto. constructor; discriminate.
Qed.

Lemma tall_build (P : val -> Prop) m : (forall k v, In (k, v) m -> P v) -> tall P (trie_build m).
Proof.
  unfold trie_build. intros H. assert (tall P (Node None [])) as H0 by (constructor; discriminate).
  revert H0. generalize (Node None []). induction m as [|[k v] m IH]; cbn [fold_left fst snd]; auto.
  intros n Hn. apply IH; [intros; eapply H; right; eauto|]. apply tall_insert; auto. eapply H. now left.
Qed.

Lemma create_ok p : forall mk sk rq d t bt tys cs tr, mks mk sk -> I tys cs tr -> dref tys d t -> wf_ty t = true ->
  typedq rq t bt p -> wp (create_in ops mk rq d p) (made tys rq d sk t bt p cs) cs tr.
Proof.
  induction p using pat_ind'; intros mk sk rq d t bt tys cs tr Hmk HI Hd W HT; cbn [create_in];
    apply adapt_ok; auto; clear rq d t tys cs tr HI Hd W HT; intros rq d t tys cs tr HI Hd W HB; cbn beta; cbn [body] in HB.
  - apply wp_ret. split; [now apply next_refl|]. now constructor.
  - apply wp_ret. split; [now apply next_refl|]. now constructor.
  - apply wp_ret. split; [now apply next_refl|]. constructor.
  - rewrite HB. apply wp_ret. split; [now apply next_refl|]. constructor.
  - apply wp_ret. split; [now apply next_refl|]. constructor.
  - apply wp_ret. split; [now apply next_refl|]. constructor.
  - apply wp_ret. split; [now apply next_refl|]. constructor; [now apply tall_build|discriminate].
  - apply wp_bind. apply (wp_cells _ tys d t); auto; [apply mem_zero; auto; [apply HI|apply HB]|]. intros cs' HN Hb.
    apply wp_ret. split; auto. now constructor.
  - apply wp_bind. apply (wp_cells _ tys d t); auto; [apply mem_zero; auto; [apply HI|apply HB]|]. intros cs' HN Hb.
    apply wp_ret. split; auto. now constructor.
  - (* Seq *) destruct HB as [Hl HB]. destruct l as [|q l]; [congruence|].
    destruct (HB 0 q eq_refl) as (t' & Ht & Hq).
    destruct (mem_part tys cs d t (q :: l) 0 q t' (proj1 HI) Hd eq_refl Ht) as (d' & -> & Hd' & Hdet).
    apply wp_bind. inversion H; subst. eapply wp_mono; [apply H2; eauto using part_wf|].
    intros st cs' tr' [HN Ho]. apply wp_ret. split; auto. rewrite Hdet in Ho by apply HN.
    eapply o_seq; eauto; [split; auto|reflexivity|discriminate].
  - (* Alt *) destruct HB as [Hl HB]. destruct l as [|q l]; [congruence|].
    apply wp_bind. inversion H; subst. eapply wp_mono; [apply H2; eauto; apply (HB 0 q eq_refl)|].
    intros st cs' tr' [HN Ho]. apply wp_ret. split; auto.
    eapply o_alt; eauto; [split; auto|reflexivity].
  - destruct HB as [Hc HB]. rewrite Hc. apply wp_bind. eapply wp_mono; [eapply IHp; eauto|].
    intros st cs' tr' [HN Ho]. apply wp_ret. split; auto. apply o_repeat; auto; [split; auto|lia|lia].
  - apply wp_bind. eapply wp_mono; [eapply IHp; eauto|]. intros st cs' tr' [HN Ho].
    apply wp_bind, wp_prepare, wp_ret. split; auto. now constructor.
  - apply wp_bind. eapply wp_mono; [eapply IHp; eauto|]. intros st cs' tr' [HN Ho].
    apply wp_bind, wp_prepare, wp_ret. split; auto. now constructor.
  - apply wp_bind. eapply wp_mono; [apply (IHp mk sk rq DNil TNil bt tys); auto; reflexivity|]. intros st cs' tr' [HN Ho].
    apply wp_ret. split; auto. now constructor.
  - apply wp_bind. eapply wp_mono; [apply (IHp None Fail rq d t bt tys); auto; exact Logic.I|]. intros st cs' tr' [HN Ho].
    apply wp_ret. split; auto. now constructor.
  - destruct HB as [Hs HB]. apply wp_bind. eapply wp_mono; [apply (IHp1 _ p2 rq d t bt tys); auto|].
    + destruct (is_fail p2); [exact Logic.I|]. intros tys1 cs1 tr1 HI1. apply (IHp2 None Fail skip_req DNil TNil TNil tys1); auto.
      * exact Logic.I. * reflexivity.
    + intros st cs' tr' [HN Ho]. apply wp_ret. split; auto. now constructor.
  - apply wp_bind. eapply wp_mono; [eapply IHp; eauto|]. intros st cs' tr' [HN Ho].
    apply wp_ret. split; auto. constructor. eapply obj_mono; eauto. discriminate.
  - (* Construct *) pose proof HB as (Wa & _ & _ & HT). apply wp_bind.
    assert (has_ty (TTuple args) (value_init (TTuple args)) = true) as Hi by now apply init_ty.
    apply (wp_with_cell tys (TTuple args)); auto; [now left|]. intros HI2 Hd2 Hb2.
    eapply wp_mono; [eapply IHp; eauto|]. intros st cs' tr' [HN Ho]. split; auto.
    intros cs0 v' -> HN0 Hv' Hdet. apply wp_ret. split; auto. cbn [fst snd].
    destruct Hv' as [Hv'|[Hv' _]]; [|discriminate]. apply o_construct; auto.
    rewrite Hdet in Ho. now rewrite (has_dfd _ _ Hv') in Ho.
  - (* Act *) pose proof HB as (_ & Wa & _ & HT & _). apply wp_bind.
    apply (wp_with_cell tys (ac_land a)); auto; [now apply init_object|]. intros HI2 Hd2 Hb2.
    eapply wp_mono; [eapply IHp; eauto|]. intros st cs' tr' [HN Ho]. split; auto.
    intros cs0 v' -> HN0 Hv' Hdet. apply wp_ret. split; auto. cbn [fst snd].
    apply o_act; auto. now rewrite Hdet in Ho.
  - (* Except *) destruct HB as [Hn Hq]. apply wp_bind. eapply wp_mono; [apply (IHp2 mk sk neg_req DNil TNil bt tys); auto; reflexivity|].
    intros st cs' tr' [HN Ho]. apply wp_ret. split; auto. apply o_except0; auto. now split.
  - (* List *) pose proof HB as [Hq Hs]. apply wp_bind. eapply wp_mono; [eapply IHp1; eauto|].
    intros st cs' tr' [HN Ho]. apply wp_bind, wp_prepare, wp_ret. split; auto. now apply o_list0.
  - apply wp_ret. split; [now apply next_refl|]. constructor; auto. discriminate.
Qed.

Definition skip_ok (sk : pat) : Prop := typedq skip_req TNil TNil sk.

Lemma mks_of c : skip_ok (c_skip c) -> mks (mk_skip_of ops c) (c_skip c).
Proof.
  intros H. unfold mk_skip_of. destruct (is_fail (c_skip c)); [exact Logic.I|].
  intros tys cs tr HI. apply (create_ok _ None Fail skip_req DNil TNil TNil tys); auto. - exact Logic.I. - reflexivity.
Qed.

Lemma create_c c rq d t bt p tys cs tr : skip_ok (c_skip c) -> I tys cs tr -> dref tys d t -> wf_ty t = true ->
  typedq rq t bt p -> wp (create ops c rq d p) (made tys rq d (c_skip c) t bt p cs) cs tr.
Proof. intros. apply create_ok; auto. now apply mks_of. Qed.

(** ** consume *)

Definition ran (tys : list ty) (c : ctx) (rq : req) (d : dst) (t bt : ty) (p : pat) (cs : list val)
  (x : result * pst) (cs' : list val) (tr' : list event) : Prop :=
  Next tys cs cs' tr' /\
  (fst x = PARTIAL -> obj rq (detb cs' d) (detb cs' (c_bound c)) (c_skip c) t bt p (snd x)) /\
  (fst x = SUCCESS -> strict = true -> is_num t = true -> sets p = true -> detb cs' d = true) /\
  (fst x = SUCCESS -> strict = true -> is_num bt = true -> binds p = true -> detb cs' (c_bound c) = true).

Definition Run (self : consume_ty) : Prop :=
  forall c rq d p st tys t bt cs tr, I tys cs tr -> dref tys d t -> dref tys (c_bound c) bt ->
  wf_ty t = true -> wf_ty bt = true -> skip_ok (c_skip c) -> obj rq (detb cs d) (detb cs (c_bound c)) (c_skip c) t bt p st ->
  wp (self c rq d p st) (ran tys c rq d t bt p cs) cs tr.

Lemma ran_back tys c rq d t bt p cs cs1 tr1 x cs' tr' : Next tys cs cs1 tr1 ->
  ran tys c rq d t bt p cs1 x cs' tr' -> ran tys c rq d t bt p cs x cs' tr'.
Proof. intros H (H1 & H2 & H3). split; eauto using next_trans. Qed.

Lemma existsb_split {A} (f : A -> bool) l i q rest : skipn i l = q :: rest ->
  nth_error l i = Some q /\ skipn (Datatypes.S i) l = rest /\
  existsb f (firstn (Datatypes.S i) l) = existsb f (firstn i l) || f q.
Proof.
  revert i. induction l as [|a l IH]; intros [|i] H; try discriminate.
  - injection H as -> ->. cbn. now rewrite orb_false_r.
  - destruct (IH _ H) as (H1 & H2 & H3). split; [exact H1|]. split; [exact H2|].
    cbn [firstn existsb]. cbn [firstn existsb] in H3. rewrite H3. now rewrite orb_assoc.
Qed.

Section Step.
Context (self : consume_ty (S := S)) (IH : Run self).
Context (c : ctx) (tys : list ty) (bt : ty).
Hypothesis Hbd : dref tys (c_bound c) bt.
Hypothesis Wb : wf_ty bt = true.
Hypothesis Hsk : skip_ok (c_skip c).

Ltac call := eapply wp_mono; [eapply IH; eauto|].

Lemma seq_run rq d t l : dref tys d t -> wf_ty t = true -> body rq t bt (Seq l) ->
  forall rest i q t' a cs tr, skipn i l = q :: rest -> I tys cs tr ->
  part_ty t (count (firstn i l)) q = Some t' -> obj seq_req (part_b t q (detb cs d)) (detb cs (c_bound c)) (c_skip c) t' bt q a ->
  (strict = true -> is_num t = true -> existsb sval (firstn i l) = true -> detb cs d = true) ->
  (strict = true -> is_num bt = true -> existsb binds (firstn i l) = true -> detb cs (c_bound c) = true) ->
  wp (seq_from ops self c d l i q rest a) (ran tys c rq d t bt (Seq l) cs) cs tr.
Proof.
  intros Hd W HB. induction rest as [|q' rest IHr]; intros i q t' a cs tr Hi HI Ht Ho Hp Hp2;
    destruct (existsb_split sval _ _ _ _ Hi) as (Hn & Hrest & Hex);
    destruct (existsb_split binds _ _ _ _ Hi) as (_ & _ & Hex2); cbn [seq_from];
    destruct (mem_part tys cs d t l i q t' (proj1 HI) Hd Hn Ht) as (d' & -> & Hd' & Hdet);
    rewrite <- Hdet in Ho by apply HI; apply wp_bind;
    (eapply wp_mono; [eapply IH; eauto using part_wf|]); intros [r a'] cs1 tr1 (HN & H1 & H2 & H3); cbn [fst snd] in *;
    (assert (r = SUCCESS -> strict = true -> is_num bt = true -> existsb binds (firstn (Datatypes.S i) l) = true ->
             detb cs1 (c_bound c) = true) as HS2;
     [intros -> Hs Hnum He; rewrite Hex2 in He; apply orb_prop in He; destruct He as [He|He]; [eapply next_det; eauto|auto]|]).
  - assert (r = SUCCESS -> strict = true -> is_num t = true -> existsb sval l = true -> detb cs1 d = true) as HS.
    { intros -> Hs Hnum He. rewrite <- (firstn_skipn (Datatypes.S i) l), Hrest, app_nil_r, Hex in He.
      apply orb_prop in He. destruct He as [He|He]; [eapply next_det; eauto|].
      unfold sval in He. apply andb_prop in He. destruct He as [Hig He]. unfold part_ty in Ht. unfold part_b in Hdet.
      destruct (ignores q); [discriminate|]. destruct t; try discriminate. injection Ht as <-.
      rewrite <- Hdet by apply HN. auto. }
    destruct r; apply wp_ret; (split; [exact HN|]); (split; [|split]); try discriminate; auto.
    + intros _ Hs Hnum He. apply HS2; auto. cbn [SpecType.binds] in He.
      now rewrite <- (firstn_skipn (Datatypes.S i) l), Hrest, app_nil_r in He.
    + intros _. cbn [snd]. eapply o_seq; eauto.
      * rewrite <- Hdet by apply HN. auto.
      * intros Hs Hnum He. eapply next_det; eauto.
      * intros Hs Hnum He. eapply next_det; eauto.
  - destruct r.
    + pose proof (existsb_split sval l (Datatypes.S i) q' rest Hrest) as (Hn' & _).
      destruct (proj2 HB _ _ Hn') as (u & Hu & Hq').
      destruct (mem_part tys cs1 d t l (Datatypes.S i) q' u (proj1 (proj1 HN)) Hd Hn' Hu) as (d2 & -> & Hd2 & Hdet2).
      apply wp_bind. eapply wp_mono; [apply (create_c c seq_req d2 u bt q' tys); eauto using part_wf, next_I|].
      intros a2 cs2 tr2 [HN2 Ho2]. eapply wp_mono.
      * eapply IHr; eauto using next_I. -- rewrite <- Hdet2 by apply HN2. eapply obj_mono; eauto. discriminate.
        -- intros Hs Hnum He. rewrite Hex in He.
           assert (detb cs1 d = true) as Hd1; [|exact (next_det _ _ _ _ _ _ _ (next_I _ _ _ _ HN) HN2 Hd Hd1)].
           apply orb_prop in He. destruct He as [He|He]; [eapply next_det; eauto|].
           unfold sval in He. apply andb_prop in He. destruct He as [Hig He]. unfold part_ty in Ht. unfold part_b in Hdet.
           destruct (ignores q); [discriminate|]. destruct t; try discriminate. injection Ht as <-.
           rewrite <- Hdet by apply HN. auto.
        -- intros Hs Hnum He. exact (next_det _ _ _ _ _ _ _ (next_I _ _ _ _ HN) HN2 Hbd (HS2 eq_refl Hs Hnum He)).
      * intros x cs3 tr3 HR. eapply ran_back; [|exact HR]. eauto using next_trans.
    + apply wp_ret. split; auto. repeat split; discriminate.
    + apply wp_ret. split; auto. split; [|split; discriminate]. intros _. cbn [snd]. eapply o_seq; eauto.
      * rewrite <- Hdet by apply HN. auto.
      * intros Hs Hnum He. eapply next_det; eauto.
      * intros Hs Hnum He. eapply next_det; eauto.
Qed.

Lemma alt_run rq d t l : dref tys d t -> wf_ty t = true -> body rq t bt (Alt l) ->
  forall rest i q a cs tr, skipn i l = q :: rest -> I tys cs tr -> obj (alt_req rq) (detb cs d) (detb cs (c_bound c)) (c_skip c) t bt q a ->
  wp (alt_from ops self c rq d i q rest a) (ran tys c rq d t bt (Alt l) cs) cs tr.
Proof.
  intros Hd W HB. induction rest as [|q' rest IHr]; intros i q a cs tr Hi HI Ho;
    destruct (existsb_split sval _ _ _ _ Hi) as (Hn & Hrest & _); cbn [alt_from]; apply wp_bind; call;
    intros [r a'] cs1 tr1 (HN & H1 & H2 & H3); cbn [fst snd] in *;
    (assert (forall f : pat -> bool, forallb f l = true -> f q = true) as Hall
       by (intros f Hf; rewrite forallb_forall in Hf; apply Hf; eapply nth_error_In; eauto)).
  - destruct r; apply wp_ret; (split; [exact HN|]); (split; [|split]); try discriminate; cbn [fst snd]; auto.
    intros _. eapply o_alt; eauto.
  - destruct r.
    + apply wp_ret. split; auto. split; [discriminate|]. split; auto.
    + pose proof (existsb_split sval l (Datatypes.S i) q' rest Hrest) as (Hn' & _).
      apply wp_bind. eapply wp_mono; [apply (create_c c (alt_req rq) d t bt q' tys); eauto using next_I; apply (proj2 HB _ _ Hn')|].
      intros a2 cs2 tr2 [HN2 Ho2]. eapply wp_mono; [eapply IHr; eauto using next_I; eapply obj_mono; eauto; discriminate|].
      intros x cs3 tr3 HR. eapply ran_back; [|exact HR]. eauto using next_trans.
    + apply wp_ret. split; auto. split; [|split; discriminate]. intros _. eapply o_alt; eauto.
Qed.

Lemma ran_same rq d t p cs tr r st : I tys cs tr ->
  (r = PARTIAL -> obj rq (detb cs d) (detb cs (c_bound c)) (c_skip c) t bt p st) ->
  (r = SUCCESS -> strict = true -> is_num t = true -> sets p = true -> detb cs d = true) ->
  (r = SUCCESS -> strict = true -> is_num bt = true -> binds p = true -> detb cs (c_bound c) = true) ->
  ran tys c rq d t bt p cs (r, st) cs tr.
Proof. intros HI H1 H2 H3. split; auto using next_refl. Qed.

(** Reading an object: only an uninitialised integer can go wrong. *)
Lemma wp_give (d : dst) t v (Q : unit -> list val -> list event -> Prop) cs tr : I tys cs tr -> dref tys d t -> wf_ty t = true ->
  object (value_ty t) v -> (strict = true -> is_num (value_ty t) = true -> dfd v = true) ->
  (forall cs', Next tys cs cs' tr -> (is_num t = true -> detb cs' d = true) -> Q tt cs' tr) ->
  wp (m_assign d v) Q cs tr.
Proof.
  intros HI Hd W Hv Hs HQ. destruct (conv_object _ _ (wf_value _ W) Hv) as [(-> & Hn & Hc)|(Hu & x & Hc & Hx)].
  - intros s. unfold m_assign, on_cells. cbn. assert (fine (EUb UbUninit)) as HF.
    { apply fine_uninit. intros Hst. specialize (Hs Hst Hn). discriminate. }
    destruct d as [|l p u]; [now apply (HQ cs (next_refl _ _ _ HI))|]. destruct Hd as (-> & Hnn & _).
    destruct t; try congruence; unfold assign; cbn [value_ty] in *; rewrite ?Hc; auto; discriminate.
  - eapply (wp_cells _ tys d t); eauto. eapply mem_assign_done; eauto. apply HI.
Qed.

Lemma wp_put d t v (Q : unit -> list val -> list event -> Prop) cs tr : I tys cs tr -> dref tys d t -> wf_ty t = true ->
  accepts (value_ty t) v = true ->
  (forall cs', Next tys cs cs' tr -> (is_num t = true -> detb cs' d = true) -> Q tt cs' tr) ->
  wp (m_assign d v) Q cs tr.
Proof. intros HI Hd W Ha HQ. eapply (wp_cells _ tys d t); eauto. apply mem_assign; auto. apply HI. Qed.

Lemma op_wraps f cs d t : dref tys d t -> wraps t = true -> num_op f cs d <> Err (EUb UbOverflow).
Proof.
  intros Hd Hw. destruct d as [|l p u]; [discriminate|]. destruct Hd as (-> & _). unfold num_op, arith.
  destruct t; try discriminate. cbn in Hw. destruct (load _ _) as [v|e] eqn:E; cbn [obind].
  - destruct v; try discriminate. apply negb_true_iff in Hw. rewrite Hw. cbn [obind].
    unfold store. destruct (nth_error cs l) as [v|]; [|discriminate]. cbn [of_option obind].
    generalize (VNum (wrap signed bits (f z))). clear. intros x.
    assert (forall p v, set_path v p x <> Err (EUb UbOverflow)) as HS.
    { clear. induction p as [|i p IHp]; intros v; cbn; [discriminate|]. destruct v; try discriminate.
      destruct (nth_error l i) as [y|]; [|discriminate]. specialize (IHp y). destruct (set_path y p x); cbn; congruence. }
    specialize (HS p v). destruct (set_path v p x); cbn; congruence.
  - unfold load in E. destruct (nth_error cs l) as [v|]; cbn in E; [|congruence]. revert E. clear. revert v.
    induction p as [|i p IHp]; intros v; cbn; [discriminate|]. destruct v; try congruence. destruct (nth_error l i); [apply IHp|congruence].
Qed.

Lemma wp_num f d t (Q : unit -> list val -> list event -> Prop) cs tr : I tys cs tr -> dref tys d t -> wf_ty t = true ->
  number t -> (is_num t = true -> detb cs d = true) ->
  (forall cs', Next tys cs cs' tr -> (is_num t = true -> detb cs' d = true) -> Q tt cs' tr) ->
  wp (on_cells (fun c => num_op f c d)) Q cs tr.
Proof.
  intros HI Hd W Ht Hb HQ. destruct (mem_op f tys cs d t (proj1 HI) Hd W (proj1 Ht) Hb) as [E|E].
  - intros s. unfold on_cells. cbn. rewrite E. apply fine_over. intros Hc. specialize (proj2 Ht Hc) as Hw.
    eapply op_wraps; eauto.
  - eapply (wp_cells (fun c => num_op f c d) tys d t); eauto.
Qed.

Lemma num_takes t z : takes_num t = true -> accepts (value_ty t) (VNum z) = true.
Proof. unfold takes_num. destruct (value_ty t); auto; discriminate. Qed.

Lemma assoc_in {A} k (m : list (Z * A)) v : assoc k m = Some v -> exists k', In (k', v) m.
Proof.
  induction m as [|[k' a] m IHm]; cbn; [discriminate|]. destruct (Z.eqb k k').
  - intros [= ->]. eauto. - intros H. destruct (IHm H). eauto.
Qed.

Lemma wp_negate d t ng (Q : unit -> list val -> list event -> Prop) cs tr : I tys cs tr -> dref tys d t -> wf_ty t = true ->
  number t -> (is_num t = true -> detb cs d = true) ->
  (forall cs', Next tys cs cs' tr -> (is_num t = true -> detb cs' d = true) -> Q tt cs' tr) ->
  wp (int_negate d ng) Q cs tr.
Proof.
  intros HI Hd W Ht Hb HQ. unfold int_negate. destruct ng; [eapply wp_num; eauto|]. apply wp_ret. apply HQ; auto using next_refl.
Qed.

Lemma int_digit_run rq d t x y z n lk ng ch cs tr : I tys cs tr -> dref tys d t -> wf_ty t = true ->
  number t -> (is_num t = true -> detb cs d = true) ->
  wp (int_digit ops self c rq d (Int x y z) x y z n lk ng ch) (ran tys c rq d t bt (Int x y z) cs) cs tr.
Proof.
  intros HI Hd W Ht Hb. unfold int_digit. destruct (digit_valid x ch).
  - apply wp_bind, (wp_num _ d t); auto. intros cs1 HN1 Hb1. apply wp_bind, (wp_num _ d t); eauto using next_I.
    intros cs2 HN2 Hb2. apply wp_bind, wp_advance. cbv zeta. destruct (_ =? _)%Z.
    + apply wp_bind, (wp_negate d t); eauto using next_I. intros cs3 HN3 Hb3. apply wp_ret.
      split; [|split; [discriminate|split; [auto|discriminate]]]. eapply next_trans; [exact HN1|]. eapply next_trans; eauto.
    + eapply wp_mono; [eapply IH; eauto using next_I; now constructor|]. intros r cs3 tr3 HR.
      eapply ran_back; [|exact HR]. eapply next_trans; eauto.
  - apply wp_bind, (wp_negate d t); eauto using next_I. intros cs3 HN3 Hb3. apply wp_ret.
    split; [exact HN3|]. split; [destruct (_ <=? _)%Z; discriminate|split; [auto|discriminate]].
Qed.

Lemma sym_stop_run rq d t m nx v cs tr : I tys cs tr -> dref tys d t -> wf_ty t = true ->
  (forall n, v = Some n -> tall (fun v => accepts (value_ty t) v = true) n) ->
  wp (sym_stop ops d nx v) (ran tys c rq d t bt (Symbol m) cs) cs tr.
Proof.
  intros HI Hd W Hv. unfold sym_stop. destruct v as [n|]; [|apply wp_ret, ran_same; auto; discriminate].
  specialize (Hv n eq_refl). inversion Hv as [u ch H1 H2 E]; subst n. unfold sym_value. cbn [trie_val].
  destruct u as [u|]; cbn [of_option]; [|apply wp_raise, fine_shape].
  apply wp_bind, (wp_put d t); auto. intros cs1 HN1 Hb1. apply wp_bind, wp_commit, wp_ret.
  split; auto. split; [discriminate|split; [auto|try discriminate]].
Qed.

Lemma dispatch_run a q rq d t v (Q : unit -> list val -> list event -> Prop) cs tr :
  I tys cs tr -> dref tys d t -> wf_ty t = true -> body rq t bt (Act a q) -> object (ac_land a) v ->
  (strict = true -> is_num (ac_land a) = true -> dfd v = true) ->
  (forall cs' tr', Next tys cs cs' tr' -> (ac_void a = false -> is_num t = true -> detb cs' d = true) ->
    (ac_param a = true -> is_num bt = true -> detb cs' (c_bound c) = true) -> Q tt cs' tr') ->
  wp (act_dispatch a v d c) Q cs tr.
Proof.
  intros HI Hd W (Hk & Wl & Hcb & _) Hv Hs HQ. unfold act_dispatch.
  destruct (conv_object _ _ Wl Hv) as [(-> & Hn & ->)|(Hu & x & -> & Hx)].
  { apply wp_raise, fine_uninit. intros Hst. specialize (Hs Hst Hn). discriminate. }
  intros s. cbn [w_cells w_src w_trace].
  assert (exists b, (if ac_param a then load cs (c_bound c) else Done VNil) = Done b /\
                    (if ac_param a then object bt b else b = VNil)) as (b & -> & Hb).
  { destruct (ac_param a); [eapply mem_load; eauto; apply HI|eauto]. }
  destruct (Hcb x b Hx Hb) as [H1 H2]. destruct (ac_fun a x b) as [r b']. cbn [fst snd] in *.
  assert (exists cs1, (if ac_param a then
               match c_bound c with
               | DNil => Done cs
               | DRef _ _ t => if has_ty t b' then store cs (c_bound c) b' else Err EType
               end
             else Done cs) = Done cs1 /\ Mem tys cs1 /\ grows cs cs1 /\
             (ac_param a = true -> is_num bt = true -> detb cs1 (c_bound c) = true)) as (cs1 & -> & HM1 & Hg1 & Hb1).
  { destruct (ac_param a); [|exists cs; split; auto; split; [apply HI|split; [apply grows_refl|discriminate]]].
    destruct (c_bound c) as [|l p u] eqn:Ec; [exists cs; split; auto; split; [apply HI|split; [apply grows_refl|auto]]|].
    pose proof Hbd as (-> & Hnn & _). rewrite (H1 eq_refl Hnn).
    destruct (mem_store tys cs _ _ b' (proj1 HI) Hbd (H1 eq_refl Hnn)) as (cs1 & E & HM & Hg & Hd1). eauto. }
  assert (Next tys cs cs1 (Event (ac_id a) x :: tr)) as HN.
  { split; auto. split; auto. constructor; [|apply HI]. exists a. auto. }
  destruct (ac_void a); [apply HQ; auto; discriminate|].
  refine (wp_put d t r _ cs1 _ (next_I _ _ _ _ HN) Hd W (H2 eq_refl) _ s).
  intros cs2 HN2 Hb2. apply HQ; auto. - eapply next_trans; eauto.
  - intros Hpa Hnum. exact (next_det _ _ _ _ _ _ _ (next_I _ _ _ _ HN) HN2 Hbd (Hb1 Hpa Hnum)).
Qed.

End Step.

Lemma run_step self : Run self -> Run (consume_step ops env self).
Proof.
  intros IH c rq d p st tys t bt cs tr HI Hd Hbd W Wb Hsk Ho.
  remember (detb cs d) as b eqn:Eb. remember (detb cs (c_bound c)) as bb eqn:Ebb. remember (c_skip c) as sk eqn:Ek.
  destruct Ho; subst; cbn [consume_step].
  - (* PSkip *) unfold skip_consume. destruct done.
    + apply wp_bind. eapply wp_mono; [eapply IH; eauto; auto|]. intros [r a'] cs1 tr1 (HN & H1 & H2 & H9). apply wp_ret.
      split; [exact HN|]. split; [|exact (conj H2 H9)]. intros Hr. apply o_skip; [discriminate|auto].
    + apply wp_bind. eapply wp_mono.
      { apply (IH skip_ctx skip_req DNil (c_skip c) s tys TNil TNil cs tr); auto; try reflexivity.
        apply fail_typed. }
      intros [r s'] cs1 tr1 (HN & H1 & H2 & H9). cbn [fst snd] in *.
      assert (detb cs d = true -> detb cs1 d = true) as Hm by (intros; eapply next_det; eauto).
      assert (detb cs (c_bound c) = true -> detb cs1 (c_bound c) = true) as Hm2 by (intros; eapply next_det; eauto).
      assert (obj rq (detb cs1 d) (detb cs1 (c_bound c)) (c_skip c) t bt p a) as Ha by (eapply obj_mono; eauto).
      destruct r.
      * apply wp_bind. eapply wp_mono; [apply (create_c skip_ctx skip_req DNil TNil TNil (c_skip c) tys); eauto using next_I; try reflexivity|].
        { apply fail_typed. }
        intros s2 cs2 tr2 [HN2 Ho2]. eapply wp_mono.
        -- eapply IH; eauto using next_I. apply o_skip.
           ++ intros _. eapply obj_mono; eauto.
           ++ eapply obj_mono; eauto; intros; eapply (next_det _ cs1); eauto using next_I.
        -- intros x cs3 tr3 HR. eapply ran_back; [|exact HR]. eauto using next_trans.
      * eapply wp_mono.
        -- eapply IH; eauto using next_I. apply o_skip; [discriminate|auto].
        -- intros x cs3 tr3 HR. exact (ran_back _ _ _ _ _ _ _ _ _ _ _ _ _ HN HR).
      * apply wp_ret. split; auto. split; [|split; discriminate]. intros _. apply o_skip; auto.
  - (* PClean *) unfold clean_consume. apply wp_bind. eapply wp_mono; [eapply IH; eauto; auto|].
    intros [r a'] cs1 tr1 (HN & H1 & H2 & H9). cbn [fst snd] in *. destruct r.
    + apply wp_bind, wp_cancel, wp_ret. split; auto. split; [discriminate|split; auto; try discriminate].
    + apply wp_bind, wp_commit, wp_ret. split; auto. repeat split; discriminate.
    + apply wp_ret. split; auto. split; [|split; discriminate]. intros _. apply o_clean; auto.
  - (* PAtomic *) unfold atomic_consume. rewrite (dref_value _ _ _ Hd). apply wp_bind.
    apply (wp_with_cell tys (value_ty t)); auto. intros HI2 Hd2 Hb2.
    eapply wp_mono; [eapply IH; eauto using wf_value, dref_app; rewrite Hb2, (det_app _ _ _ _ _ (proj1 HI) Hbd); auto|].
    intros [r a'] cs1 tr1 (HN & H1 & H2 & H9). split; auto. cbn [fst snd] in *. intros cs0 v' -> HN0 Hv' Hdet.
    rewrite Hdet, (det_app _ _ _ _ _ (proj1 (proj1 HN0)) Hbd) in *. destruct r.
    + apply wp_bind, (wp_give tys d t); eauto using next_I. intros cs2 HN2 Hb'. apply wp_ret.
      split; [eauto using next_trans|]. split; [discriminate|]. split; auto.
      intros _ Hs' Hnum He'. exact (next_det _ _ _ _ _ _ _ (next_I _ _ _ _ HN0) HN2 Hbd (H9 eq_refl Hs' Hnum He')).
    + apply wp_ret. split; auto. repeat split; discriminate.
    + apply wp_ret. split; auto. split; [|split; discriminate]. intros _. apply o_atomic; auto.
  - (* Char *) unfold char_consume. apply wp_bind, wp_empty. intros [|].
    + unfold starved. apply wp_bind, wp_final. intros f. apply wp_ret, ran_same; auto; [|destruct f; discriminate|destruct f; discriminate].
      intros _. now constructor.
    + apply wp_bind, wp_next. intros ch. destruct (is_valid s ch); [|apply wp_ret, ran_same; auto; discriminate].
      apply wp_bind, (wp_put tys d t); auto using num_takes. intros cs1 HN Hb. apply wp_bind, wp_advance, wp_ret.
      split; auto. split; [discriminate|split; auto; try discriminate].
  - (* CharSymbol *) unfold char_symbol_consume. apply wp_bind, wp_empty. intros [|].
    + unfold starved. apply wp_bind, wp_final. intros f. apply wp_ret, ran_same; auto; [|destruct f; discriminate|destruct f; discriminate].
      intros _. now constructor.
    + apply wp_bind, wp_next. intros ch. destruct (assoc ch m) eqn:Ea; [|apply wp_ret, ran_same; auto; discriminate].
      destruct (assoc_in _ _ _ Ea) as (k & Hin).
      apply wp_bind, (wp_put tys d t); eauto. intros cs1 HN Hb. apply wp_ret.
      split; auto. split; [discriminate|split; auto; try discriminate].
  - (* Eoi *) unfold eoi_consume. apply wp_bind, wp_empty. intros [|].
    + apply wp_bind, wp_final. intros f. apply wp_ret, ran_same; auto; [|intros; discriminate|intros; discriminate]. intros _. constructor.
    + apply wp_ret, ran_same; auto; discriminate.
  - apply wp_ret, ran_same; auto; discriminate.
  - apply wp_ret, ran_same; auto; discriminate.
  - (* Lit *) unfold lit_consume. destruct r as [|x r]; [apply wp_ret, ran_same; auto; discriminate|].
    apply wp_bind, wp_empty. intros [|].
    + unfold starved. apply wp_bind, wp_final. intros f. apply wp_ret, ran_same; auto; [|destruct f; discriminate|destruct f; discriminate].
      intros _. constructor.
    + apply wp_bind, wp_next. intros ch. destruct (_ =? _)%Z; [|apply wp_ret, ran_same; auto; discriminate].
      apply wp_bind, wp_advance. eapply IH; eauto; constructor.
  - (* Symbol *) unfold sym_consume. apply wp_bind, wp_empty. intros [|].
    + apply wp_bind, wp_final. intros [|].
      * apply (sym_stop_run c tys); auto.
      * apply wp_ret, ran_same; auto; [|discriminate..]. intros _. now constructor.
    + apply wp_bind, wp_next. intros ch. inversion H as [u chs H1 H2 E]; subst nx. cbn [trie_child].
      destruct (assoc ch chs) as [n|] eqn:Ea; [|apply (sym_stop_run c tys); auto].
      specialize (H2 _ _ Ea). apply wp_bind, wp_advance. inversion H2 as [u2 ch2 H3 H4 E2]; subst n. cbn [trie_val trie_child].
      destruct u2 as [u2|]; [|eapply IH; eauto; constructor; auto].
      apply wp_bind.
      assert (wp (match ch2 with
        | [] => m_assign d u2 ;;; ret (SUCCESS, PSym (Node (Some u2) ch2) v)
        | _ :: _ => m_prepare ops ;;; self c rq d (Symbol m) (PSym (Node (Some u2) ch2) (Some (Node (Some u2) ch2)))
        end) (ran tys c rq d t bt (Symbol m) cs) cs tr) as HK.
      { destruct ch2.
        - apply wp_bind, (wp_put tys d t); auto. intros cs1 HN Hb. apply wp_ret. split; auto. split; [discriminate|split; auto; try discriminate].
        - apply wp_bind, wp_prepare. eapply IH; eauto. constructor; auto. now intros n [= <-]. }
      destruct v; [apply wp_cancel|apply wp_ret]; exact HK.
  - (* UInt *) unfold uint_consume. apply wp_bind, wp_empty. intros [|].
    + apply wp_bind, wp_final. intros f. apply wp_ret, ran_same; auto; [|discriminate..]. intros _. now constructor.
    + apply wp_bind, wp_next. intros ch. destruct (digit_valid x ch); [|apply wp_ret, ran_same; auto; destruct (_ <=? _)%Z; discriminate].
      apply wp_bind, (wp_num tys _ d t); auto. intros cs1 HN1 Hb1. apply wp_bind, (wp_num tys _ d t); eauto using next_I.
      intros cs2 HN2 Hb2. apply wp_bind, wp_advance. cbv zeta. destruct (_ =? _)%Z.
      * apply wp_ret. split; [eauto using next_trans|]. split; [discriminate|split; auto; try discriminate].
      * eapply wp_mono; [eapply IH; eauto using next_I; now constructor|]. intros r cs3 tr3 HR.
        eapply ran_back; [|exact HR]. eapply next_trans; eauto.
  - (* Int *) unfold int_consume. apply wp_bind, wp_empty. intros [|].
    + apply wp_bind, wp_final. intros [|].
      * apply wp_bind, (wp_negate tys d t); auto. intros cs1 HN1 Hb1. apply wp_ret. split; auto. split; [destruct (_ <=? _)%Z; discriminate|split; [auto|discriminate]].
      * apply wp_ret, ran_same; auto; [|discriminate..]. intros _. now constructor.
    + apply wp_bind, wp_next. intros ch.
      destruct (_ && lk); [|apply int_digit_run; auto; auto].
      destruct (ch =? 45)%Z; [apply wp_bind, wp_advance; eapply IH; eauto; now constructor|].
      destruct (ch =? 43)%Z; [apply wp_bind, wp_advance; eapply IH; eauto; now constructor|].
      apply int_digit_run; auto; auto.
  - (* Seq *) unfold nary_enter. destruct (_ && _); [apply wp_raise, fine_shape|].
    destruct (skipn i l) as [|q' rest] eqn:Es; [apply wp_raise, fine_shape|].
    assert (q' = q) as -> by (destruct (existsb_split sval _ _ _ _ Es) as (? & _); congruence).
    eapply seq_run; eauto.
  - (* Alt *) unfold nary_enter. destruct (_ && _); [apply wp_raise, fine_shape|].
    destruct (skipn i l) as [|q' rest] eqn:Es; [apply wp_raise, fine_shape|].
    assert (q' = q) as -> by (destruct (existsb_split sval _ _ _ _ Es) as (? & _); congruence).
    eapply alt_run; eauto.
  - (* Repeat *) unfold repeat_consume. apply wp_bind. eapply wp_mono; [eapply IH; eauto; auto|].
    intros [r a'] cs1 tr1 (HN & H3 & H4 & H9). cbn [fst snd] in *. destruct r.
    + cbv zeta. destruct (_ && _).
      * apply wp_ret. split; auto. split; [discriminate|]. split; intros _ Hs Hnum He.
        -- cbn [SpecType.sets] in He. apply andb_prop in He. now apply H4.
        -- cbn [SpecType.binds] in He. apply andb_prop in He. now apply H9.
      * apply wp_bind. eapply wp_mono; [apply (create_c c _ d t bt q tys); eauto using next_I; exact (proj2 H)|].
        intros a2 cs2 tr2 [HN2 Ho2]. eapply wp_mono.
        -- eapply IH; eauto using next_I. apply o_repeat; auto.
           ++ eapply obj_mono; eauto. discriminate.
           ++ intros Hs Hnum _ Hq. eapply (next_det _ cs1); eauto using next_I.
           ++ intros Hs Hnum _ Hq. eapply (next_det _ cs1); eauto using next_I.
        -- intros x cs3 tr3 HR. eapply ran_back; [|exact HR]. eauto using next_trans.
    + apply wp_ret. split; auto. split; [destruct (_ <=? _); discriminate|]. cbn [fst].
      destruct (lo <=? n) eqn:El; [|split; discriminate]. apply Nat.leb_le in El. split; intros _ Hs Hnum He.
      * cbn [SpecType.sets] in He. apply andb_prop in He. destruct He as [He1 He2].
        apply Nat.leb_le in He1. eapply next_det; eauto. apply H0; auto. lia.
      * cbn [SpecType.binds] in He. apply andb_prop in He. destruct He as [He1 He2].
        apply Nat.leb_le in He1. eapply next_det; eauto. apply H1; auto. lia.
    + apply wp_ret. split; auto. split; [|split; discriminate]. intros _.
      apply o_repeat; auto; intros; eapply next_det; eauto.
  - (* Not *) unfold not_consume. apply wp_bind. eapply wp_mono; [eapply IH; eauto; auto|].
    intros [r a'] cs1 tr1 (HN & H3 & H4 & H9). cbn [fst snd] in *. destruct r.
    + apply wp_bind, wp_commit, wp_ret. split; auto. repeat split; discriminate.
    + apply wp_bind, wp_commit, wp_ret. split; auto. repeat split; discriminate.
    + apply wp_ret. split; auto. split; [|split; discriminate]. intros _. apply o_not; auto.
  - (* Opt *) unfold opt_consume. apply wp_bind. eapply wp_mono; [eapply IH; eauto; auto|].
    intros [r a'] cs1 tr1 (HN & H3 & H4 & H9). cbn [fst snd] in *. destruct r.
    + apply wp_ret. split; auto. repeat split; discriminate.
    + apply wp_bind, wp_commit, wp_ret. split; auto. repeat split; discriminate.
    + apply wp_ret. split; auto. split; [|split; discriminate]. intros _. apply o_opt; auto.
  - (* Discard *) unfold forward_consume. apply wp_bind.
    eapply wp_mono; [apply (IH c rq DNil q a tys TNil bt cs tr); auto; reflexivity|].
    intros [r a'] cs1 tr1 (HN & H3 & H4 & H9). cbn [fst snd] in *. apply wp_ret. split; auto. split; [|split; [discriminate|auto]].
    intros Hr. apply o_discard; [..|now apply H3]; auto.
  - (* Lexeme *) unfold forward_consume. apply wp_bind.
    eapply wp_mono; [apply (IH (Ctx Fail (c_bound c)) rq d q a tys t bt cs tr); auto; apply fail_typed|].
    intros [r a'] cs1 tr1 (HN & H3 & H4 & H9). cbn [fst snd] in *. apply wp_ret. split; auto. split; auto.
    intros Hr. apply o_lexeme; [..|now apply H3]; auto.
  - (* WithSkipper *) unfold forward_consume. apply wp_bind.
    eapply wp_mono; [apply (IH (Ctx s (c_bound c)) rq d q a tys t bt cs tr); auto; auto|].
    intros [r a'] cs1 tr1 (HN & H3 & H4 & H9). cbn [fst snd] in *. apply wp_ret. split; auto. split; auto.
    intros Hr. apply o_with; [..|now apply H3]; auto.
  - (* BindDst *) unfold forward_consume. apply wp_bind.
    eapply wp_mono; [apply (IH (Ctx (c_skip c) d) (unatomic_req rq) d q a tys t t cs tr); auto|].
    intros [r a'] cs1 tr1 (HN & H3 & H4 & H9). cbn [fst snd] in *. apply wp_ret. split; auto. split.
    + intros Hr. apply o_bind. now apply H3.
    + split; [|discriminate]. intros Hr Hs Hnum He. cbn [SpecType.sets] in He. apply orb_prop in He. destruct He; auto.
  - (* Construct *) unfold construct_consume. apply wp_bind. rewrite (dref_ty _ _ _ Hd).
    pose proof H as (Wa & Hm & He & _).
    apply (wp_with_cell tys (TTuple args)); auto; [now left|]. intros HI2 Hd2 Hb2.
    eapply wp_mono; [eapply IH; eauto using dref_app; rewrite Hb2, (has_dfd _ _ H0), (det_app _ _ _ _ _ (proj1 HI) Hbd); auto|].
    intros [r a'] cs1 tr1 (HN & H3 & H4 & H9). split; auto. cbn [fst snd] in *. intros cs0 v' -> HN0 Hv' Hdet.
    destruct Hv' as [Hv'|[Hv' _]]; [|discriminate]. rewrite Hdet, (has_dfd _ _ Hv'), (det_app _ _ _ _ _ (proj1 (proj1 HN0)) Hbd) in *.
    destruct r.
    + assert (exists x, make_from t v' = Done x /\ accepts (value_ty t) x = true) as (x & -> & Hx).
      { destruct v' as [| | | |vs|]; try discriminate. unfold make_from. pose proof Hv' as Hvs. apply has_tuple in Hvs.
        destruct t; cbn [makes] in Hm.
        - exists VNil. split; auto. destruct Hvs as [|? ? ? ? ? Hvs]; auto. destruct Hvs; auto. cbn in Hm. discriminate.
        - destruct args as [|a1 [|a2 args]]; try discriminate; [|destruct a1; discriminate].
          inversion Hvs as [|? v1 ? vs1 Hv1 Hvs1]; subst. inversion Hvs1; subst.
          destruct (conv_ok (TNum signed bits) v1) as (x & Hc & Hx); auto.
          { destruct a1; try discriminate; destruct v1; auto; discriminate. }
          exists x. split; auto. now apply has_accepts.
        - discriminate.
        - exists (VTuple vs). rewrite (He l eq_refl). split; [unfold conv; now rewrite Hv'|now apply has_accepts].
        - exists (VUser id vs). split; auto. cbn. apply Nat.eqb_refl. }
      apply wp_bind, (wp_put tys d t); eauto using next_I. intros cs2 HN2 Hb'. apply wp_ret.
      split; [eauto using next_trans|]. split; [discriminate|]. split; auto.
      intros _ Hs' Hnum He'. exact (next_det _ _ _ _ _ _ _ (next_I _ _ _ _ HN0) HN2 Hbd (H9 eq_refl Hs' Hnum He')).
    + apply wp_ret. split; auto. repeat split; discriminate.
    + apply wp_ret. split; auto. split; [|split; discriminate]. intros _. apply o_construct; auto.
  - (* Act *) unfold action_consume. apply wp_bind. pose proof H as (_ & Wl & _ & _ & Hs).
    apply (wp_with_cell tys (ac_land x)); auto. intros HI2 Hd2 Hb2.
    eapply wp_mono; [eapply IH; eauto using dref_app; rewrite Hb2, (det_app _ _ _ _ _ (proj1 HI) Hbd); auto|].
    intros [r a'] cs1 tr1 (HN & H3 & H4 & H9). split; auto. cbn [fst snd] in *. intros cs0 v' -> HN0 Hv' Hdet.
    rewrite Hdet, (det_app _ _ _ _ _ (proj1 (proj1 HN0)) Hbd) in *. destruct r.
    + apply wp_bind, (dispatch_run c tys bt Hbd x q rq d t); eauto using next_I. intros cs2 tr2 HN2 Hb' Hb3. apply wp_ret.
      split; [eauto using next_trans|]. split; [discriminate|]. split.
      * intros _ _ Hnum Hv. apply Hb'; auto. cbn in Hv. now destruct (ac_void x).
      * intros _ Hs' Hnum Hv. cbn [SpecType.binds] in Hv. apply orb_prop in Hv. destruct Hv as [Hv|Hv]; auto.
        exact (next_det _ _ _ _ _ _ _ (next_I _ _ _ _ HN0) HN2 Hbd (H9 eq_refl Hs' Hnum Hv)).
    + apply wp_ret. split; auto. repeat split; discriminate.
    + apply wp_ret. split; auto. split; [|split; discriminate]. intros _. apply o_act; auto.
  - (* Except 0 *) unfold except_consume. apply wp_bind.
    eapply wp_mono; [apply (IH c neg_req DNil n a tys TNil bt cs tr); auto; reflexivity|].
    intros [r a'] cs1 tr1 (HN & H3 & H4 & H9). cbn [fst snd] in *. destruct r.
    + apply wp_ret. split; auto. repeat split; discriminate.
    + apply wp_bind. eapply wp_mono; [apply (create_c c _ d t bt q tys); eauto using next_I; exact (proj2 H)|].
      intros a2 cs2 tr2 [HN2 Ho2]. apply wp_bind. eapply wp_mono; [eapply IH; eauto using next_I; eapply obj_mono; eauto; discriminate|].
      intros [r a3] cs3 tr3 (HN3 & H5 & H6 & H8). cbn [fst snd] in *. apply wp_ret.
      split; [eapply next_trans; [exact HN|]; eapply next_trans; eauto|]. split; auto. intros Hr. apply o_except1; auto.
    + apply wp_ret. split; auto. split; [|split; discriminate]. intros _. apply o_except0; [auto|now apply H3].
  - (* Except 1 *) unfold except_consume. apply wp_bind. eapply wp_mono; [eapply IH; eauto; auto|].
    intros [r a'] cs1 tr1 (HN & H3 & H4 & H9). cbn [fst snd] in *. apply wp_ret. split; auto. split; auto. intros Hr. apply o_except1; auto.
  - (* List 0 *) unfold list_consume. apply wp_bind. eapply wp_mono; [eapply IH; eauto; auto|].
    intros [r a'] cs1 tr1 (HN & H3 & H4 & H9). cbn [fst snd] in *. destruct r.
    + apply wp_bind, wp_cancel, wp_bind, wp_prepare, wp_bind.
      eapply wp_mono; [apply (create_c c sep_req DNil TNil bt s tys); eauto using next_I; [reflexivity|exact (proj2 H)]|].
      intros a2 cs2 tr2 [HN2 Ho2]. eapply wp_mono; [eapply IH; eauto using next_I; apply o_list1; auto; eapply obj_mono; eauto; discriminate|].
      intros x cs3 tr3 HR. eapply ran_back; [|exact HR]. eauto using next_trans.
    + apply wp_bind, wp_commit, wp_ret. split; auto. repeat split; discriminate.
    + apply wp_ret. split; auto. split; [|split; discriminate]. intros _. apply o_list0; auto.
  - (* List 1 *) unfold list_consume. apply wp_bind.
    eapply wp_mono; [apply (IH c sep_req DNil s a tys TNil bt cs tr); auto; reflexivity|].
    intros [r a'] cs1 tr1 (HN & H3 & H4 & H9). cbn [fst snd] in *. destruct r.
    + apply wp_bind.
      eapply wp_mono; [apply (create_c c list_req d t bt q tys); eauto using next_I; exact (proj1 H)|].
      intros a2 cs2 tr2 [HN2 Ho2]. eapply wp_mono; [eapply IH; eauto using next_I; apply o_list0; auto; eapply obj_mono; eauto; discriminate|].
      intros x cs3 tr3 HR. eapply ran_back; [|exact HR]. eauto using next_trans.
    + apply wp_bind, wp_commit, wp_ret. split; auto. repeat split; discriminate.
    + apply wp_ret. split; auto. split; [|split; discriminate]. intros _. apply o_list1; [auto|now apply H3].
  - (* Recur *) unfold recur_consume. destruct (env id) as [q|] eqn:Ee; [|eapply wp_raise, fine_recur; eauto].
    destruct (Henv _ _ Ee) as [Hst Hty]. apply wp_bind.
    assert (wp (match a with None => create ops c recur_req d q | Some a => ret a end)
               (fun st cs' tr' => Next tys cs cs' tr' /\
                  obj recur_req (detb cs' d) (detb cs' (c_bound c)) (c_skip c) t bt q st) cs tr) as HK.
    { destruct a as [a|].
      - apply wp_ret. split; [now apply next_refl|]. eauto.
      - eapply wp_mono; [apply (create_c c recur_req d t bt q tys); auto; now apply Hty|].
        intros st cs' tr' [HN Ho]. split; auto. eapply obj_mono; eauto. discriminate. }
    eapply wp_mono; [exact HK|]. intros a2 cs2 tr2 [HN2 Ho2]. apply wp_bind.
    eapply wp_mono; [eapply IH; eauto using next_I; auto|]. intros [r a3] cs3 tr3 (HN3 & H5 & H6 & H8). cbn [fst snd] in *.
    apply wp_ret. split; [eauto using next_trans|]. split.
    + intros Hr. apply o_recur; auto. intros st q' [= <-] E. rewrite Ee in E. injection E as <-. auto.
    + split; [intros Hr Hs Hnum Hd'; auto|discriminate].
Qed.

Theorem run_all n : Run (consume ops env n).
Proof.
  induction n as [|n IHn]; [|now apply run_step].
  intros c rq d p st tys t bt cs tr _ _ _ _ _ _ _. apply wp_raise, fine_fuel.
Qed.
End Inv.
