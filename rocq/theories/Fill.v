(** Patterns that, when they match, overwrite a scalar object without looking at what it
    held: what was in the object before makes no difference afterwards. *)
From Coq Require Import List ZArith Bool Arith Lia.
From Verif Require Import Base CharSet Source Dst Pattern Parser Big Local EvReq.
Import ListNotations.

Definition scalar (t : ty) : bool := match t with TNum _ _ | TUser _ => true | _ => false end.

(** No action of the pattern looks at a bound destination. *)
Fixpoint plain (p : pat) : bool :=
  match p with
  | Seq l | Alt l => forallb plain l
  | Repeat _ _ q | Not q | Opt q | Discard q | Lexeme q | WithSkipper q _ | Construct _ q | BindDst q => plain q
  | Act a q => negb (ac_param a) && plain q
  | Except q n => plain q && plain n
  | PList q s => plain q && plain s
  | _ => true
  end.

(** On success, the object has been overwritten; [R] tells for which recursive patterns. *)
Fixpoint fills (R : nat -> bool) (p : pat) : bool :=
  match p with
  | Char _ | CharSymbol _ | Symbol _ | UInt _ _ _ | Int _ _ _ | Fail | Construct _ _ => true
  | Recur id _ => R id
  | Act a _ => negb (ac_void a)
  | Seq l => existsb (fun q => negb (ignores q) && fills R q) l
  | Alt l => forallb (fills R) l
  | Repeat lo _ q => (1 <=? lo) && (negb (f_atomic q) || fills R q)
  | Lexeme q | WithSkipper q _ | BindDst q => fills R q
  | Except q _ => fills R q
  | _ => false
  end.

(** ** Memory *)

Definition lvl_of (d : dst) : option nat := match d with DNil => None | DRef l _ _ => Some l end.

Lemma upd_comm {A} (l : list A) : forall i j x y, i <> j -> upd (upd l i x) j y = upd (upd l j y) i x.
Proof. induction l as [|a l IH]; intros [|i] [|j] x y H; cbn; auto; try congruence. f_equal. apply IH. congruence. Qed.
Lemma nth_upd_ne {A} (l : list A) : forall i j x, i <> j -> nth_error (upd l i x) j = nth_error l j.
Proof. induction l as [|a l IH]; intros [|i] [|j] x H; cbn; auto; congruence. Qed.

Definition lift (l : nat) (y : val) (o : outcome (list val)) : outcome (list val) := obind o (fun c => Done (upd c l y)).

Lemma load_other c d l y : lvl_of d <> Some l -> load (upd c l y) d = load c d.
Proof. destruct d as [|k p t]; cbn; auto. intros H. rewrite nth_upd_ne by congruence. reflexivity. Qed.
Lemma store_other c d l y x : lvl_of d <> Some l -> store (upd c l y) d x = lift l y (store c d x).
Proof.
  destruct d as [|k p t]; cbn; auto. intros H. rewrite nth_upd_ne by congruence.
  destruct (nth_error c k); cbn; auto. destruct (set_path v p x); cbn; auto. f_equal. apply upd_comm. congruence.
Qed.
Lemma assign_other c d l y x : lvl_of d <> Some l -> assign (upd c l y) d x = lift l y (assign c d x).
Proof.
  intros H. destruct d as [|k p t]; cbn [assign]; auto. rewrite load_other by auto.
  destruct t; match goal with |- context [conv ?t x] => destruct (conv t x); cbn [obind lift]; auto end; try now apply store_other.
  destruct (load c _) as [[]|]; cbn [obind lift]; auto. now apply store_other.
Qed.
Lemma zero_other c d l y : lvl_of d <> Some l -> num_zero (upd c l y) d = lift l y (num_zero c d).
Proof. intros H. destruct d as [|k p []]; cbn [num_zero]; auto. now apply store_other. Qed.
Lemma op_other f c d l y : lvl_of d <> Some l -> num_op f (upd c l y) d = lift l y (num_op f c d).
Proof.
  intros H. destruct d as [|k p []]; cbn [num_op]; auto. rewrite load_other by auto.
  destruct (load c _) as [[]|]; cbn [obind lift]; auto. destruct (arith _ _ _); cbn [obind]; auto. now apply store_other.
Qed.

Definition lift3 {A} (l : nat) (y : val) (o : outcome (A * list val)) : outcome (A * list val) :=
  obind o (fun '(a, c) => Done (a, upd c l y)).
Lemma uint_other b lo hi d l y : lvl_of d <> Some l -> forall s cnt c,
  uint_run b lo hi d cnt (upd c l y) s = lift3 l y (uint_run b lo hi d cnt c s).
Proof.
  intros H. induction s as [|x t IH]; intros cnt c; cbn [uint_run]; auto.
  destruct (digit_valid b x); auto. rewrite op_other by auto. destruct (num_op _ c d) as [c1|]; cbn [lift obind]; auto.
  rewrite op_other by auto. destruct (num_op _ c1 d) as [c2|]; cbn [lift obind]; auto.
  destruct (_ =? _)%Z; auto.
Qed.
Lemma int_other b lo hi d l y s c : lvl_of d <> Some l ->
  int_run b lo hi d (upd c l y) s = lift3 l y (int_run b lo hi d c s).
Proof.
  intros H. unfold int_run. destruct (match s with x :: t => _ | [] => _ end) as [neg s1].
  rewrite uint_other by auto. destruct (uint_run _ _ _ _ _ _ _) as [[[r s2] c2]|]; cbn [lift3 obind]; auto.
  unfold neg_cells. destruct neg; auto. rewrite op_other by auto. destruct (num_op _ c2 d); auto.
Qed.
Lemma sym_end_other d l y v m s c : lvl_of d <> Some l ->
  sym_end d v m (upd c l y) s = lift3 l y (sym_end d v m c s).
Proof.
  intros H. unfold sym_end. destruct v; auto. destruct (sym_value t); cbn [obind lift3]; auto.
  rewrite assign_other by auto. destruct (assign c d a); auto.
Qed.
Lemma sym_other d l y : lvl_of d <> Some l -> forall s nx v m c,
  sym_run d nx v m (upd c l y) s = lift3 l y (sym_run d nx v m c s).
Proof.
  intros H. induction s as [|x t IH]; intros nx v m c; cbn [sym_run]; [now apply sym_end_other|].
  destruct (assoc x _); [|now apply sym_end_other]. destruct (trie_val t0); auto. destruct (trie_child t0); auto.
  rewrite assign_other by auto. destruct (assign c d v0); auto.
Qed.

(** The hole itself. *)
Lemma store_hole c l t y x : l < length c -> store (upd c l y) (DRef l [] t) x = store c (DRef l [] t) x.
Proof.
  intros H. cbn. destruct (nth_error c l) as [v|] eqn:E; [|apply nth_error_None in E; lia].
  rewrite (nth_upd _ _ _ _ E). cbn. now rewrite upd_upd.
Qed.
Lemma assign_hole c l t y x : l < length c -> scalar t = true ->
  assign (upd c l y) (DRef l [] t) x = assign c (DRef l [] t) x.
Proof.
  intros H Ht. destruct t; try discriminate; cbn [assign]; destruct (conv _ x); cbn [obind]; auto; now apply store_hole.
Qed.
Lemma zero_hole c l t y : l < length c -> num_zero (upd c l y) (DRef l [] t) = num_zero c (DRef l [] t).
Proof. intros H. destruct t; cbn [num_zero]; auto. now apply store_hole. Qed.

(** [sym_run] writes only when it ends. *)
Lemma sym_end_hole l t v m y s c : l < length c -> scalar t = true ->
  sym_end (DRef l [] t) v m (upd c l y) s =
  match sym_end (DRef l [] t) v m c s with
  | Done (false, s', _) => Done (false, s', upd c l y)
  | o => o
  end.
Proof.
  intros H Ht. unfold sym_end. destruct v; auto. destruct (sym_value t0); cbn [obind]; auto.
  rewrite assign_hole by auto. destruct (assign c _ a); auto.
Qed.
Lemma sym_hole l t y : scalar t = true -> forall s nx v m c, l < length c ->
  sym_run (DRef l [] t) nx v m (upd c l y) s =
  match sym_run (DRef l [] t) nx v m c s with
  | Done (false, s', _) => Done (false, s', upd c l y)
  | o => o
  end.
Proof.
  intros Ht. induction s as [|x s IH]; intros nx v m c H; cbn [sym_run]; [now apply sym_end_hole|].
  destruct (assoc x _); [|now apply sym_end_hole]. destruct (trie_val t0); auto. destruct (trie_child t0); auto.
  rewrite assign_hole by auto. destruct (assign c _ v0); auto.
Qed.
Lemma sym_end_ko d v m c s s' c' : sym_end d v m c s = Done (false, s', c') -> c' = c.
Proof.
  unfold sym_end. destruct v; [|intros [= <- <-]; auto]. destruct (sym_value t); cbn [obind]; [|discriminate].
  destruct (assign c d a); discriminate.
Qed.
Lemma sym_ko d : forall s nx v m c s' c', sym_run d nx v m c s = Done (false, s', c') -> c' = c.
Proof.
  induction s as [|x s IH]; intros nx v m c s' c'; cbn [sym_run]; [apply sym_end_ko|].
  destruct (assoc x _); [|apply sym_end_ko]. destruct (trie_val t); [|apply IH]. destruct (trie_child t); [|apply IH].
  destruct (assign c d v0); discriminate.
Qed.

(** ** Runs *)
Section Ev.
Context (env : nat -> option pat).
Hypothesis Hplain : forall id q, env id = Some q -> plain q = true.
Context (R : nat -> bool).
Hypothesis Hfills : forall id q, env id = Some q -> R id = true -> fills R q = true.
Notation ev := (ev env).

Definition away (d : dst) (l : nat) : Prop :=
  lvl_of d <> Some l \/ exists t, scalar t = true /\ d = DRef l [] t.
Definition hole (d : dst) (l : nat) : Prop := lvl_of d = Some l.

Definition fillg (g : stage) (rq : req) (p : pat) : bool :=
  match g, p with
  | GRun, _ => (negb (r_recur rq) && wants_atomic rq p) || fills R p
  | GSkip, _ | GCln, _ | GAtm, _ => wants_atomic rq p || fills R p
  | GRaw, _ => fills R p
  | GSeq i, Seq l => existsb (fun q => negb (ignores q) && fills R q) (skipn i l)
  | GAlt i, Alt l => forallb (fills R) (skipn i l)
  | GRep 0, Repeat lo _ q => (1 <=? lo) && (negb (f_atomic q) || fills R q)
  | _, _ => false
  end.

Definition goal (g : stage) (c : ctx) (rq : req) (d : dst) (p : pat) (x : list Z) (w : sw) (r : bool) (w' : sw)
           (l : nat) (y : val) (c2 : list val) : Prop :=
  exists c2', ev g c rq d p x (with_c c2 w) r (with_c c2' w') /\
    (c2' = q_c w' \/ c2' = upd (q_c w') l y) /\
    (r = true -> hole d l -> fillg g rq p = true -> c2' = q_c w').

Definition good (g : stage) (c : ctx) (rq : req) (d : dst) (p : pat) (x : list Z) (w : sw) (r : bool) (w' : sw) : Prop :=
  forall l y, l < length (q_c w) -> away d l -> plain p = true -> goal g c rq d p x w r w' l y (upd (q_c w) l y).

Lemma with_same w : with_c (q_c w) w = w. Proof. now destruct w. Qed.
Lemma goal_same g c rq d p x w r w' l y : ev g c rq d p x w r w' -> goal g c rq d p x w r w' l y (q_c w).
Proof. intros H. exists (q_c w'). rewrite !with_same. auto. Qed.

(** From the state [c2] of the other run, equal or different at [l]. *)
Lemma good_go g c rq d p x w r w' l y c2 : good g c rq d p x w r w' -> ev g c rq d p x w r w' ->
  l < length (q_c w) -> away d l -> plain p = true -> c2 = q_c w \/ c2 = upd (q_c w) l y ->
  goal g c rq d p x w r w' l y c2.
Proof. intros HG He Hl Ha Hp [-> | ->]; auto using goal_same. Qed.

(** Cells come and go, their number stays. *)
Lemma ev_len g c rq d p x w r w' : ev g c rq d p x w r w' -> length (q_c w') = length (q_c w).
Proof.
  assert (forall cs d x cs', store cs d x = Done cs' -> length cs' = length cs) as HS.
  { intros cs dd xx cs'. destruct dd as [|k pp t]; cbn; [intros [= <-]; auto|].
    destruct (nth_error cs k); cbn; [|discriminate]. destruct (set_path _ _ _); cbn; [|discriminate].
    intros [= <-]. apply upd_len. }
  assert (forall cs d v cs', assign cs d v = Done cs' -> length cs' = length cs) as HA.
  { intros cs dd v cs'. destruct dd as [|k pp t]; cbn [assign]; [intros [= <-]; auto|].
    destruct t; destruct (conv _ v); cbn [obind]; try discriminate; try apply HS.
    destruct (load _ _) as [[]|]; cbn [obind]; try discriminate. apply HS. }
  assert (forall cs d cs', num_zero cs d = Done cs' -> length cs' = length cs) as HZ.
  { intros cs dd cs'. destruct dd as [|k pp []]; cbn [num_zero]; try discriminate; try apply HS. intros [= <-]; auto. }
  assert (forall f cs d cs', num_op f cs d = Done cs' -> length cs' = length cs) as HO.
  { intros f cs dd cs'. destruct dd as [|k pp []]; cbn [num_op]; try discriminate; [intros [= <-]; auto|].
    destruct (load _ _) as [[]|]; cbn [obind]; try discriminate. destruct (arith _ _ _); cbn [obind]; [|discriminate]. apply HS. }
  assert (forall b lo hi d s cnt c r s' c', uint_run b lo hi d cnt c s = Done (r, s', c') -> length c' = length c) as HU.
  { intros b lo hi dd. induction s as [|z s IH]; intros cnt c0 r0 s' c'; cbn [uint_run]; [intros [= <- <- <-]; auto|].
    destruct (digit_valid b z); [|intros [= <- <- <-]; auto].
    destruct (num_op _ c0 dd) as [c1|] eqn:E1; cbn [obind]; [|discriminate].
    destruct (num_op _ c1 dd) as [c2|] eqn:E2; cbn [obind]; [|discriminate]. apply HO in E1, E2.
    destruct (_ =? _)%Z; [intros [= <- <- <-]; congruence|]. intros H. apply IH in H. congruence. }
  assert (forall d v m c s r s' c', sym_end d v m c s = Done (r, s', c') -> length c' = length c) as HE.
  { intros dd v m c0 s r0 s' c'. unfold sym_end. destruct v; [|intros [= <- <- <-]; auto].
    destruct (sym_value t); cbn [obind]; [|discriminate]. destruct (assign c0 dd a) eqn:E; cbn [obind]; [|discriminate].
    intros [= <- <- <-]. eauto. }
  assert (forall d s nx v m c r s' c', sym_run d nx v m c s = Done (r, s', c') -> length c' = length c) as HY.
  { intros dd. induction s as [|z s IH]; intros nx v m c0 r0 s' c'; cbn [sym_run]; [apply HE|].
    destruct (assoc z _); [|apply HE]. destruct (trie_val t); [|apply IH]. destruct (trie_child t); [|apply IH].
    destruct (assign c0 dd v0) eqn:E; cbn [obind]; [|discriminate]. intros [= <- <- <-]. eauto. }
  induction 1; cbn [q_c with_c at_] in *; eauto; try congruence.
  - rewrite (HA _ _ _ _ H2); auto.
  - rewrite (HU _ _ _ _ _ _ _ _ _ _ H0). eauto.
  - unfold int_run in H0. destruct (match q_s w with z :: t => _ | [] => _ end) as [neg s1].
    destruct (uint_run _ _ _ _ _ _ _) as [[[r1 s2] c2]|] eqn:E; cbn [obind] in H0; [|discriminate].
    apply HU in E. unfold neg_cells in H0. destruct neg; cbn [obind] in H0.
    + destruct (num_op _ c2 d) eqn:E2; cbn [obind] in H0; [|discriminate]. injection H0 as <- <- <-. apply HO in E2.
      apply HZ in H. congruence.
    + injection H0 as <- <- <-. apply HZ in H. congruence.
  - rewrite (HA _ _ _ _ H2); auto.
  - unfold act_run, act_dispatch in H1. destruct (conv _ v); [|discriminate]. cbn [w_cells] in H1.
    destruct (if ac_param a then _ else _) as [bb|]; [|discriminate]. destruct (ac_fun a a0 bb) as [r1 b'].
    match type of H1 with context [match (if ac_param a then ?A else ?B) with _ => _ end] =>
      destruct (if ac_param a then A else B) as [c1|] eqn:E; [|discriminate] end.
    assert (length c1 = length cs) as HL.
    { cbn [q_c] in E. destruct (ac_param a); [|congruence]. destruct (c_bound c) as [|kk pp tt0]; [congruence|].
      destruct (has_ty tt0 b'); [|discriminate]. eauto. }
    destruct (ac_void a).
    + injection H1 as <-. cbn. congruence.
    + unfold m_assign, on_cells in H1. cbn [w_cells] in H1. destruct (assign c1 d r1) eqn:E2; [|discriminate].
      injection H1 as <-. cbn. apply HA in E2. congruence.
Qed.

Lemma away_nil l : away DNil l. Proof. left. discriminate. Qed.
Lemma away_cell k t l : l < k -> away (dst_cell k t) l.
Proof. intros H. left. destruct t; cbn; try discriminate; intros [= ->]; lia. Qed.
Lemma away_seq l i d d' k : away d k -> seq_dst l i d = Done d' ->
  away d' k /\ (hole d k -> forall q, nth_error l i = Some q -> ignores q = false -> hole d' k).
Proof.
  unfold away, hole. destruct d as [|lv p t]; cbn [seq_dst].
  - intros _ [= <-]. split; [left; discriminate|]. discriminate.
  - intros Ha. destruct (nth_error l i) as [q|]; [|discriminate].
    destruct (ignores q) eqn:Ei.
    + intros [= <-]. split; [left; discriminate|]. intros _ q' [= <-]. congruence.
    + destruct Ha as [Ha|(t0 & Ht & [= -> -> ->])].
      * destruct t; try (intros [= <-]; split; [now left|tauto]).
        destruct (nth_error l0 _) as [t'|]; [|discriminate].
        destruct t'; intros [= <-]; (split; [now left || (left; discriminate)|intros HH; now elim Ha]).
      * destruct t0; try discriminate; intros [= <-]; (split; [right; eauto|tauto]).
Qed.

Lemma upd_snoc (c : list val) k y v : k < length c -> upd (c ++ [v]) k y = upd c k y ++ [v].
Proof. apply upd_app_l. Qed.
Lemma snoc_eq (a b : list val) x y : a ++ [x] = b ++ [y] -> a = b /\ x = y.
Proof. apply app_inj_tail. Qed.

(** The other run of a child with a buffer of its own. *)
Lemma buffered_goal g c rq q x w r s cs v tr l y t i :
  good g c rq (dst_cell (length (q_c w)) t) q x (with_c (q_c w ++ [i]) w) r (SW s (cs ++ [v]) tr) ->
  plain q = true -> l < length (q_c w) -> length cs = length (q_c w) ->
  exists cs2, length cs2 = length (q_c w) /\ (cs2 = cs \/ cs2 = upd cs l y) /\
    ev g c rq (dst_cell (length (upd (q_c w) l y)) t) q x
       (with_c (q_c (with_c (upd (q_c w) l y) w) ++ [i]) (with_c (upd (q_c w) l y) w)) r (SW s (cs2 ++ [v]) tr).
Proof.
  intros HG Hp Hl Hn. destruct (HG l y) as (c2 & A & B & _); auto.
  - cbn. rewrite app_length. cbn. lia.
  - now apply away_cell.
  - cbn [q_c with_c] in *. rewrite !upd_snoc in * by lia. rewrite upd_len in *.
    destruct B as [-> | ->].
    + exists cs. split; auto.
    + exists (upd cs l y). rewrite upd_len. split; auto.
Qed.

(** Storing the outcome of such a child. *)
Lemma assign_goal cs cs2 d v cs' l y : length cs2 = length cs -> l < length cs -> away d l ->
  cs2 = cs \/ cs2 = upd cs l y -> assign cs d v = Done cs' ->
  exists c2', assign cs2 d v = Done c2' /\ (c2' = cs' \/ c2' = upd cs' l y) /\ (hole d l -> c2' = cs').
Proof.
  intros Hn Hl Ha [-> | ->] H.
  - eauto.
  - destruct Ha as [Ha|(t & Ht & ->)].
    + rewrite assign_other, H by auto. eexists. split; [reflexivity|]. split; auto. intros HH. now elim Ha.
    + rewrite assign_hole, H by auto. eauto.
Qed.

Lemma act_goal a v d c s cs tr w' cs2 l y : ac_param a = false -> length cs2 = length cs -> l < length cs -> away d l ->
  cs2 = cs \/ cs2 = upd cs l y -> act_run a v d c (SW s cs tr) = Done w' ->
  exists c2', act_run a v d c (SW s cs2 tr) = Done (with_c c2' w') /\ (c2' = q_c w' \/ c2' = upd (q_c w') l y) /\
    (hole d l -> ac_void a = false -> c2' = q_c w').
Proof.
  intros Hp Hn Hl Ha Hc. unfold act_run, act_dispatch. destruct (conv (ac_land a) v) as [z|]; [|discriminate].
  rewrite Hp. destruct (ac_fun a z VNil) as [r b']. cbn [q_s q_c q_t w_cells w_src w_trace]. destruct (ac_void a).
  - intros [= <-]. exists cs2. cbn. split; auto. split; auto. discriminate.
  - unfold m_assign, on_cells. cbn [w_cells w_src w_trace]. destruct (assign cs d r) as [cs'|] eqn:E; [|discriminate].
    intros [= <-]. destruct (assign_goal _ _ _ _ _ _ _ Hn Hl Ha Hc E) as (c2' & -> & B & D).
    exists c2'. cbn. auto.
Qed.

Lemma skipn_nth {A} (l : list A) i q : nth_error l i = Some q -> skipn i l = q :: skipn (S i) l.
Proof. revert i. induction l as [|a l IH]; intros [|i] H; try discriminate; cbn in *; [congruence|]. apply IH. exact H. Qed.
Lemma skipn_none {A} (l : list A) i : nth_error l i = None -> skipn i l = [].
Proof. intros H. apply skipn_all2. now apply nth_error_None. Qed.
Lemma plain_nth l i q : forallb plain l = true -> nth_error l i = Some q -> plain q = true.
Proof. intros H E. rewrite forallb_forall in H. apply H. eapply nth_error_In; eauto. Qed.

Lemma hole_dec d l : {hole d l} + {~ hole d l}.
Proof. unfold hole. repeat decide equality. Qed.

Ltac one_part IH l y := 
  destruct (IH l y) as (?c2' & ?A & ?B & ?D); auto.

Theorem ev_good g c rq d p x w r w' : ev g c rq d p x w r w' -> good g c rq d p x w r w'.
Proof.
  induction 1; intros l0 y0 Hl Ha Hp.
  (* the stages *)
  - one_part IHev l0 y0. exists c2'. split; [now apply ev_recur|]. split; auto. cbn. rewrite H. cbn. auto.
  - one_part IHev l0 y0. exists c2'. split; [now apply ev_noskip|]. split; auto. cbn. rewrite H. cbn. auto.
  - one_part IHev l0 y0. exists c2'. split; [now apply ev_skip|]. split; auto. cbn. rewrite H. cbn. auto.
  - one_part IHev l0 y0. exists c2'. split; [eapply ev_skip_more; eauto|]. split; auto.
  - one_part IHev l0 y0. exists c2'. split; [now apply ev_skip_end|]. split; auto.
  - one_part IHev l0 y0. exists c2'. split; [now apply ev_cln_no|]. split; auto.
  - one_part IHev l0 y0. exists c2'. split; [now apply ev_cln_ok|]. split; auto.
  - one_part IHev l0 y0. exists c2'. split; [apply (ev_cln_ko _ _ _ _ _ _ _ (with_c c2' w')); auto|]. split; auto; try discriminate.
  - one_part IHev l0 y0. exists c2'. split; [now apply ev_atm_no|]. split; auto. cbn. rewrite H. cbn. auto.
  - destruct (buffered_goal _ _ _ _ _ _ _ _ _ _ _ l0 y0 _ _ IHev Hp Hl H1) as (cs2 & N & B & A).
    destruct (assign_goal _ _ _ _ _ l0 y0 (eq_trans N (eq_sym H1)) ltac:(lia) Ha B H2) as (c2' & E & F & K).
    exists c2'. split; [eapply ev_atm_ok; eauto; cbn [q_c with_c]; now rewrite upd_len|]. split; auto.
  - destruct (buffered_goal _ _ _ _ _ _ _ _ _ _ _ l0 y0 _ _ IHev Hp Hl H1) as (cs2 & N & B & A).
    exists cs2. split; [eapply (ev_atm_ko _ _ _ _ _ _ (with_c (upd (q_c w) l0 y0) w)); eauto; cbn [q_c with_c]; now rewrite upd_len|]. split; auto; try discriminate.
  (* leaves *)
  - destruct (assign_goal ce (upd ce l0 y0) d (VNum y) ce' l0 y0) as (c2' & E & F & K); auto using upd_len.
    exists c2'. split; [now apply ev_char_ok|]. split; auto.
  - exists (upd (q_c w) l0 y0). split; [now apply ev_char_ko|]. split; auto; try discriminate.
  - destruct (assign_goal ce (upd ce l0 y0) d v ce' l0 y0) as (c2' & E & F & K); auto using upd_len.
    exists c2'. split; [eapply ev_csym_ok; eauto|]. split; auto.
  - exists (upd (q_c w) l0 y0). split; [now apply ev_csym_ko|]. split; auto; try discriminate.
  - exists (upd (q_c w) l0 y0). split; [exact (ev_eoi _ _ _ _ _ (with_c (upd (q_c w) l0 y0) w))|]. split; auto; try discriminate.
  - exists (upd (q_c w) l0 y0). split; [now apply ev_pass|]. split; auto; try discriminate.
  - exists (upd (q_c w) l0 y0). split; [now apply ev_fail|]. split; auto; try discriminate.
  - exists (upd (q_c w) l0 y0). split; [now apply (ev_lit _ _ _ _ _ _ (with_c (upd (q_c w) l0 y0) w))|]. split; auto; try discriminate.
  - destruct Ha as [Ha|(t & Ht & ->)].
    + exists (upd cs l0 y0). split; [|split; auto; intros _ HH; now elim Ha].
      apply (ev_sym _ _ _ _ _ _ (with_c (upd (q_c w) l0 y0) w)). cbn. rewrite sym_other, H by auto. reflexivity.
    + destruct r.
      * exists cs. split; [|split; auto]. apply (ev_sym _ _ _ _ _ _ (with_c (upd (q_c w) l0 y0) w)). cbn.
        rewrite sym_hole, H by auto. reflexivity.
      * pose proof (sym_ko _ _ _ _ _ _ _ _ H) as ->. exists (upd (q_c w) l0 y0). split; [|split; auto; discriminate].
        apply (ev_sym _ _ _ _ _ _ (with_c (upd (q_c w) l0 y0) w)). cbn. rewrite sym_hole, H by auto. reflexivity.
  - destruct Ha as [Ha|(t & Ht & ->)].
    + exists (upd cs l0 y0). split; [|split; auto; intros _ HH; now elim Ha].
      apply (ev_uint _ _ _ _ _ _ _ _ (with_c (upd (q_c w) l0 y0) w) (upd c0 l0 y0)); cbn.
      * rewrite zero_other, H by auto. reflexivity.
      * rewrite uint_other, H0 by auto. reflexivity.
    + exists cs. split; [|split; auto]. apply (ev_uint _ _ _ _ _ _ _ _ (with_c (upd (q_c w) l0 y0) w) c0); cbn [q_c q_s with_c]; auto.
      rewrite zero_hole; auto.
  - destruct Ha as [Ha|(t & Ht & ->)].
    + exists (upd cs l0 y0). split; [|split; auto; intros _ HH; now elim Ha].
      apply (ev_int _ _ _ _ _ _ _ _ (with_c (upd (q_c w) l0 y0) w) (upd c0 l0 y0)); cbn [q_c q_s with_c].
      * rewrite zero_other, H by auto. reflexivity.
      * rewrite int_other, H0 by auto. reflexivity.
    + exists cs. split; [|split; auto]. apply (ev_int _ _ _ _ _ _ _ _ (with_c (upd (q_c w) l0 y0) w) c0); cbn [q_c q_s with_c]; auto.
      rewrite zero_hole; auto.
  (* sequences *)
  - one_part IHev l0 y0. exists c2'. split; [now apply ev_seq|]. split; auto.
  - destruct (away_seq _ _ _ _ _ Ha H0) as [Ha' _]. one_part IHev l0 y0; eauto using plain_nth.
    exists c2'. split; [eapply ev_seq_ko; eauto|]. split; auto; try discriminate.
  - destruct (away_seq _ _ _ _ _ Ha H1) as [Ha' Hh]. one_part IHev l0 y0; eauto using plain_nth.
    exists c2'. split; [eapply ev_seq_end; eauto|]. split; auto. intros _ HH. cbn [fillg].
    rewrite (skipn_nth _ _ _ H), (skipn_none _ _ H0). cbn. rewrite orb_false_r. intros E.
    apply andb_prop in E. destruct E as [E1 E2]. apply negb_true_iff in E1. apply D; [auto|eapply Hh; eauto|cbn; rewrite ?E2, ?orb_true_r; auto].
  - destruct (away_seq _ _ _ _ _ Ha H1) as [Ha' Hh]. one_part IHev1 l0 y0; eauto using plain_nth.
    assert (l0 < length (q_c w1)) as Hl1 by (rewrite (ev_len _ _ _ _ _ _ _ _ _ H2); auto).
    destruct (good_go _ _ _ _ _ _ _ _ _ l0 y0 c2' IHev2 H3 Hl1 Ha Hp B) as (c3 & A3 & B3 & D3).
    destruct (hole_dec d l0) as [HH|HH]; [destruct (negb (ignores q) && fills R q) eqn:E|].
    + apply andb_prop in E. destruct E as [E1 E2]. assert (c2' = q_c w1) as ->.
      { apply negb_true_iff in E1. apply D; [auto|eapply Hh; eauto|cbn; rewrite ?E2, ?orb_true_r; auto]. }
      exists (q_c w'). rewrite !with_same in *. split; [eapply ev_seq_next; eauto|]. auto.
    + exists c3. split; [eapply ev_seq_next; eauto|]. split; auto. intros -> _. cbn [fillg].
      rewrite (skipn_nth _ _ _ H). cbn [existsb]. rewrite E. intros E'. now apply D3.
    + exists c3. split; [eapply ev_seq_next; eauto|]. split; auto; intros _ HH'; now elim HH.
  (* alternatives *)
  - one_part IHev l0 y0. exists c2'. split; [now apply ev_alt|]. split; auto.
  - one_part IHev l0 y0; eauto using plain_nth. exists c2'. split; [eapply ev_alt_ok; eauto|]. split; auto.
    intros _ HH. cbn [fillg]. rewrite (skipn_nth _ _ _ H). cbn [forallb]. intros E. apply andb_prop in E. destruct E as [E _].
    apply D; auto. cbn. now rewrite E, orb_true_r.
  - one_part IHev l0 y0; eauto using plain_nth. exists c2'. split; [eapply ev_alt_ko; eauto|]. split; auto; try discriminate.
  - one_part IHev1 l0 y0; eauto using plain_nth.
    assert (l0 < length (q_c w1)) as Hl1 by (rewrite (ev_len _ _ _ _ _ _ _ _ _ H1); auto).
    destruct (good_go _ _ _ _ _ _ _ _ _ l0 y0 c2' IHev2 H2 Hl1 Ha Hp B) as (c3 & A3 & B3 & D3).
    exists c3. split; [eapply ev_alt_next; eauto|]. split; auto. intros -> HH. cbn [fillg].
    rewrite (skipn_nth _ _ _ H). cbn [forallb]. intros E. apply andb_prop in E. destruct E as [_ E]. now apply D3.
  (* repetitions *)
  - one_part IHev l0 y0. exists c2'. split; [now apply ev_rep|]. split; auto.
  - one_part IHev l0 y0. exists c2'. split; [now apply ev_rep_stop|]. split; auto. intros E HH. cbn [fillg].
    destruct n; [|discriminate]. intros E2. apply andb_prop in E2. destruct E2 as [E2 _].
    apply Nat.leb_le in E. apply Nat.leb_le in E2. lia.
  - one_part IHev l0 y0. exists c2'. split; [now apply ev_rep_full|]. split; auto. intros E HH. cbn [fillg].
    destruct n; [|discriminate]. intros E2. apply andb_prop in E2. destruct E2 as [_ E2]. apply D; auto.
  - one_part IHev1 l0 y0.
    assert (l0 < length (q_c w1)) as Hl1 by (rewrite (ev_len _ _ _ _ _ _ _ _ _ H); auto).
    destruct (good_go _ _ _ _ _ _ _ _ _ l0 y0 c2' IHev2 H1 Hl1 Ha Hp B) as (c3 & A3 & B3 & D3).
    destruct (hole_dec d l0) as [HH|HH]; [destruct (negb (f_atomic q) || fills R q) eqn:E|].
    + assert (c2' = q_c w1) as -> by (apply D; auto).
      exists (q_c w'). rewrite !with_same in *. split; [eapply ev_rep_more; eauto|]. auto.
    + exists c3. split; [eapply ev_rep_more; eauto|]. split; auto. intros -> _. cbn [fillg]. rewrite E, andb_false_r.
      destruct n; discriminate.
    + exists c3. split; [eapply ev_rep_more; eauto|]. split; auto; intros _ HH'; now elim HH.
  (* the rest *)
  - one_part IHev l0 y0. exists c2'. split; [now apply (ev_not _ _ _ _ _ _ _ _ (with_c c2' w'))|]. split; auto; try discriminate.
  - one_part IHev l0 y0. exists c2'. split; [now apply ev_opt_ok|]. split; auto; try discriminate.
  - one_part IHev l0 y0. exists c2'. split; [now apply (ev_opt_ko _ _ _ _ _ _ _ (with_c c2' w'))|]. split; auto; try discriminate.
  - one_part IHev l0 y0; auto using away_nil. exists c2'. split; [now apply ev_discard|]. split; auto; try discriminate.
  - one_part IHev l0 y0. exists c2'. split; [now apply ev_lexeme|]. split; auto. intros E HH F. apply D; auto; cbn in *; rewrite ?F, ?orb_true_r; auto.
  - one_part IHev l0 y0. exists c2'. split; [now apply ev_skipper|]. split; auto. intros E HH F. apply D; auto; cbn in *; rewrite ?F, ?orb_true_r; auto.
  - one_part IHev l0 y0. exists c2'. split; [now apply ev_bind|]. split; auto.
  - destruct (buffered_goal _ _ _ _ _ _ _ _ _ _ _ l0 y0 (TTuple args) _ IHev Hp Hl H0) as (cs2 & N & B & A).
    destruct (assign_goal _ _ _ _ _ l0 y0 (eq_trans N (eq_sym H0)) ltac:(lia) Ha B H2) as (c2' & E & F & K).
    exists c2'. split; [eapply ev_construct_ok; eauto; cbn [q_c with_c]; now rewrite upd_len|]. split; auto.
  - destruct (buffered_goal _ _ _ _ _ _ _ _ _ _ _ l0 y0 (TTuple args) _ IHev Hp Hl H0) as (cs2 & N & B & A).
    exists cs2. split; [eapply (ev_construct_ko _ _ _ _ _ _ _ (with_c (upd (q_c w) l0 y0) w)); eauto; cbn [q_c with_c]; now rewrite upd_len|]. split; auto; try discriminate.
  - cbn in Hp. apply andb_prop in Hp. destruct Hp as [Hpa Hp]. apply negb_true_iff in Hpa.
    destruct (buffered_goal _ _ _ _ _ _ _ _ _ _ _ l0 y0 _ _ IHev Hp Hl H0) as (cs2 & N & B & A).
    destruct (act_goal _ _ _ _ _ _ _ _ _ l0 y0 Hpa (eq_trans N (eq_sym H0)) ltac:(lia) Ha B H1) as (c2' & E & F & K).
    exists c2'. split; [eapply ev_act_ok; eauto; cbn [q_c with_c]; now rewrite upd_len|]. split; auto.
    intros _ HH FF. apply K; auto. now apply negb_true_iff.
  - cbn in Hp. apply andb_prop in Hp. destruct Hp as [Hpa Hp].
    destruct (buffered_goal _ _ _ _ _ _ _ _ _ _ _ l0 y0 _ _ IHev Hp Hl H0) as (cs2 & N & B & A).
    exists cs2. split; [eapply (ev_act_ko _ _ _ _ _ _ _ (with_c (upd (q_c w) l0 y0) w)); eauto; cbn [q_c with_c]; now rewrite upd_len|]. split; auto; try discriminate.
  - cbn in Hp. apply andb_prop in Hp. destruct Hp as [Hp1 Hp2]. one_part IHev l0 y0; auto using away_nil.
    exists c2'. split; [now apply ev_exc_hit|]. split; auto; try discriminate.
  - cbn in Hp. apply andb_prop in Hp. destruct Hp as [Hp1 Hp2]. one_part IHev1 l0 y0; auto using away_nil.
    assert (l0 < length (q_c w1)) as Hl1 by (rewrite (ev_len _ _ _ _ _ _ _ _ _ H); auto).
    destruct (good_go _ _ _ _ _ _ _ _ _ l0 y0 c2' IHev2 H0 Hl1 Ha Hp1 B) as (c3 & A3 & B3 & D3).
    exists c3. split; [eapply ev_exc_go; eauto|]. split; auto. intros E HH F. apply D3; auto; cbn in *; rewrite ?F, ?orb_true_r; auto.
  - one_part IHev l0 y0. exists c2'. split; [now apply ev_list|]. split; auto; try discriminate.
  - cbn in Hp. apply andb_prop in Hp. destruct Hp as [Hp1 Hp2]. one_part IHev l0 y0.
    exists c2'. split; [now apply (ev_elem_end _ _ _ _ _ _ _ _ _ (with_c c2' w'))|]. split; auto; try discriminate.
  - pose proof Hp as Hp'. cbn in Hp. apply andb_prop in Hp. destruct Hp as [Hp1 Hp2]. one_part IHev1 l0 y0.
    assert (l0 < length (q_c w1)) as Hl1 by (rewrite (ev_len _ _ _ _ _ _ _ _ _ H); auto).
    destruct (good_go _ _ _ _ _ _ _ _ _ l0 y0 c2' IHev2 H0 Hl1 Ha Hp' B) as (c3 & A3 & B3 & D3).
    exists c3. split; [eapply ev_elem_next; eauto|]. split; auto; try discriminate.
  - cbn in Hp. apply andb_prop in Hp. destruct Hp as [Hp1 Hp2]. one_part IHev l0 y0; auto using away_nil.
    exists c2'. split; [now apply (ev_sep_end _ _ _ _ _ _ _ _ _ (with_c c2' w'))|]. split; auto; try discriminate.
  - pose proof Hp as Hp'. cbn in Hp. apply andb_prop in Hp. destruct Hp as [Hp1 Hp2]. one_part IHev1 l0 y0; auto using away_nil.
    assert (l0 < length (q_c w1)) as Hl1 by (rewrite (ev_len _ _ _ _ _ _ _ _ _ H); auto).
    destruct (good_go _ _ _ _ _ _ _ _ _ l0 y0 c2' IHev2 H0 Hl1 Ha Hp' B) as (c3 & A3 & B3 & D3).
    exists c3. split; [eapply ev_sep_next; eauto|]. split; auto; try discriminate.
  - one_part IHev l0 y0; eauto. exists c2'. split; [eapply ev_rec; eauto|]. split; auto. intros E HH F. apply D; auto.
    cbn in *. now rewrite (Hfills _ _ H).
Qed.

End Ev.
