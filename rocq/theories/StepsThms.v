(** How many steps forward a parser takes (C69): powers of the length, and parse(). *)
From Coq Require Import List ZArith Bool Arith Lia.
From Verif Require Import Base CharSet Source Dst Pattern Parser Session SpecTerm SpecSteps Rel Safety SourceProofs Limit SessionProofs Term TermThms Cost.
Import ListNotations.

(** ** Powers *)
Definition poly (d : nat) (f : nat -> nat) : Prop := exists c, forall n, f n <= c * (n + 1) ^ d.

Lemma pow_le d d' n : d <= d' -> (n + 1) ^ d <= (n + 1) ^ d'.
Proof. intros H. apply Nat.pow_le_mono_r; lia. Qed.

Lemma poly_up d d' f : d <= d' -> poly d f -> poly d' f.
Proof.
  intros H [c Hc]. exists c. intros n. etransitivity; [apply Hc|]. apply Nat.mul_le_mono_l, pow_le, H.
Qed.

Lemma poly_const c d : poly d (fun _ => c).
Proof. apply (poly_up 0); [lia|]. exists c. intros n. cbn. lia. Qed.

Lemma poly_add d f g : poly d f -> poly d g -> poly d (fun n => f n + g n).
Proof.
  intros [c Hc] [c' Hc']. exists (c + c'). intros n. rewrite Nat.mul_add_distr_r. now apply Nat.add_le_mono.
Qed.

Lemma poly_scale k d f : poly d f -> poly d (fun n => k * f n).
Proof. intros [c Hc]. exists (k * c). intros n. rewrite <- Nat.mul_assoc. now apply Nat.mul_le_mono_l. Qed.

Lemma poly_loop d f : poly d f -> poly (S d) (fun n => f n * n).
Proof.
  intros [c Hc]. exists c. intros n. replace (c * (n + 1) ^ S d) with (c * (n + 1) ^ d * (n + 1)) by (cbn [Nat.pow]; lia).
  apply Nat.mul_le_mono; [apply Hc|lia].
Qed.

Lemma poly_id d : poly (S d) (fun n => n).
Proof. apply (poly_up 1); [lia|]. exists 1. intros n. cbn. lia. Qed.

Ltac up := first [eapply poly_up; [|eassumption]; lia
  | apply poly_add; up | apply poly_scale; up | apply poly_const | apply poly_id].

(** ** Bills *)
Definition polys (g : growth) (c : nat -> costs) : Prop :=
  poly (g_each g) (fun n => c_each (c n)) /\ poly (g_more g) (fun n => c_more (c n)) /\
  poly (g_all g) (fun n => c_all (c n)) /\ poly (g_fail g) (fun n => c_fail (c n)).

Transparent bill.

Lemma polys_later k kn g c : poly k kn -> polys g c -> polys (later k g) (fun n => plus_costs (kn n) (c n)).
Proof. intros Hk (A & B & C & D). repeat split; cbn; up. Qed.

Lemma bill_poly p : forall k kn, poly k kn -> polys (grows k p) (fun n => bill n (kn n) p).
Proof.
  induction p using pat_ind'; intros k kn Hk; cbn [grows bill]; apply polys_later; try exact Hk.
  all: try (repeat split; cbn; apply poly_const).
  all: try (apply IHp; assumption).
  - destruct (0 <? hi)%Z; repeat split; cbn; up.
  - destruct (0 <? hi)%Z; repeat split; cbn; up.
  - induction H as [|q t Hq Ht IH]; [repeat split; cbn; up|]. destruct t as [|q' t]; [now apply Hq|].
    specialize (Hq k kn Hk). destruct Hq as (A & B & C & D), IH as (A' & B' & C' & D'). repeat split; cbn [c_each c_more c_all c_fail g_each g_more g_all g_fail]; up.
  - induction H as [|q t Hq Ht IH]; [repeat split; cbn; up|]. destruct t as [|q' t]; [now apply Hq|].
    specialize (Hq k kn Hk). destruct Hq as (A & B & C & D), IH as (A' & B' & C' & D'). repeat split; cbn [c_each c_more c_all c_fail g_each g_more g_all g_fail]; up.
  - specialize (IHp k kn Hk). destruct IHp as (A & B & C & D). cbv zeta.
    assert (F : poly (if lo =? 0 then 0 else Nat.max (g_all (grows k p)) (g_fail (grows k p))) (fun n => if lo =? 0 then 0 else lo * c_all (bill n (kn n) p) + c_fail (bill n (kn n) p))) by (destruct (lo =? 0); up).
    destruct (hi =? 0); repeat split; cbn [c_each c_more c_all c_fail g_each g_more g_all g_fail]; try exact F; try up.
    apply poly_add; [|up]. apply (poly_up (S (Nat.max (g_each (grows k p)) (g_more (grows k p))))); [lia|]. apply poly_loop. up.
  - specialize (IHp k kn Hk). destruct IHp as (A & B & C & D). repeat split; cbn [c_each c_more c_all c_fail g_each g_more g_all g_fail]; up.
  - specialize (IHp k kn Hk). destruct IHp as (A & B & C & D). repeat split; cbn [c_each c_more c_all c_fail g_each g_more g_all g_fail]; up.
  - apply (IHp 0 (fun _ => 0)), poly_const.
  - destruct (is_fail p2); [apply (IHp1 0 (fun _ => 0)), poly_const|]. cbv zeta.
    apply (IHp1 _ (fun n => skipping n (bill n 0 p2))). specialize (IHp2 0 (fun _ => 0) (poly_const 0 0)). destruct IHp2 as (A & B & C & D).
    unfold skipping. apply poly_add; [|up]. apply (poly_up (S (Nat.max (g_each (grows 0 p2)) (g_more (grows 0 p2))))); [lia|]. apply poly_loop. up.
  - specialize (IHp1 k kn Hk). destruct IHp1 as (A & B & C & D). specialize (IHp2 k kn Hk). destruct IHp2 as (A' & B' & C' & D').
    repeat split; cbn [c_each c_more c_all c_fail g_each g_more g_all g_fail]; up.
  - specialize (IHp1 k kn Hk). destruct IHp1 as (A & B & C & D). specialize (IHp2 k kn Hk). destruct IHp2 as (A' & B' & C' & D').
    cbv zeta. repeat split; cbn [c_each c_more c_all c_fail g_each g_more g_all g_fail]; try up.
    apply poly_add; [|up]. eapply poly_up; [apply Nat.le_max_l|]. apply poly_loop. up.
Qed.

(** ** The nesting of loops bounds the order *)
Lemma depth_least p : forall k, k <= depth k p.
Proof.
  induction p using pat_ind'; intros k; cbn [depth]; try lia; try (specialize (IHp k); lia).
  - induction H as [|q t Hq Ht IH]; cbn; lia.
  - induction H as [|q t Hq Ht IH]; cbn; lia.
  - specialize (IHp k). destruct (hi =? 0); lia.
  - specialize (IHp1 k). lia.
  - specialize (IHp1 k). lia.
Qed.

Definition below (g : growth) (d : nat) : Prop := g_each g <= d /\ g_more g <= d /\ g_all g <= d /\ g_fail g <= d.

Lemma below_later k g d : k <= d -> below g d -> below (later k g) d.
Proof. intros H (A & B & C & D). repeat split; cbn; lia. Qed.

Lemma below_le g d d' : d <= d' -> below g d -> below g d'.
Proof. intros H (A & B & C & D). repeat split; lia. Qed.

Lemma grows_below p : forall k k', k <= k' -> below (grows k p) (depth k' p).
Proof.
  induction p using pat_ind'; intros k k' Hk; cbn [grows]; (apply below_later; [etransitivity; [exact Hk|apply depth_least]|]); cbn [depth].
  all: try (repeat split; cbn; lia).
  all: try (apply IHp; assumption).
  - induction H as [|q t Hq Ht IH]; [repeat split; cbn; lia|]. specialize (Hq k k' Hk). cbn [map fold_right]. destruct t as [|q' t]; [eapply below_le; [|exact Hq]; lia|].
    destruct Hq as (A & B & C & D), IH as (A' & B' & C' & D'). repeat split; cbn [g_each g_more g_all g_fail]; lia.
  - induction H as [|q t Hq Ht IH]; [repeat split; cbn; lia|]. specialize (Hq k k' Hk). cbn [map fold_right]. destruct t as [|q' t]; [eapply below_le; [|exact Hq]; lia|].
    destruct Hq as (A & B & C & D), IH as (A' & B' & C' & D'). repeat split; cbn [g_each g_more g_all g_fail]; lia.
  - specialize (IHp k k' Hk). destruct IHp as (A & B & C & D). cbv zeta. destruct (hi =? 0), (lo =? 0); repeat split; cbn [g_each g_more g_all g_fail]; lia.
  - specialize (IHp k k' Hk). destruct IHp as (A & B & C & D). repeat split; cbn [g_each g_more g_all g_fail]; lia.
  - specialize (IHp k k' Hk). destruct IHp as (A & B & C & D). repeat split; cbn [g_each g_more g_all g_fail]; lia.
  - eapply below_le; [|apply (IHp 0 0); lia]. lia.
  - destruct (is_fail p2); [eapply below_le; [|apply (IHp1 0 0); lia]; lia|]. cbv zeta.
    specialize (IHp2 0 0 (le_n 0)). destruct IHp2 as (A & B & C & D). eapply below_le; [|apply (IHp1 _ (S (depth 0 p2))); lia]. lia.
  - specialize (IHp1 k k' Hk). destruct IHp1 as (A & B & C & D). specialize (IHp2 k k' Hk). destruct IHp2 as (A' & B' & C' & D').
    repeat split; cbn [g_each g_more g_all g_fail]; lia.
  - specialize (IHp1 k k' Hk). destruct IHp1 as (A & B & C & D). specialize (IHp2 k k' Hk). destruct IHp2 as (A' & B' & C' & D').
    cbv zeta. repeat split; cbn [g_each g_more g_all g_fail]; lia.
Qed.

Lemma order_below p : order p <= depth 0 p.
Proof. pose proof (grows_below p 0 0 (le_n 0)) as (A & B & C & D). unfold order. lia. Qed.

(** ** Counting over two sources *)
Definition Rc {S1 S2} (R : S1 -> S2 -> Prop) (x : S1 * nat) (y : S2 * nat) : Prop := R (fst x) (fst y) /\ snd x = snd y.

Lemma ops_rel_counted {S1 S2} (o1 : source_ops S1) (o2 : source_ops S2) R : ops_rel o1 o2 R -> ops_rel (counted o1) (counted o2) (Rc R).
Proof.
  intros []. constructor; intros [a k] [b k'] [H E]; cbn [fst snd] in *; subst; cbn; auto.
  - specialize (or_advance _ _ H). destruct (so_advance o1 a), (so_advance o2 b); cbn in *; auto. split; cbn; auto.
  - split; cbn; auto.
  - specialize (or_commit _ _ H). destruct (so_commit o1 a), (so_commit o2 b); cbn in *; auto. split; cbn; auto.
  - specialize (or_cancel _ _ H). destruct (so_cancel o1 a), (so_cancel o2 b); cbn in *; auto. split; cbn; auto.
Qed.

(** Without the counter. *)
Lemma ops_rel_uncounted {S} (o : source_ops S) : ops_rel o (counted o) (fun x y => x = fst y).
Proof.
  constructor; intros a [b k] E; cbn [fst] in E; subst; cbn; auto.
  - destruct (so_advance o b); cbn; auto.
  - destruct (so_commit o b); cbn; auto.
  - destruct (so_cancel o b); cbn; auto.
Qed.

Lemma parse_counted_parse env n t v p inp :
  match parse env n t v p inp with
  | Done (r, _) => exists k, parse_counted env n t v p inp = Done (r, k)
  | Err e => parse_counted env n t v p inp = Err e
  end.
Proof.
  unfold parse, parse_counted.
  assert (HR : Rw (fun x y => x = fst y) (World (sf_make inp) [v] []) (World (sf_make inp, 0) [v] [])) by (repeat split).
  pose proof (lsim_top_run env t p sf_ops (counted sf_ops) _ never n (ops_rel_uncounted sf_ops) (or_introl eq_refl) _ _ HR) as HT.
  destruct (top_run sf_ops _ _ _ _ _) as [[[r st] w]|e].
  - destruct HT as (w' & -> & Hw). eauto.
  - destruct HT as [[]| ->]; reflexivity.
Qed.

(** ** parse() *)
Lemma parse_bill rank env n t v p inp r k : plain p = true -> guarded (fun _ => false) rank None p = true ->
  parse_counted env n t v p inp = Done (r, k) -> k <= c_all (bill (length inp) 0 p) + c_fail (bill (length inp) 0 p).
Proof.
  intros Hp Hg. unfold parse_counted.
  assert (HR : Rw (Rc R_sf) (World (sf_make inp, 0) [v] []) (World (Cursor inp true 0 [], 0) [v] [])) by (repeat split; apply R_sf_init).
  pose proof (lsim_top_run env t p (counted sf_ops) (counted (a_ops true)) (Rc R_sf) (fun e => e = EShape) n (ops_rel_counted _ _ _ (ops_rel_sf true))
               (or_intror (conj eq_refl eq_refl)) _ _ HR) as HT.
  destruct (top_run (counted sf_ops) _ _ _ _ _) as [[[r' st] w]|e]; [|discriminate]. intros [= -> <-].
  destruct HT as (w' & HT & (_ & ->) & _).
  assert (H0 : Cost.St inp 0 [] 0 (World (Cursor inp true 0 [], 0) [v] [])) by (constructor; cbn; auto; [lia|exists []; repeat split; auto]).
  assert (G0 : good inp env Fail 0) by now left.
  unfold top_run, bind in HT. destruct (top_create _ _ _ _) as [[st0 w0]|] eqn:E; [|discriminate].
  destruct (h_create inp Fail (top_dst t) _ _ _ _ _ _ _ H0 0 _ _ E) as (A2 & B2 & B2' & C2 & O2 & _).
  destruct (run_pat inp env rank p Hp None Hg Fail 0 G0 (top_dst t) st0 C2 O2 default_req (top_dst t) 0 [] 0 w0 A2 n _ _ HT) as (_ & _ & P).
  cbn [fst] in P. rewrite B2' in P. unfold paid, cost in P. cbn [w_src snd] in P. destruct r; [destruct P as [_ P]| |destruct P]; lia.
Qed.

Lemma parse_order rank p : plain p = true -> guarded (fun _ => false) rank None p = true ->
  within (order p) (fun inp k => exists env n t v r, parse_counted env n t v p inp = Done (r, k)).
Proof.
  intros Hp Hg. destruct (bill_poly p 0 (fun _ => 0) (poly_const 0 0)) as (_ & _ & A & F).
  assert (P : poly (order p) (fun n => c_all (bill n 0 p) + c_fail (bill n 0 p))) by (unfold order; up).
  destruct P as [c Hc]. exists c. intros inp k (env & n & t & v & r & E). etransitivity; [|apply Hc].
  eapply parse_bill; eauto.
Qed.

Lemma parse_depth rank p : plain p = true -> guarded (fun _ => false) rank None p = true ->
  within (depth 0 p) (fun inp k => exists env n t v r, parse_counted env n t v p inp = Done (r, k)).
Proof.
  intros Hp Hg. destruct (parse_order rank p Hp Hg) as [c Hc]. exists c. intros inp k H. etransitivity; [apply (Hc inp k H)|].
  apply Nat.mul_le_mono_l, pow_le, order_below.
Qed.
