(** The simulation of Rel.v, where the calls made before may differ, and where the first run
    may fail with an error that does not count when it ends marks it has not made. *)
From Coq Require Import List ZArith Bool Arith Lia.
From Verif Require Import Base CharSet Source Dst Pattern Parser Rel.
Import ListNotations.

Definition rel_out_or {S1 S2} (bad : err -> Prop) (R : S1 -> S2 -> Prop) (o1 : outcome S1) (o2 : outcome S2) : Prop :=
  match o1, o2 with
  | Done a, Done b => R a b
  | Err e, Err e' => bad e \/ e = e'
  | Err e, Done _ => bad e
  | Done _, Err _ => False
  end.

Record ops_rel_or {S1 S2} (bad : err -> Prop) (o1 : source_ops S1) (o2 : source_ops S2) (R : S1 -> S2 -> Prop) : Prop := {
  oo_empty : forall a b, R a b -> so_empty o1 a = so_empty o2 b;
  oo_final : forall a b, R a b -> so_final o1 a = so_final o2 b;
  oo_next : forall a b, R a b -> so_next o1 a = so_next o2 b;
  oo_advance : forall a b, R a b -> rel_out_or bad R (so_advance o1 a) (so_advance o2 b);
  oo_prepare : forall a b, R a b -> R (so_prepare o1 a) (so_prepare o2 b);
  oo_commit : forall a b, R a b -> rel_out_or bad R (so_commit o1 a) (so_commit o2 b);
  oo_cancel : forall a b, R a b -> rel_out_or bad R (so_cancel o1 a) (so_cancel o2 b) }.

Lemma ops_rel_weaken {S1 S2} bad (o1 : source_ops S1) (o2 : source_ops S2) R : ops_rel o1 o2 R -> ops_rel_or bad o1 o2 R.
Proof.
  assert (forall x y, rel_out R x y -> rel_out_or bad R x y) as H.
  { intros x y. unfold rel_out, rel_out_or. destruct x, y; auto. intros []. }
  intros []. split; auto.
Qed.

Section Shift.
Context {S1 S2 : Type} (o1 : source_ops S1) (o2 : source_ops S2) (R : S1 -> S2 -> Prop).
Context (RT : list event -> list event -> Prop).
Context (bad : err -> Prop).
Hypothesis HRT : forall e a b, RT a b -> RT (e :: a) (e :: b).
Hypothesis Hops : ops_rel_or bad o1 o2 R.
Hypothesis Hfuel : bad EFuel.
(** Either both machines dispatch alike, or the first one gives up with EShape. *)
Hypothesis Hres : so_resumable o1 = so_resumable o2 \/ (so_resumable o2 = true /\ bad EShape).

Definition gRw (w1 : world S1) (w2 : world S2) : Prop :=
  R (w_src w1) (w_src w2) /\ w_cells w1 = w_cells w2 /\ RT (w_trace w1) (w_trace w2).

Definition glsim {A} (m1 : M S1 A) (m2 : M S2 A) : Prop :=
  forall w1 w2, gRw w1 w2 ->
  match m1 w1 with
  | Done (a, w1') => exists w2', m2 w2 = Done (a, w2') /\ gRw w1' w2'
  | Err e => bad e \/ m2 w2 = Err e
  end.

Lemma glsim_ret {A} (a : A) : glsim (ret a) (ret a).
Proof. intros w1 w2 H. exists w2. split; [reflexivity|exact H]. Qed.

Lemma glsim_raise {A} e : glsim (@raise S1 A e) (@raise S2 A e).
Proof. intros w1 w2 H. cbn. auto. Qed.

Lemma glsim_bad {A} e (m : M S2 A) : bad e -> glsim (@raise S1 A e) m.
Proof. intros He w1 w2 H. cbn. auto. Qed.

Lemma glsim_bind {A B} (m1 : M S1 A) m2 (f1 : A -> M S1 B) f2 :
  glsim m1 m2 -> (forall a, glsim (f1 a) (f2 a)) -> glsim (bind m1 f1) (bind m2 f2).
Proof.
  intros Hm Hf w1 w2 H. unfold bind. specialize (Hm w1 w2 H).
  destruct (m1 w1) as [[a w1']|e].
  - destruct Hm as (w2' & -> & H'). apply (Hf a _ _ H').
  - destruct Hm as [?| ->]; auto.
Qed.

Lemma glsim_on_cells f : glsim (on_cells f) (on_cells f).
Proof.
  intros w1 w2 (Hr & Hc & Ht). unfold on_cells. rewrite Hc.
  destruct (f (w_cells w2)); auto. eexists. split; [reflexivity|]. repeat split; auto.
Qed.

Lemma glsim_empty : glsim (m_empty o1) (m_empty o2).
Proof.
  intros w1 w2 H. unfold m_empty. rewrite (oo_empty _ _ _ _ Hops _ _ (proj1 H)).
  exists w2. split; [reflexivity|exact H].
Qed.

Lemma glsim_final : glsim (m_final o1) (m_final o2).
Proof.
  intros w1 w2 H. unfold m_final. rewrite (oo_final _ _ _ _ Hops _ _ (proj1 H)).
  exists w2. split; [reflexivity|exact H].
Qed.

Lemma glsim_next : glsim (m_next o1) (m_next o2).
Proof.
  intros w1 w2 H. unfold m_next. rewrite (oo_next _ _ _ _ Hops _ _ (proj1 H)).
  destruct (so_next o2 (w_src w2)); auto. exists w2. split; [reflexivity|exact H].
Qed.

Lemma glsim_src f1 f2 :
  (forall a b, R a b -> rel_out_or bad R (f1 a) (f2 b)) -> glsim (m_src f1) (m_src f2).
Proof.
  intros Hf w1 w2 (Hr & Hc & Ht). unfold m_src. specialize (Hf _ _ Hr). unfold rel_out_or in Hf.
  destruct (f1 (w_src w1)), (f2 (w_src w2)); try contradiction; subst; auto.
  2: { destruct Hf; [|subst]; auto. }
  eexists. split; [reflexivity|]. repeat split; auto.
Qed.

Lemma glsim_advance : glsim (m_advance o1) (m_advance o2).
Proof. apply glsim_src, (oo_advance _ _ _ _ Hops). Qed.
Lemma glsim_prepare : glsim (m_prepare o1) (m_prepare o2).
Proof. apply glsim_src. intros. cbn. now apply (oo_prepare _ _ _ _ Hops). Qed.
Lemma glsim_commit : glsim (m_commit o1) (m_commit o2).
Proof. apply glsim_src, (oo_commit _ _ _ _ Hops). Qed.
Lemma glsim_cancel : glsim (m_cancel o1) (m_cancel o2).
Proof. apply glsim_src, (oo_cancel _ _ _ _ Hops). Qed.

Lemma glsim_assign d v : glsim (m_assign d v) (m_assign d v).
Proof. apply glsim_on_cells. Qed.

Lemma glsim_with_cell {A} v (f1 : nat -> M S1 A) f2 :
  (forall l, glsim (f1 l) (f2 l)) -> glsim (with_cell v f1) (with_cell v f2).
Proof.
  intros Hf w1 w2 (Hr & Hc & Ht). unfold with_cell. rewrite Hc.
  specialize (Hf (length (w_cells w2))
                 (World (w_src w1) (w_cells w2 ++ [v]) (w_trace w1))
                 (World (w_src w2) (w_cells w2 ++ [v]) (w_trace w2))).
  destruct (f1 _ _) as [[a w1']|e].
  - destruct Hf as (w2' & -> & Hr' & Hc' & Ht'); [repeat split; auto|].
    rewrite Hc'. destruct (nth_error (w_cells w2') _); auto.
    eexists. split; [reflexivity|]. repeat split; auto.
  - destruct Hf as [?| ->]; auto. repeat split; auto.
Qed.

Lemma glsim_act_dispatch a land d c : glsim (act_dispatch a land d c) (act_dispatch a land d c).
Proof.
  unfold act_dispatch. destruct (conv (ac_land a) land); [|apply glsim_raise].
  intros w1 w2 (Hr & Hc & Ht). rewrite Hc.
  destruct (if ac_param a then load (w_cells w2) (c_bound c) else Done VNil) as [b|]; auto.
  destruct (ac_fun a a0 b) as [r b'].
  destruct (if ac_param a then _ else _); auto.
  destruct (ac_void a).
  - eexists. split; [reflexivity|]. repeat split; cbn; auto.
  - apply glsim_assign. repeat split; cbn; auto.
Qed.

Definition gskip_rel (k1 : option (M S1 pst)) (k2 : option (M S2 pst)) : Prop :=
  match k1, k2 with
  | None, None => True
  | Some a, Some b => glsim a b
  | _, _ => False
  end.

Ltac gstep :=
  match goal with
  | |- glsim (ret _) (ret _) => apply glsim_ret
  | |- glsim (raise _) (raise _) => apply glsim_raise
  | |- glsim (bind _ _) (bind _ _) => apply glsim_bind; [|intro]
  | |- glsim (on_cells _) (on_cells _) => apply glsim_on_cells
  | |- glsim (m_empty _) (m_empty _) => apply glsim_empty
  | |- glsim (m_final _) (m_final _) => apply glsim_final
  | |- glsim (m_next _) (m_next _) => apply glsim_next
  | |- glsim (m_advance _) (m_advance _) => apply glsim_advance
  | |- glsim (m_prepare _) (m_prepare _) => apply glsim_prepare
  | |- glsim (m_commit _) (m_commit _) => apply glsim_commit
  | |- glsim (m_cancel _) (m_cancel _) => apply glsim_cancel
  | |- glsim (m_assign _ _) (m_assign _ _) => apply glsim_assign
  | |- glsim (with_cell _ _) (with_cell _ _) => apply glsim_with_cell; intro
  | |- glsim (act_dispatch _ _ _ _) (act_dispatch _ _ _ _) => apply glsim_act_dispatch
  | |- glsim (if ?b then _ else _) (if ?b then _ else _) => destruct b
  | |- glsim (match ?x with _ => _ end) (match ?x with _ => _ end) => destruct x
  | |- glsim (let '(_, _) := ?x in _) (let '(_, _) := ?x in _) => destruct x
  end.

Lemma glsim_adapt k1 k2 rq d p raw1 raw2 :
  gskip_rel k1 k2 -> (forall rq d, glsim (raw1 rq d) (raw2 rq d)) ->
  glsim (adapt o1 k1 rq d p raw1) (adapt o2 k2 rq d p raw2).
Proof.
  intros Hk Hr. unfold adapt.
  destruct (r_recur rq); auto.
  assert (forall rq, glsim
    (if r_atomic rq && negb (f_atomic p)
     then bind (with_cell (default_init (dst_value_ty d))
            (fun lvl => raw1 (unatomic_req rq) (dst_cell lvl (dst_value_ty d))))
          (fun x => ret (PAtomic (snd x) (fst x))) else raw1 rq d)
    (if r_atomic rq && negb (f_atomic p)
     then bind (with_cell (default_init (dst_value_ty d))
            (fun lvl => raw2 (unatomic_req rq) (dst_cell lvl (dst_value_ty d))))
          (fun x => ret (PAtomic (snd x) (fst x))) else raw2 rq d)) as HA.
  { intros. repeat gstep; auto. }
  destruct k1 as [k1|], k2 as [k2|]; try contradiction; repeat gstep; auto.
Qed.

Lemma glsim_create_in p : forall k1 k2 rq d,
  gskip_rel k1 k2 -> glsim (create_in o1 k1 rq d p) (create_in o2 k2 rq d p).
Proof.
  induction p using pat_ind'; intros k1 k2 rq d Hk; cbn [create_in];
    apply glsim_adapt; auto; intros rq' d'; repeat gstep; auto.
  all: try (inversion H; subst; auto; fail).
  - apply IHp. exact I.
  - apply IHp1. destruct (is_fail p2); cbn; auto. apply IHp2. exact I.
Qed.

Lemma gskip_rel_of c : gskip_rel (mk_skip_of o1 c) (mk_skip_of o2 c).
Proof.
  unfold mk_skip_of. destruct (is_fail (c_skip c)); cbn; auto. apply glsim_create_in. exact I.
Qed.

Lemma glsim_create c rq d p : glsim (create o1 c rq d p) (create o2 c rq d p).
Proof. apply glsim_create_in, gskip_rel_of. Qed.

Context (env : nat -> option pat).

Definition glsim_self (s1 : @consume_ty S1) (s2 : @consume_ty S2) : Prop :=
  forall c rq d p st, glsim (s1 c rq d p st) (s2 c rq d p st).

Section Classes.
Context (s1 : @consume_ty S1) (s2 : @consume_ty S2) (Hs : glsim_self s1 s2).

Ltac go := repeat gstep; auto using glsim_create.

Lemma glsim_seq_from c d l : forall rest i q a,
  glsim (seq_from o1 s1 c d l i q rest a) (seq_from o2 s2 c d l i q rest a).
Proof. induction rest as [|q' rest IH]; intros; cbn; go. Qed.

Lemma glsim_alt_from c rq d : forall rest i q a,
  glsim (alt_from o1 s1 c rq d i q rest a) (alt_from o2 s2 c rq d i q rest a).
Proof. induction rest as [|q' rest IH]; intros; cbn; go. Qed.

Lemma glsim_nary l i k1 k2 :
  (forall q rest, glsim (k1 q rest) (k2 q rest)) -> glsim (nary_enter o1 l i k1) (nary_enter o2 l i k2).
Proof.
  intros Hk. unfold nary_enter. destruct Hres as [-> | [-> Hb]].
  - go.
  - cbn. destruct (negb (so_resumable o1) && negb (i =? 0)); [now apply glsim_bad|go].
Qed.

Lemma glsim_gstep : glsim_self (consume_step o1 env s1) (consume_step o2 env s2).
Proof.
  intros c rq d p st. unfold consume_step.
  destruct st;
    [ unfold skip_consume | unfold clean_consume | unfold atomic_consume | .. ]; [go.. | | | | | | | | | | | | | | | ].
  all: destruct p; try apply glsim_raise; try apply glsim_ret;
    unfold char_consume, char_symbol_consume, eoi_consume, lit_consume, starved, sym_consume, sym_stop, uint_consume,
           int_consume, int_digit, int_negate, repeat_consume, not_consume, opt_consume,
           forward_consume, construct_consume, action_consume, except_consume, list_consume,
           recur_consume.
  all: try (apply glsim_nary; intros; first [apply glsim_seq_from | apply glsim_alt_from]).
  all: go.
Qed.
End Classes.

Lemma glsim_consume n : forall m, n <= m -> glsim_self (consume o1 env n) (consume o2 env m).
Proof.
  induction n as [|n IH]; intros m H c rq d p st.
  - apply glsim_bad, Hfuel.
  - destruct m as [|m]; [lia|]. cbn. apply glsim_gstep. apply IH. lia.
Qed.

(** With the same fuel, running out of it is no excuse. *)
Lemma glsim_consume_same n : glsim_self (consume o1 env n) (consume o2 env n).
Proof.
  induction n as [|n IH]; intros c rq d p st.
  - apply glsim_raise.
  - cbn. now apply glsim_gstep.
Qed.

End Shift.

(** The first run has called actions before. *)
Definition later (T0 a b : list event) : Prop := a = b ++ T0.
Lemma later_cons T0 e a b : later T0 a b -> later T0 (e :: a) (e :: b).
Proof. unfold later. now intros ->. Qed.
Definition tlsim {S1 S2} (R : S1 -> S2 -> Prop) (T0 : list event) (bad : err -> Prop) {A} : M S1 A -> M S2 A -> Prop := glsim R (later T0) bad.
Lemma tlsim_bind {S1 S2} (R : S1 -> S2 -> Prop) T0 bad {A B} (m1 : M S1 A) m2 (f1 : A -> M S1 B) f2 :
  tlsim R T0 bad m1 m2 -> (forall a, tlsim R T0 bad (f1 a) (f2 a)) -> tlsim R T0 bad (bind m1 f1) (bind m2 f2).
Proof. apply glsim_bind. Qed.
Lemma tlsim_create {S1 S2} o1 o2 (R : S1 -> S2 -> Prop) T0 bad : ops_rel o1 o2 R ->
  forall c rq d p, tlsim R T0 bad (create o1 c rq d p) (create o2 c rq d p).
Proof. intros H c rq d p. apply glsim_create; auto using later_cons, ops_rel_weaken. Qed.
Lemma tlsim_consume_same {S1 S2} o1 o2 (R : S1 -> S2 -> Prop) T0 bad : ops_rel o1 o2 R ->
  so_resumable o1 = so_resumable o2 \/ so_resumable o2 = true /\ bad EShape ->
  forall env n c rq d p st, tlsim R T0 bad (consume o1 env n c rq d p st) (consume o2 env n c rq d p st).
Proof. intros H Hr env n c rq d p st. apply glsim_consume_same; auto using later_cons, ops_rel_weaken. Qed.
