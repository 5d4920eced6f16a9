(** Two runs that differ in what the destination holds only. *)
From Coq Require Import List ZArith Bool Arith Lia.
From Verif Require Import Base CharSet Source Dst Pattern Parser Session SpecGrow Rel.
Import ListNotations.

Section Grow.
Context {S : Type} (ops : source_ops S) (env : nat -> option pat).
(** The destination, what it may hold in the one run and in the other, the errors that the
    first run may make alone, and the actions. *)
Context (T : ty) (R : val -> val -> Prop) (excused : err -> Prop) (P : action -> Prop).

Definition Gw (w1 w2 : world S) : Prop :=
  w_src w1 = w_src w2 /\ w_trace w1 = w_trace w2 /\
  exists v1 v2 r, w_cells w1 = v1 :: r /\ w_cells w2 = v2 :: r /\ R v1 v2.

Definition gsim {A} (m : M S A) : Prop :=
  forall w1 w2, Gw w1 w2 ->
  match m w1 with
  | Done (a, w1') => exists w2', m w2 = Done (a, w2') /\ Gw w1' w2'
  | Err e => excused e \/ m w2 = Err e
  end.

Definition gcells (f : list val -> outcome (list val)) : Prop :=
  forall v1 v2 r, R v1 v2 ->
  match f (v1 :: r) with
  | Done c => exists v1' v2' r', c = v1' :: r' /\ f (v2 :: r) = Done (v2' :: r') /\ R v1' v2'
  | Err e => excused e \/ f (v2 :: r) = Err e
  end.

Context (Htuple : forall l, T <> TTuple l).
Context (Hassign : forall x, gcells (fun c => assign c (DRef 0 [] T) x)).
Context (Hzero : gcells (fun c => num_zero c (DRef 0 [] T))).
Context (Hop : forall f, gcells (fun c => num_op f c (DRef 0 [] T))).
Context (Hact : forall a, P a -> ac_param a = true -> forall x v1 v2, R v1 v2 ->
  fst (ac_fun a x v1) = fst (ac_fun a x v2) /\
  has_ty T (snd (ac_fun a x v1)) = has_ty T (snd (ac_fun a x v2)) /\
  (has_ty T (snd (ac_fun a x v1)) = true -> R (snd (ac_fun a x v1)) (snd (ac_fun a x v2)))).
Context (Henv : every_action_in P env).

Definition Gd (d : dst) : Prop :=
  match d with DRef 0 p t => p = [] /\ t = T | _ => True end.

Lemma gsim_ret {A} (a : A) : gsim (ret a).
Proof. intros w1 w2 H. exists w2. split; [reflexivity|exact H]. Qed.
Lemma gsim_raise {A} e : gsim (@raise S A e).
Proof. intros w1 w2 H. cbn. auto. Qed.
Lemma gsim_bind {A B} (m : M S A) (f : A -> M S B) :
  gsim m -> (forall a, gsim (f a)) -> gsim (bind m f).
Proof.
  intros Hm Hf w1 w2 H. unfold bind. specialize (Hm w1 w2 H).
  destruct (m w1) as [[a w1']|e].
  - destruct Hm as (w2' & -> & H'). apply (Hf a _ _ H').
  - destruct Hm as [?| ->]; auto.
Qed.
Lemma gsim_on_cells f : gcells f -> gsim (on_cells f).
Proof.
  intros Hf w1 w2 (H1 & H2 & v1 & v2 & r & E1 & E2 & HR). unfold on_cells. specialize (Hf _ _ r HR).
  rewrite E1, E2. destruct (f (v1 :: r)).
  - destruct Hf as (v1' & v2' & r' & -> & -> & HR'). eexists. split; [reflexivity|].
    split; [auto|]. split; [auto|]. cbn. eauto 8.
  - destruct Hf as [|Hf]; auto. rewrite Hf. auto.
Qed.

(** Cells other than the destination are the same in both. *)
Lemma store_buf k p t x : gcells (fun c => store c (DRef (Datatypes.S k) p t) x).
Proof.
  intros v1 v2 r HR. cbn. destruct (nth_error r k) as [v|]; cbn; auto.
  destruct (set_path v p x); cbn; auto. eauto 8.
Qed.
Lemma load_buf k p t v1 v2 r : load (v1 :: r) (DRef (Datatypes.S k) p t) = load (v2 :: r) (DRef (Datatypes.S k) p t).
Proof. reflexivity. Qed.
Lemma gcells_err e : gcells (fun _ => Err e).
Proof. intros v1 v2 r HR. auto. Qed.
Lemma gcells_same : gcells (fun c => Done c).
Proof. intros v1 v2 r HR. eauto 8. Qed.

Lemma gcells_assign d x : Gd d -> gcells (fun c => assign c d x).
Proof.
  destruct d as [|[|k] p t]; intros Hd.
  - apply gcells_same.
  - destruct Hd as [-> ->]. apply Hassign.
  - intros v1 v2 r HR. pose proof (store_buf k p t) as HS.
    destruct t; cbn [assign]; try (destruct (conv _ x) as [y|]; cbn [obind]; [exact (HS y v1 v2 r HR)|auto]).
    destruct (conv t x) as [y|]; cbn [obind]; [|auto]. rewrite (load_buf k p (TColl t) v1 v2 r).
    destruct (load _ _) as [c|]; cbn [obind]; [|auto]. destruct c; auto. exact (HS _ v1 v2 r HR).
Qed.
Lemma gcells_zero d : Gd d -> gcells (fun c => num_zero c d).
Proof.
  destruct d as [|[|k] p t]; intros Hd.
  - apply gcells_same.
  - destruct Hd as [-> ->]. apply Hzero.
  - destruct t; try apply gcells_err. apply store_buf.
Qed.
Lemma gcells_op f d : Gd d -> gcells (fun c => num_op f c d).
Proof.
  destruct d as [|[|k] p t]; intros Hd.
  - apply gcells_same.
  - destruct Hd as [-> ->]. apply Hop.
  - destruct t; try apply gcells_err. intros v1 v2 r HR. cbn [num_op].
    rewrite (load_buf k p (TNum signed bits) v1 v2 r).
    destruct (load _ _) as [c|]; cbn [obind]; [|auto]. destruct c; auto.
    destruct (arith _ _ _); cbn [obind]; auto. exact (store_buf k p _ _ v1 v2 r HR).
Qed.
Lemma gsim_assign d x : Gd d -> gsim (m_assign d x).
Proof. intros. now apply gsim_on_cells, gcells_assign. Qed.

Lemma gsim_empty : gsim (m_empty ops).
Proof. intros w1 w2 H. exists w2. split; auto. unfold m_empty. now rewrite (proj1 H). Qed.
Lemma gsim_final : gsim (m_final ops).
Proof. intros w1 w2 H. exists w2. split; auto. unfold m_final. now rewrite (proj1 H). Qed.
Lemma gsim_next : gsim (m_next ops).
Proof. intros w1 w2 H. unfold m_next. rewrite (proj1 H). destruct (so_next ops _); eauto. Qed.
Lemma gsim_src f : gsim (m_src f).
Proof.
  intros w1 w2 (H1 & H2 & H3). unfold m_src. rewrite H1. destruct (f _); auto.
  eexists. split; [reflexivity|]. split; [reflexivity|]. split; [exact H2|exact H3].
Qed.

Lemma Gd_cell k t : Gd (dst_cell (Datatypes.S k) t).
Proof. destruct t; exact I. Qed.
Lemma Gd_nil : Gd DNil. Proof. exact I. Qed.

Lemma gsim_with_cell {A} v (f : nat -> M S A) : (forall k, gsim (f (Datatypes.S k))) -> gsim (with_cell v f).
Proof.
  intros Hf w1 w2 (H1 & H2 & v1 & v2 & r & E1 & E2 & HR). unfold with_cell.
  rewrite E1, E2. cbn [length].
  specialize (Hf (length r) (World (w_src w1) ((v1 :: r) ++ [v]) (w_trace w1)) (World (w_src w2) ((v2 :: r) ++ [v]) (w_trace w2))).
  match type of Hf with ?L -> _ => assert L as HL end.
  { split; [auto|]. split; [auto|]. cbn. eauto 8. }
  specialize (Hf HL). destruct (f _ _) as [[a w1']|e].
  - destruct Hf as (w2' & -> & F1 & F2 & v1' & v2' & r' & D1 & D2 & HR'). rewrite D1, D2. cbn [nth_error firstn].
    destruct (nth_error r' (length r)); auto. eexists. split; [reflexivity|].
    split; [auto|]. split; [auto|]. cbn. eauto 8.
  - destruct Hf as [| ->]; auto.
Qed.

Lemma gsim_act a l d c : P a -> Gd d -> Gd (c_bound c) -> gsim (act_dispatch a l d c).
Proof.
  intros Ha Hd Hb. unfold act_dispatch. destruct (conv (ac_land a) l) as [x|]; [|apply gsim_raise].
  intros w1 w2 (H1 & H2 & v1 & v2 & r & E1 & E2 & HR).
  assert (forall v1 v2 r y, R v1 v2 ->
    match (if ac_void a then Done (tt, World (w_src w1) (v1 :: r) (Event (ac_id a) x :: w_trace w1))
           else m_assign d y (World (w_src w1) (v1 :: r) (Event (ac_id a) x :: w_trace w1))) with
    | Done (u, w1') => exists w2', (if ac_void a then Done (tt, World (w_src w2) (v2 :: r) (Event (ac_id a) x :: w_trace w2))
           else m_assign d y (World (w_src w2) (v2 :: r) (Event (ac_id a) x :: w_trace w2))) = Done (u, w2') /\ Gw w1' w2'
    | Err e => excused e \/ (if ac_void a then Done (tt, World (w_src w2) (v2 :: r) (Event (ac_id a) x :: w_trace w2))
           else m_assign d y (World (w_src w2) (v2 :: r) (Event (ac_id a) x :: w_trace w2))) = Err e
    end) as HV.
  { intros u1 u2 r' y Hu.
    assert (Gw (World (w_src w1) (u1 :: r') (Event (ac_id a) x :: w_trace w1)) (World (w_src w2) (u2 :: r') (Event (ac_id a) x :: w_trace w2))) as HW.
    { split; [auto|]. cbn. rewrite H2. split; [auto|]. eauto 8. }
    destruct (ac_void a); [eexists; split; [reflexivity|exact HW]|]. exact (gsim_assign d y Hd _ _ HW). }
  rewrite E1, E2. destruct (ac_param a) eqn:Ep.
  - destruct (c_bound c) as [|[|k] p t].
    + cbn [load]. destruct (ac_fun a x VNil) as [y b']. now apply HV.
    + destruct Hb as [-> ->]. cbn [load nth_error of_option obind get_path].
      destruct (Hact a Ha Ep x v1 v2 HR) as (F1 & F2 & F3).
      destruct (ac_fun a x v1) as [y1 b1], (ac_fun a x v2) as [y2 b2]. cbn [fst snd] in *. subst y2.
      rewrite <- F2. destruct (has_ty T b1); auto. specialize (F3 eq_refl).
      cbn [store nth_error of_option obind set_path upd]. now apply HV.
    + rewrite (load_buf k p t v1 v2 r). destruct (load _ _) as [b|]; auto.
      destruct (ac_fun a x b) as [y b']. destruct (has_ty t b'); auto.
      pose proof (store_buf k p t b' v1 v2 r HR) as HS. cbv beta in HS. destruct (store (v1 :: r) _ b') as [c1|].
      * destruct HS as (u1 & u2 & r' & -> & -> & Hu). now apply HV.
      * destruct HS as [| ->]; auto.
  - destruct (ac_fun a x VNil) as [y b']. now apply HV.
Qed.

Ltac step :=
  match goal with
  | |- gsim (ret _) => apply gsim_ret
  | |- gsim (raise _) => apply gsim_raise
  | |- gsim (bind _ _) => apply gsim_bind; [|intro]
  | |- gsim (on_cells (fun c => num_zero c _)) => apply gsim_on_cells, gcells_zero; assumption
  | |- gsim (on_cells (fun c => num_op _ c _)) => apply gsim_on_cells, gcells_op; assumption
  | |- gsim (m_empty _) => apply gsim_empty
  | |- gsim (m_final _) => apply gsim_final
  | |- gsim (m_next _) => apply gsim_next
  | |- gsim (m_advance _) => apply gsim_src
  | |- gsim (m_prepare _) => apply gsim_src
  | |- gsim (m_commit _) => apply gsim_src
  | |- gsim (m_cancel _) => apply gsim_src
  | |- gsim (m_assign _ _) => apply gsim_assign; assumption
  | |- gsim (with_cell _ _) => apply gsim_with_cell; intro
  | |- gsim (if ?b then _ else _) => destruct b
  | |- gsim (match ?x with _ => _ end) => destruct x
  | |- gsim (let '(_, _) := ?x in _) => destruct x
  end.

Definition skip_sim (k : option (M S pst)) : Prop := match k with None => True | Some m => gsim m end.

Lemma gsim_adapt k rq d p raw : Gd d -> skip_sim k -> (forall rq d, Gd d -> gsim (raw rq d)) ->
  gsim (adapt ops k rq d p raw).
Proof.
  intros Hd Hk Hr. unfold adapt. destruct (r_recur rq); auto.
  assert (forall rq, gsim
    (if r_atomic rq && negb (f_atomic p)
     then bind (with_cell (default_init (dst_value_ty d))
            (fun lvl => raw (unatomic_req rq) (dst_cell lvl (dst_value_ty d))))
          (fun x => ret (PAtomic (snd x) (fst x))) else raw rq d)) as HA.
  { intros. repeat step; auto. apply Hr, Gd_cell. }
  destruct k as [k|]; repeat step; auto; apply Hr, Gd_cell.
Qed.

Lemma Gd_seq l i d d' : Gd d -> seq_dst l i d = Done d' -> Gd d'.
Proof.
  intros Hd. unfold seq_dst. destruct d as [|[|k] p t].
  - intros [= <-]. exact I.
  - destruct Hd as [-> ->]. destruct (nth_error l i) as [q|]; [|discriminate]. destruct (ignores q); [intros [= <-]; exact I|].
    destruct T eqn:E; try (intros [= <-]; cbn; auto; fail). now destruct (Htuple l0).
  - destruct (nth_error l i) as [q|]; [|discriminate]. destruct (ignores q); [intros [= <-]; exact I|].
    destruct t; try (intros [= <-]; exact I). destruct (nth_error l0 _) as [[]|]; intros [= <-]; exact I.
Qed.

Ltac seqd l i H :=
  match goal with |- gsim (match seq_dst l i ?d with _ => _ end) =>
    let E := fresh "E" in destruct (seq_dst l i d) eqn:E; [apply (Gd_seq _ _ _ _ H) in E|apply gsim_raise] end.

Lemma gsim_create_in p : forall k rq d, Gd d -> skip_sim k -> gsim (create_in ops k rq d p).
Proof.
  induction p using pat_ind'; intros k rq d Hd Hk; cbn [create_in];
    apply gsim_adapt; auto; intros rq' e He.
  all: try (repeat step; auto using Gd_nil, Gd_cell; fail).
  - destruct l; [apply gsim_raise|]. inversion H; subst. seqd (p :: l) 0 He. repeat step; auto.
  - destruct l; [apply gsim_raise|]. inversion H; subst. repeat step; auto.
  - repeat step. apply IHp; [auto|exact I].
  - repeat step. apply IHp1; auto. destruct (is_fail p2); cbn; auto. apply IHp2; [apply Gd_nil|exact I].
Qed.
Lemma gsim_create c rq d p : Gd d -> gsim (create ops c rq d p).
Proof.
  intros. apply gsim_create_in; auto. unfold mk_skip_of. destruct (is_fail (c_skip c)); cbn; auto.
  apply gsim_create_in; [apply Gd_nil|exact I].
Qed.

(** Contexts and patterns whose actions are of the kind in question. *)
Definition Gc (c : ctx) : Prop := Gd (c_bound c) /\ every_action P (c_skip c).

Definition gself (s : @consume_ty S) : Prop :=
  forall c rq d p a, Gc c -> Gd d -> every_action P p -> gsim (s c rq d p a).

Definition all_act (l : list pat) : Prop :=
  (fix go (l : list pat) : Prop := match l with [] => True | q :: r => every_action P q /\ go r end) l.
Lemma all_act_skipn i l : all_act l -> all_act (skipn i l).
Proof. revert l. induction i as [|i IH]; intros [|q l] H; cbn; auto. apply IH. apply H. Qed.

Section Classes.
Context (s : @consume_ty S) (Hs : gself s).

Lemma gsim_seq_from c d l : Gc c -> Gd d -> forall rest i q a, all_act (q :: rest) ->
  gsim (seq_from ops s c d l i q rest a).
Proof.
  intros Hc Hd. induction rest as [|q' rest IH]; intros i q a (Hq & Hr); cbn [seq_from]; seqd l i Hd;
    (apply gsim_bind; [now apply Hs|intros [r st]; cbn [fst snd]]).
  - repeat step.
  - destruct r; [|apply gsim_ret|apply gsim_ret]. seqd l (Datatypes.S i) Hd.
    apply gsim_bind; [now apply gsim_create|intros]. now apply IH.
Qed.
Lemma gsim_alt_from c rq d : Gc c -> Gd d -> forall rest i q a, all_act (q :: rest) ->
  gsim (alt_from ops s c rq d i q rest a).
Proof.
  intros Hc Hd. induction rest as [|q' rest IH]; intros i q a (Hq & Hr); cbn [alt_from];
    (apply gsim_bind; [now apply Hs|intros [r st]; cbn [fst snd]]).
  - repeat step.
  - destruct r; [apply gsim_ret| |apply gsim_ret].
    apply gsim_bind; [now apply gsim_create|intros]. now apply IH.
Qed.

Lemma gsim_step : gself (consume_step ops env s).
Proof.
  intros c rq d p st Hc Hd Hp. unfold consume_step.
  assert (forall rq q, every_action P q -> forall a, gsim (s c rq d q a)) as HS by auto.
  assert (forall rq q, every_action P q -> forall a, gsim (s c rq DNil q a)) as HN by (intros; apply Hs; auto using Gd_nil).
  assert (forall rq q, gsim (create ops c rq d q)) as HC by (intros; now apply gsim_create).
  assert (forall c rq q, gsim (create ops c rq DNil q)) as HD by (intros; apply gsim_create, Gd_nil).
  destruct st.
  - unfold skip_consume. repeat step; auto. apply Hs; [split; exact I|apply Gd_nil|apply Hc].
  - unfold clean_consume. repeat step; auto.
  - unfold atomic_consume. repeat step; auto. apply Hs; auto using Gd_cell.
  - destruct p; try apply gsim_raise; unfold char_consume, char_symbol_consume, eoi_consume, starved; repeat step.
  - destruct p; try apply gsim_raise; unfold lit_consume, starved; repeat step; auto.
  - destruct p; try apply gsim_raise. unfold sym_consume, sym_stop. repeat step; auto.
  - destruct p; try apply gsim_raise. unfold uint_consume. repeat step; auto.
  - destruct p; try apply gsim_raise. unfold int_consume, int_digit, int_negate. repeat step; auto.
  - destruct p; try apply gsim_raise; unfold nary_enter; (destruct (_ && _)%bool; [apply gsim_raise|]);
      pose proof (all_act_skipn i l Hp) as Ha; destruct (skipn i l) as [|q rest] eqn:E; try apply gsim_raise.
    + now apply gsim_seq_from.
    + now apply gsim_alt_from.
  - destruct p; try apply gsim_raise. destruct Hp. unfold except_consume. repeat step; auto.
  - destruct p; try apply gsim_raise. pose proof Hp as []. unfold list_consume. repeat step; auto.
  - destruct p; try apply gsim_raise. pose proof Hp. unfold repeat_consume. repeat step; auto.
  - destruct p; try apply gsim_raise. unfold not_consume. repeat step; auto.
  - destruct p; try apply gsim_raise. unfold opt_consume. repeat step; auto.
  - destruct p; try apply gsim_raise; unfold forward_consume; repeat step; auto.
    + apply Hs; auto. destruct Hc; split; [auto|exact I].
    + destruct Hp. apply Hs; auto. destruct Hc; split; auto.
    + apply Hs; auto. destruct Hc; split; auto.
  - destruct p; try apply gsim_raise. destruct Hp. unfold action_consume.
    repeat step; auto using gsim_act. + apply Hs; auto using Gd_cell. + apply gsim_act; auto; apply Hc.
  - destruct p; try apply gsim_raise. unfold construct_consume. repeat step; auto. apply Hs; auto using Gd_cell.
  - destruct p; try apply gsim_raise. unfold recur_consume. destruct (env id) as [q|] eqn:E; [|apply gsim_raise].
    apply Henv in E. repeat step; auto.
Qed.
End Classes.

Lemma gsim_consume n : gself (consume ops env n).
Proof.
  induction n as [|n IH]; intros c rq d p a Hc Hd Hp.
  - apply gsim_raise.
  - cbn. now apply gsim_step.
Qed.

Lemma Gd_top : Gd (top_dst T).
Proof. unfold top_dst. assert (forall t, t = T -> Gd (dst_cell 0 t)) as H by (intros t E; destruct t; cbn; auto). now apply H. Qed.
Lemma gsim_top_create p : gsim (top_create ops T p).
Proof. apply gsim_create, Gd_top. Qed.
Lemma gsim_top_consume n p st : every_action P p -> gsim (top_consume ops env n T p st).
Proof. intros. apply gsim_consume; auto using Gd_top. split; [apply Gd_top|exact I]. Qed.

End Grow.
