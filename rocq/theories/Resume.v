(** Running on a part of the input and going on when more is there, versus running on all
    of it.  For any source that can be extended: nothing the source does, as long as it is
    not found empty, tells the one from the other. *)
From Coq Require Import List ZArith Bool Arith Lia.
From Verif Require Import Base CharSet Source Dst Pattern Parser Rel Keep Limit Safety.
Import ListNotations.

(** [ext]: with what is added later; [nf]: the source does not yet know that it has all. *)
Record extends {Src : Type} (ops : source_ops Src) (ext : Src -> Src) (nf : Src -> Prop) : Prop := {
  ex_resumable : so_resumable ops = true;
  ex_final : forall s, nf s -> so_final ops s = false;
  ex_empty : forall s, so_empty ops s = false -> so_empty ops (ext s) = false;
  ex_next : forall s, so_empty ops s = false -> so_next ops (ext s) = so_next ops s;
  ex_advance : forall s, nf s -> so_empty ops s = false ->
    match so_advance ops s with Err e => so_advance ops (ext s) = Err e | Done s' => nf s' /\ so_advance ops (ext s) = Done (ext s') end;
  ex_prepare : forall s, nf s -> nf (so_prepare ops s) /\ so_prepare ops (ext s) = ext (so_prepare ops s);
  ex_commit : forall s, nf s ->
    match so_commit ops s with Err e => so_commit ops (ext s) = Err e | Done s' => nf s' /\ so_commit ops (ext s) = Done (ext s') end;
  ex_cancel : forall s, nf s ->
    match so_cancel ops s with Err e => so_cancel ops (ext s) = Err e | Done s' => nf s' /\ so_cancel ops (ext s) = Done (ext s') end }.

Section Resume.
Context {Src : Type} (ops : source_ops Src) (ext_src : Src -> Src) (nf_src : Src -> Prop).
Context (Hext : extends ops ext_src nf_src).
Context (env : nat -> option pat).

Local Notation MM := (M Src).

Definition ext (w : world Src) : world Src :=
  World (ext_src (w_src w)) (w_cells w) (w_trace w).

Definition nf (w : world Src) : Prop := nf_src (w_src w).

(** Computations that do not look at what more data would change. *)
Definition neu_at {A} (m : MM A) (w : world Src) : Prop :=
  match m w with
  | Err e => m (ext w) = Err e
  | Done (a, w') => nf w' /\ m (ext w) = Done (a, ext w')
  end.
Definition neu {A} (m : MM A) : Prop := forall w, nf w -> neu_at m w.

Lemma neu_ret {A} (a : A) : neu (ret a).
Proof. intros w H. split; auto. Qed.
Lemma neu_raise {A} e : neu (@raise Src A e).
Proof. intros w H. reflexivity. Qed.
Lemma neu_bind {A B} (m : MM A) (f : A -> MM B) : neu m -> (forall a, neu (f a)) -> neu (bind m f).
Proof.
  intros Hm Hf w H. specialize (Hm w H). unfold neu_at, bind in *.
  destruct (m w) as [[a w']|e]; [|now rewrite Hm].
  destruct Hm as [H1 ->]. apply Hf. exact H1.
Qed.
Lemma neu_on_cells f : neu (on_cells f).
Proof.
  intros w H. unfold neu_at, on_cells. cbn. destruct (f (w_cells w)); auto.
Qed.
Lemma neu_prepare : neu (m_prepare ops).
Proof. intros w H. unfold neu_at, m_prepare, m_src. cbn. destruct (ex_prepare _ _ _ Hext _ H) as [H1 ->]. split; auto. Qed.
Lemma neu_commit : neu (m_commit ops).
Proof.
  intros w H. unfold neu_at, m_commit, m_src. cbn. pose proof (ex_commit _ _ _ Hext _ H) as HC.
  destruct (so_commit ops (w_src w)); [destruct HC as [H1 ->]|rewrite HC]; auto.
Qed.
Lemma neu_cancel : neu (m_cancel ops).
Proof.
  intros w H. unfold neu_at, m_cancel, m_src. cbn. pose proof (ex_cancel _ _ _ Hext _ H) as HC.
  destruct (so_cancel ops (w_src w)); [destruct HC as [H1 ->]|rewrite HC]; auto.
Qed.
Lemma neu_assign d v : neu (m_assign d v).
Proof. apply neu_on_cells. Qed.
Lemma neu_with_cell {A} v (f : nat -> MM A) : (forall l, neu (f l)) -> neu (with_cell v f).
Proof.
  intros Hf w H. unfold neu_at, with_cell. cbn.
  specialize (Hf (length (w_cells w)) (World (w_src w) (w_cells w ++ [v]) (w_trace w)) H).
  unfold neu_at, ext in Hf. cbn in Hf.
  destruct (f _ (World (w_src w) _ _)) as [[a w']|e].
  - destruct Hf as [H1 ->]. cbn. destruct (nth_error (w_cells w') _); auto.
  - now rewrite Hf.
Qed.

Lemma neu_act_dispatch a land d c : neu (act_dispatch a land d c).
Proof.
  unfold act_dispatch. destruct (conv (ac_land a) land) as [v|]; [|apply neu_raise].
  intros w H. unfold neu_at. cbn.
  destruct (if ac_param a then load _ _ else _) as [b|]; auto.
  destruct (ac_fun a v b) as [r b'].
  destruct (if ac_param a then match c_bound c with _ => _ end else _) as [cells|]; auto.
  destruct (ac_void a).
  - split; auto.
  - apply (neu_assign d r (World (w_src w) cells (Event (ac_id a) v :: w_trace w)) H).
Qed.

Ltac step :=
  match goal with
  | |- neu (ret _) => apply neu_ret
  | |- neu (raise _) => apply neu_raise
  | |- neu (bind _ _) => apply neu_bind; [|intro]
  | |- neu (on_cells _) => apply neu_on_cells
  | |- neu (m_prepare _) => apply neu_prepare
  | |- neu (m_commit _) => apply neu_commit
  | |- neu (m_cancel _) => apply neu_cancel
  | |- neu (m_assign _ _) => apply neu_assign
  | |- neu (with_cell _ _) => apply neu_with_cell; intro
  | |- neu (act_dispatch _ _ _ _) => apply neu_act_dispatch
  | |- neu (if ?b then _ else _) => destruct b
  | |- neu (match ?x with _ => _ end) => destruct x
  end.

Definition skip_neu (k : option (MM pst)) : Prop :=
  match k with None => True | Some a => neu a end.

Lemma neu_adapt k rq d p raw :
  skip_neu k -> (forall rq d, neu (raw rq d)) -> neu (adapt ops k rq d p raw).
Proof. intros Hk Hr. unfold adapt. destruct k as [k|]; repeat (step || auto). Qed.

Lemma neu_create_in p : forall k rq d, skip_neu k -> neu (create_in ops k rq d p).
Proof.
  induction p using pat_ind'; intros k rq d Hk; cbn [create_in];
    apply neu_adapt; auto; intros rq' d'; repeat step; auto.
  all: try (inversion H; subst; auto; fail).
  - apply IHp. exact I.
  - apply IHp1. destruct (is_fail p2); cbn; auto. apply IHp2. exact I.
Qed.

Lemma neu_create c rq d p : neu (create ops c rq d p).
Proof.
  apply neu_create_in. unfold mk_skip_of. destruct (is_fail (c_skip c)); cbn; auto.
  apply neu_create_in. exact I.
Qed.

(** Looking at the input, when there is something to look at. *)
Lemma ext_nonempty w : so_empty ops (w_src w) = false -> so_empty ops (w_src (ext w)) = false.
Proof. apply (ex_empty _ _ _ Hext). Qed.

Lemma neu_at_empty w : nf w -> so_empty ops (w_src w) = false -> neu_at (m_empty ops) w.
Proof.
  intros H He. unfold neu_at, m_empty. rewrite (ext_nonempty w He), He. auto.
Qed.

Lemma neu_at_next w : nf w -> so_empty ops (w_src w) = false -> neu_at (m_next ops) w.
Proof.
  intros H He. unfold neu_at, m_next. cbn. rewrite (ex_next _ _ _ Hext _ He). destruct (so_next ops (w_src w)); auto.
Qed.

Lemma neu_at_advance w : nf w -> so_empty ops (w_src w) = false -> neu_at (m_advance ops) w.
Proof.
  intros H He. unfold neu_at, m_advance, m_src. cbn. pose proof (ex_advance _ _ _ Hext _ H He) as HC.
  destruct (so_advance ops (w_src w)); [destruct HC as [H1 ->]|rewrite HC]; auto.
Qed.

(** [F] is a run, by fuel; [G] resumes it from the object it left. *)
Definition CHK (F : nat -> MM (result * pst)) (n : nat) (w : world Src)
           (G : nat -> pst -> MM (result * pst)) : Prop :=
  match F n w with
  | Err e => F n (ext w) = Err e
  | Done ((PARTIAL, st), w') => nf w' /\ EQ (fun m => F m (ext w)) (fun m => G m st (ext w'))
  | Done ((r, st), w') => nf w' /\ F n (ext w) = Done ((r, st), ext w')
  end.

Lemma CHK_ret r st n w G : r <> PARTIAL -> nf w -> CHK (fun _ => ret (r, st)) n w G.
Proof. intros Hr H. unfold CHK. cbn. destruct r; [split; auto|split; auto|congruence]. Qed.

Lemma CHK_raise e n w G : CHK (fun _ => raise e) n w G.
Proof. unfold CHK. cbn. auto. Qed.

Lemma CHK_neu {A} (m : MM A) (K : nat -> A -> MM (result * pst)) n w G :
  neu_at m w -> (forall a w', m w = Done (a, w') -> nf w' -> CHK (fun k => K k a) n w' G) ->
  CHK (fun k => bind m (K k)) n w G.
Proof.
  intros Hm HK. unfold neu_at in Hm. unfold CHK, bind.
  destruct (m w) as [[a w']|e]; [|rewrite Hm; auto].
  destruct Hm as [H1 ->]. apply (HK a w' eq_refl H1).
Qed.

Lemma CHK_starved F n w G st :
  F n w = Done ((PARTIAL, st), w) -> nf w -> (forall w, EQ (fun m => F m w) (fun m => G m st w)) ->
  CHK F n w G.
Proof. intros E H HE. unfold CHK. rewrite E. split; auto. Qed.

Lemma CHK_shift F n w G : Mono F -> CHK (fun k => F (S k)) n w G -> CHK F (S n) w G.
Proof.
  intros HM. unfold CHK. destruct (F (S n) w) as [[[r st] w']|e]; auto.
  destruct r; auto. intros [H1 H2]. split; auto. eapply EQ_trans; [|exact H2].
  apply (EQ_shift (fun m => F m (ext w))). now apply Mono_mono.
Qed.

Lemma CHK_child F K n w G Gc (wrap : pst -> pst) :
  Mono F -> (forall a, Mono (fun k => K k a)) -> (forall st, Mono (fun k => Gc k st)) ->
  CHK F n w Gc ->
  (forall k st, K k (PARTIAL, st) = ret (PARTIAL, wrap st)) ->
  (forall st w, EQ (fun k => G k (wrap st) w) (fun k => bind (Gc k st) (K k) w)) ->
  (forall r st w', r <> PARTIAL -> F n w = Done ((r, st), w') -> nf w' ->
                   CHK (fun k => K k (r, st)) n w' G) ->
  CHK (fun k => bind (F k) (K k)) n w G.
Proof.
  intros HF HK HG HC HP HE HN. unfold CHK in HC |- *. unfold bind at 1.
  destruct (F n w) as [[[r st] w']|e] eqn:E.
  - destruct r.
    3: { rewrite HP. cbn. destruct HC as [H1 H2]. split; auto.
         eapply EQ_trans; [|apply EQ_sym, HE]. now apply EQ_bind. }
    + destruct HC as [H1 H2]. specialize (HN SUCCESS st w' ltac:(discriminate) eq_refl H1).
      unfold CHK in HN. destruct (K n (SUCCESS, st) w') as [[[r2 st2] w2]|e2] eqn:E2.
      * destruct r2; destruct HN as [H3 H4]; split; auto.
        -- unfold bind. rewrite H2. exact H4.
        -- unfold bind. rewrite H2. exact H4.
        -- eapply EQ_trans; [eapply EQ_bind_done; eauto|exact H4].
      * unfold bind. rewrite H2. exact HN.
    + destruct HC as [H1 H2]. specialize (HN FAILURE st w' ltac:(discriminate) eq_refl H1).
      unfold CHK in HN. destruct (K n (FAILURE, st) w') as [[[r2 st2] w2]|e2] eqn:E2.
      * destruct r2; destruct HN as [H3 H4]; split; auto.
        -- unfold bind. rewrite H2. exact H4.
        -- unfold bind. rewrite H2. exact H4.
        -- eapply EQ_trans; [eapply EQ_bind_done; eauto|exact H4].
      * unfold bind. rewrite H2. exact HN.
  - unfold bind. now rewrite HC.
Qed.

Lemma CHK_cell v (f : nat -> nat -> MM (result * pst)) (g : nat -> nat -> pst -> MM (result * pst))
      (K : nat -> result * pst * val -> MM (result * pst)) n w G (wrap : val -> pst -> pst) :
  (forall l, Mono (fun k => f k l)) -> (forall a, Mono (fun k => K k a)) ->
  (forall l st, Mono (fun k => g k l st)) ->
  (forall n l, keeps (fun _ _ => True) (f n l)) ->
  (forall l w, nf w -> CHK (fun k => f k l) n w (fun k => g k l)) ->
  (forall k st v, K k ((PARTIAL, st), v) = ret (PARTIAL, wrap v st)) ->
  (forall st v w, EQ (fun k => G k (wrap v st) w)
                     (fun k => bind (with_cell v (fun lvl => g k lvl st)) (K k) w)) ->
  (forall r st v' w', r <> PARTIAL -> nf w' -> CHK (fun k => K k ((r, st), v')) n w' G) ->
  nf w ->
  CHK (fun k => bind (with_cell v (f k)) (K k)) n w G.
Proof.
  intros HF HK HG Hlen HC HP HE HN H.
  set (L := length (w_cells w)).
  set (push := fun v w => World (w_src w) (w_cells w ++ [v]) (w_trace w) : world Src).
  assert (MF : Mono (fun k => with_cell v (f k))) by now apply Mono_with_cell.
  specialize (HC L (push v w) H). unfold CHK in HC.
  destruct (f n L (push v w)) as [[[r st] w1]|e] eqn:E.
  2: { unfold CHK, bind, with_cell. fold L (push v w). rewrite E.
       change (World (w_src (ext w)) (w_cells (ext w) ++ [v]) (w_trace (ext w))) with (ext (push v w)).
       change (length (w_cells (ext w))) with L. now rewrite HC. }
  destruct (Hlen _ _ _ _ _ E) as [Hl _]. cbn in Hl. rewrite app_length in Hl. cbn in Hl.
  destruct (nth_error (w_cells w1) L) as [v'|] eqn:En.
  2: { apply nth_error_None in En. unfold L in En. lia. }
  set (w2 := World (w_src w1) (firstn L (w_cells w1)) (w_trace w1)).
  assert (Ew : push v' w2 = w1).
  { unfold push, w2. cbn. destruct w1 as [s1 c1 t1]. cbn in *. f_equal.
    rewrite <- (firstn_skipn L c1) at 2. f_equal.
    assert (length (skipn L c1) = 1) as Hs by (rewrite skipn_length; unfold L; lia).
    destruct (skipn L c1) as [|x [|]] eqn:Es; try discriminate.
    rewrite <- (firstn_skipn L c1), nth_error_app2, Es in En by (rewrite firstn_length; lia).
    rewrite firstn_length in En. replace (L - min L (length c1)) with 0 in En by (unfold L in *; lia).
    cbn in En. congruence. }
  assert (EW : with_cell v (f n) w = Done (r, st, v', w2)).
  { unfold with_cell. fold L (push v w). now rewrite E, En. }
  assert (Hn1 : nf w1) by (destruct r; apply HC).
  assert (Hlen2 : length (w_cells w2) = L).
  { unfold w2. cbn. rewrite firstn_length. unfold L in *. lia. }
  destruct (result_eqb r PARTIAL) eqn:Er.
  - destruct r; try discriminate. destruct HC as [_ HC].
    unfold CHK. unfold bind at 1. rewrite EW, HP. cbn. split; auto.
    eapply EQ_trans; [|apply EQ_sym, HE].
    apply EQ_bind; auto; [now apply Mono_with_cell with (F := fun k lvl => g k lvl st)|].
    (* with_cell of both *)
    assert (EC : forall (h : nat -> nat -> MM (result * pst)) (u : val) (x : world Src) k,
      with_cell u (h k) x =
      match h k (length (w_cells x)) (push u x) with
      | Done (a, y) => match nth_error (w_cells y) (length (w_cells x)) with
                       | Some u' => Done ((a, u'), World (w_src y) (firstn (length (w_cells x)) (w_cells y)) (w_trace y))
                       | None => Err EShape
                       end
      | Err e => Err e
      end) by reflexivity.
    intros o. 
    assert (Hx : forall k, with_cell v' (fun lvl => g k lvl st) (ext w2) =
      match g k L st (ext w1) with
      | Done (a, y) => match nth_error (w_cells y) L with
                       | Some u' => Done ((a, u'), World (w_src y) (firstn L (w_cells y)) (w_trace y))
                       | None => Err EShape
                       end
      | Err e => Err e
      end).
    { intros k. rewrite (EC (fun k lvl => g k lvl st)). change (length (w_cells (ext w2))) with (length (w_cells w2)).
      rewrite Hlen2. change (push v' (ext w2)) with (ext (push v' w2)). now rewrite Ew. }
    assert (Hy : forall k, with_cell v (f k) (ext w) =
      match f k L (ext (push v w)) with
      | Done (a, y) => match nth_error (w_cells y) L with
                       | Some u' => Done ((a, u'), World (w_src y) (firstn L (w_cells y)) (w_trace y))
                       | None => Err EShape
                       end
      | Err e => Err e
      end) by (intros k; apply EC).
    clear EC.
    assert (Hlim : forall (h1 h2 : nat -> outcome (result * pst * world Src)),
      EQ h1 h2 ->
      lim (fun k => match h1 k with
      | Done (a, y) => match nth_error (w_cells y) L with
                       | Some u' => Done ((a, u'), World (w_src y) (firstn L (w_cells y)) (w_trace y))
                       | None => Err EShape
                       end
      | Err e => Err e
      end) o ->
      lim (fun k => match h2 k with
      | Done (a, y) => match nth_error (w_cells y) L with
                       | Some u' => Done ((a, u'), World (w_src y) (firstn L (w_cells y)) (w_trace y))
                       | None => Err EShape
                       end
      | Err e => Err e
      end) o).
    { intros h1 h2 Hh [Ho [k Hk]]. split; auto.
      assert (lim h1 (h1 k)) as HL.
      { split; eauto. intros Ef. rewrite Ef in Hk. congruence. }
      apply Hh in HL as [_ [k' Hk']]. exists k'. now rewrite Hk'. }
    assert (Heq : forall (h1 h2 : nat -> outcome (result * pst * val * world Src)),
       (forall k, h1 k = h2 k) -> lim h1 o -> lim h2 o).
    { intros h1 h2 Hh [Ho [k Hk]]. split; auto. exists k. now rewrite <- Hh. }
    split; intros HL.
    + eapply Heq; [intros k; symmetry; apply Hx|]. eapply Hlim; [exact HC|].
      eapply Heq; [intros k; apply Hy|exact HL].
    + eapply Heq; [intros k; symmetry; apply Hy|]. eapply Hlim; [apply EQ_sym; exact HC|].
      eapply Heq; [intros k; apply Hx|exact HL].
  - assert (Hr : r <> PARTIAL) by (intros ->; discriminate).
    assert (EX : with_cell v (f n) (ext w) = Done (r, st, v', ext w2)).
    { unfold with_cell. change (length (w_cells (ext w))) with L.
      change (World (w_src (ext w)) (w_cells (ext w) ++ [v]) (w_trace (ext w))) with (ext (push v w)).
      destruct r; try discriminate; destruct HC as [_ ->]; cbn; now rewrite En. }
    specialize (HN r st v' w2 Hr Hn1). unfold CHK in HN |- *. unfold bind at 1. rewrite EW.
    destruct (K n (r, st, v') w2) as [[[r2 st2] w3]|e2] eqn:E2.
    + destruct r2; destruct HN as [H3 H4]; split; auto.
      * unfold bind. now rewrite EX.
      * unfold bind. now rewrite EX.
      * eapply EQ_trans; [eapply EQ_bind_done; eauto|exact H4].
    + unfold bind. now rewrite EX.
Qed.

(** ** The machine *)

Let con (k : nat) := consume ops env k.
Let stp (k : nat) := consume_step ops env (consume ops env k).

Lemma con_step c rq d p st w :
  EQ (fun k => con k c rq d p st w) (fun k => stp k c rq d p st w).
Proof. apply (EQ_shift (fun k => con k c rq d p st w)). apply (Mono_mono (fun k => con k c rq d p st) w), Mono_consume. Qed.

Lemma Mono_step c rq d p st : Mono (fun k => stp k c rq d p st).
Proof. intros n m H. apply (Mono_consume ops env c rq d p st (S n) (S m)). lia. Qed.

Definition chk_n (n : nat) : Prop := forall c rq d p st w,
  nf w -> CHK (fun k => con k c rq d p st) n w (fun k st => con k c rq d p st).

Ltac mono :=
  repeat match goal with
  | |- Mono (fun k => con k _ _ _ _ _) => apply Mono_consume
  | |- Mono (fun k => bind (@?F k) (@?K k)) => apply (Mono_bind F K); [|intro]
  | |- Mono (fun k => with_cell _ (@?F k)) => apply (Mono_with_cell _ F); intro
  | |- Mono (fun k => match ?x with _ => _ end) => destruct x
  | |- Mono (fun k => let '(_, _) := ?x in _) => destruct x
  | |- Mono (fun _ => ?m) => apply Mono_const
  end.

Section Classes.
Context (n : nat) (IH : chk_n n).

Lemma chk_child c' rq' d' q a c rq d p K wrap w :
  (forall a, Mono (fun k => K k a)) ->
  (forall k st, K k (PARTIAL, st) = ret (PARTIAL, wrap st)) ->
  (forall k st, stp k c rq d p (wrap st) = bind (con k c' rq' d' q st) (K k)) ->
  (forall r st w', r <> PARTIAL -> nf w' -> CHK (fun k => K k (r, st)) n w' (fun k st => con k c rq d p st)) ->
  nf w ->
  CHK (fun k => bind (con k c' rq' d' q a) (K k)) n w (fun k st => con k c rq d p st).
Proof.
  intros HK HP HE HN H. apply CHK_child with (wrap := wrap) (Gc := fun k st => con k c' rq' d' q st);
    auto; try (intros; apply Mono_consume).
  - intros st w'. eapply EQ_trans; [apply con_step|]. apply EQ_pt. intros k. now rewrite HE.
Qed.

Lemma chk_cell c' rq' t q a c rq d p v K wrap w :
  (forall a, Mono (fun k => K k a)) ->
  (forall k st v, K k ((PARTIAL, st), v) = ret (PARTIAL, wrap v st)) ->
  (forall k st v, stp k c rq d p (wrap v st) =
                  bind (with_cell v (fun lvl => con k c' rq' (dst_cell lvl t) q st)) (K k)) ->
  (forall r st v w', r <> PARTIAL -> nf w' ->
     CHK (fun k => K k ((r, st), v)) n w' (fun k st => con k c rq d p st)) ->
  nf w ->
  CHK (fun k => bind (with_cell v (fun lvl => con k c' rq' (dst_cell lvl t) q a)) (K k)) n w
      (fun k st => con k c rq d p st).
Proof.
  intros HK HP HE HN H.
  apply CHK_cell with (wrap := wrap) (f := fun k lvl => con k c' rq' (dst_cell lvl t) q a)
    (g := fun k lvl st => con k c' rq' (dst_cell lvl t) q st); auto;
    try (intros; apply Mono_consume).
  - intros. apply keeps_consume; auto.
  - intros st v' w'. eapply EQ_trans; [apply con_step|]. apply EQ_pt. intros k. now rewrite HE.
Qed.

(** Leaves. *)
Lemma chk_empty (A : MM (result * pst)) (B : nat -> MM (result * pst)) c rq d p st w :
  (forall k, stp k c rq d p st = bind (m_empty ops) (fun e => if e then A else B k)) ->
  (so_empty ops (w_src w) = true -> A w = Done ((PARTIAL, st), w)) ->
  (so_empty ops (w_src w) = false -> CHK B n w (fun k st => con k c rq d p st)) ->
  nf w ->
  CHK (fun k => stp k c rq d p st) n w (fun k st => con k c rq d p st).
Proof.
  intros HE HA HB H. destruct (so_empty ops (w_src w)) eqn:He.
  - apply CHK_starved with (st := st); auto.
    + rewrite HE. unfold bind, m_empty. cbn. rewrite He. auto.
    + intros w'. apply EQ_sym, con_step.
  - unfold CHK. rewrite HE. unfold bind, m_empty. rewrite He.
    specialize (HB eq_refl). unfold CHK in HB.
    destruct (B n w) as [[[r st'] w']|e].
    + destruct r; destruct HB as [H1 H2]; split; auto.
      all: try (rewrite (ext_nonempty _ He); exact H2).
      eapply EQ_trans; [|exact H2]. apply EQ_pt. intros k. rewrite HE. unfold bind, m_empty.
      now rewrite (ext_nonempty _ He).
    + now rewrite (ext_nonempty _ He).
Qed.

Lemma starved_nf st w : nf w -> starved ops st w = Done ((PARTIAL, st), w).
Proof. intros H. unfold starved, bind, m_final. now rewrite (ex_final _ _ _ Hext _ H). Qed.

Ltac nx He := apply CHK_neu; [now apply neu_at_next|]; intros ?c ?w' ?E ?Hn;
  match goal with E : m_next ops ?w = Done (_, ?w') |- _ =>
    assert (w' = w) as -> by (unfold m_next in E; destruct (so_next ops (w_src w)); congruence) end.

Lemma chk_advance (K : nat -> MM (result * pst)) w G :
  nf w -> so_empty ops (w_src w) = false -> (forall w', nf w' -> CHK K n w' G) ->
  CHK (fun k => bind (m_advance ops) (fun _ => K k)) n w G.
Proof. intros H He HK. apply CHK_neu; [now apply neu_at_advance|]. auto. Qed.

Lemma chk_cells f (K : nat -> MM (result * pst)) w G :
  nf w -> (forall w', nf w' -> w_src w' = w_src w -> CHK K n w' G) ->
  CHK (fun k => bind (on_cells f) (fun _ => K k)) n w G.
Proof.
  intros H HK. apply CHK_neu; [now apply neu_on_cells|]. intros a w' E Hn. apply HK; auto.
  unfold on_cells in E. destruct (f (w_cells w)); [inversion E; subst; reflexivity|discriminate].
Qed.

Lemma chk_neu {A} (m : MM A) (K : nat -> A -> MM (result * pst)) w G :
  neu m -> nf w -> (forall a w', nf w' -> CHK (fun k => K k a) n w' G) ->
  CHK (fun k => bind m (K k)) n w G.
Proof. intros Hm H HK. apply CHK_neu; auto. Qed.

Lemma chk_char c rq d s w :
  nf w -> CHK (fun k => stp k c rq d (Char s) PLeaf) n w (fun k st => con k c rq d (Char s) st).
Proof.
  intros H. eapply chk_empty; [reflexivity| | |exact H].
  - intros _. now apply starved_nf.
  - intros He. nx He. destruct (is_valid s c0).
    + apply chk_cells; [assumption|]. intros w' H1 E1. apply chk_advance; [assumption|now rewrite E1|].
      intros. apply CHK_ret; [discriminate|assumption].
    + apply CHK_ret; [discriminate|assumption].
Qed.

Lemma chk_char_symbol c rq d m w :
  nf w -> CHK (fun k => stp k c rq d (CharSymbol m) PLeaf) n w (fun k st => con k c rq d (CharSymbol m) st).
Proof.
  intros H. eapply chk_empty; [reflexivity| | |exact H].
  - intros _. now apply starved_nf.
  - intros He. nx He. destruct (assoc c0 m).
    + apply chk_cells; [assumption|]. intros w' H1 E1. apply CHK_ret; [discriminate|assumption].
    + apply CHK_ret; [discriminate|assumption].
Qed.

Lemma chk_eoi c rq d w :
  nf w -> CHK (fun k => stp k c rq d Eoi PLeaf) n w (fun k st => con k c rq d Eoi st).
Proof.
  intros H. eapply chk_empty; [reflexivity| | |exact H].
  - intros _. unfold bind, m_final. now rewrite (ex_final _ _ _ Hext _ H).
  - intros He. apply CHK_ret; [discriminate|assumption].
Qed.

Lemma chk_lit c rq d s rest w :
  nf w -> CHK (fun k => stp k c rq d (Lit s) (PLit rest)) n w (fun k st => con k c rq d (Lit s) st).
Proof.
  intros H. destruct rest as [|x rest].
  - apply CHK_ret; [discriminate|assumption].
  - eapply chk_empty; [reflexivity| | |exact H].
    + intros _. now apply starved_nf.
    + intros He. nx He. destruct (Z.eqb c0 x).
      * apply chk_advance; [assumption|assumption|]. intros w' H1. now apply IH.
      * apply CHK_ret; [discriminate|assumption].
Qed.

Lemma neu_sym_stop d nx v : neu (sym_stop ops d nx v).
Proof. unfold sym_stop. destruct v; [destruct (sym_value t)|]; repeat step. Qed.

Lemma CHK_neu0 m w G : nf w -> neu m ->
  (forall st w', m w <> Done ((PARTIAL, st), w')) -> CHK (fun _ => m) n w G.
Proof.
  intros H Hm Hp. specialize (Hm w H). unfold neu_at in Hm. unfold CHK.
  destruct (m w) as [[[r st] w']|e] eqn:E; auto.
  destruct r; auto. destruct (Hp st w' eq_refl).
Qed.

Lemma sym_stop_total d nx v w st w' : sym_stop ops d nx v w <> Done ((PARTIAL, st), w').
Proof.
  unfold sym_stop. destruct v; [|discriminate]. destruct (sym_value t); [|discriminate].
  unfold bind. destruct (m_assign d a w) as [[? w1]|]; [|discriminate].
  destruct (m_commit ops w1) as [[? ?]|]; discriminate.
Qed.

Lemma chk_sym c rq d m nx v w :
  nf w -> CHK (fun k => stp k c rq d (Symbol m) (PSym nx v)) n w (fun k st => con k c rq d (Symbol m) st).
Proof.
  intros H. eapply chk_empty; [reflexivity| | |exact H].
  - intros _. unfold bind, m_final. now rewrite (ex_final _ _ _ Hext _ H).
  - intros He. nx He. destruct (assoc c0 (trie_child nx)) as [nx'|].
    2: { apply CHK_neu0; auto using neu_sym_stop, sym_stop_total. }
    apply chk_advance; [assumption|assumption|]. intros w1 H1. destruct (trie_val nx').
    + apply chk_neu; auto; [destruct v; repeat step|]. intros _ w2 H2.
      destruct (trie_child nx').
      * apply chk_cells; [assumption|]. intros. apply CHK_ret; [discriminate|assumption].
      * apply chk_neu; [apply neu_prepare|assumption|]. intros _ w3 H3. now apply IH.
    + now apply IH.
Qed.

Lemma chk_uint c rq d b lo hi m w :
  nf w -> CHK (fun k => stp k c rq d (UInt b lo hi) (PUInt m)) n w (fun k st => con k c rq d (UInt b lo hi) st).
Proof.
  intros H. eapply chk_empty; [reflexivity| | |exact H].
  - intros _. unfold bind, m_final. now rewrite (ex_final _ _ _ Hext _ H).
  - intros He. nx He. destruct (digit_valid b c0).
    + apply chk_cells; [assumption|]. intros w1 H1 E1. apply chk_cells; [assumption|]. intros w2 H2 E2.
      apply chk_advance; [assumption|now rewrite E2, E1|]. intros w3 H3. destruct (_ =? _)%Z.
      * apply CHK_ret; [discriminate|assumption].
      * now apply IH.
    + apply CHK_ret; auto. destruct (_ <=? _)%Z; discriminate.
Qed.

Lemma neu_negate d ng : neu (int_negate d ng).
Proof. unfold int_negate. repeat step. Qed.

Lemma chk_int_digit c rq d b lo hi m lk ng x w :
  nf w -> so_empty ops (w_src w) = false ->
  CHK (fun k => int_digit ops (con k) c rq d (Int b lo hi) b lo hi m lk ng x) n w
      (fun k st => con k c rq d (Int b lo hi) st).
Proof.
  intros H He. unfold int_digit. destruct (digit_valid b x).
  - apply chk_cells; [assumption|]. intros w1 H1 E1. apply chk_cells; [assumption|]. intros w2 H2 E2.
    apply chk_advance; [assumption|now rewrite E2, E1|]. intros w3 H3. destruct (_ =? _)%Z.
    + apply chk_neu; [apply neu_negate|assumption|]. intros. apply CHK_ret; [discriminate|assumption].
    + now apply IH.
  - apply chk_neu; [apply neu_negate|assumption|]. intros. apply CHK_ret; auto.
    destruct (_ <=? _)%Z; discriminate.
Qed.

Lemma chk_int c rq d b lo hi m lk ng w :
  nf w -> CHK (fun k => stp k c rq d (Int b lo hi) (PInt m lk ng)) n w (fun k st => con k c rq d (Int b lo hi) st).
Proof.
  intros H. eapply chk_empty; [reflexivity| | |exact H].
  - intros _. unfold bind, m_final. now rewrite (ex_final _ _ _ Hext _ H).
  - intros He. nx He. destruct (_ && _).
    + destruct (c0 =? 45)%Z; [|destruct (c0 =? 43)%Z].
      * apply chk_advance; [assumption|assumption|]. intros. now apply IH.
      * apply chk_advance; [assumption|assumption|]. intros. now apply IH.
      * now apply chk_int_digit.
    + now apply chk_int_digit.
Qed.

(** Adapters and composites. *)
Lemma chk_skip c rq d p done s a w :
  nf w -> CHK (fun k => stp k c rq d p (PSkip done s a)) n w (fun k st => con k c rq d p st).
Proof.
  intros H. destruct done.
  - eapply (chk_child c rq d p a c rq d p (fun k x => ret (fst x, PSkip true s (snd x)))
                      (fun st => PSkip true s st)); auto; [intros; mono|].
    intros r st w' Hr Hn. now apply CHK_ret.
  - eapply (chk_child skip_ctx skip_req DNil (c_skip c) s c rq d p
      (fun k x => match fst x with
         | SUCCESS => bind (create ops skip_ctx skip_req DNil (c_skip c))
                           (fun s' => con k c rq d p (PSkip false s' a))
         | FAILURE => con k c rq d p (PSkip true (snd x) a)
         | PARTIAL => ret (PARTIAL, PSkip false (snd x) a)
         end) (fun st => PSkip false st a)); auto; [intros; mono|].
    intros r st w' Hr Hn. destruct r; cbn [fst snd]; [|now apply IH|congruence].
    apply chk_neu; auto using neu_create.
Qed.

Lemma chk_clean c rq d p a w :
  nf w -> CHK (fun k => stp k c rq d p (PClean a)) n w (fun k st => con k c rq d p st).
Proof.
  intros H.
  eapply (chk_child c (unclean_req rq) d p a c rq d p
    (fun k x => match fst x with
       | SUCCESS => bind (m_cancel ops) (fun _ => ret (SUCCESS, PClean (snd x)))
       | FAILURE => bind (m_commit ops) (fun _ => ret (FAILURE, PClean (snd x)))
       | PARTIAL => ret (PARTIAL, PClean (snd x))
       end) PClean); auto; [intros; mono|].
  intros r st w' Hr Hn. destruct r; cbn [fst snd]; [| |congruence].
  - apply chk_neu; [apply neu_cancel|assumption|]. intros. apply CHK_ret; [discriminate|assumption].
  - apply chk_neu; [apply neu_commit|assumption|]. intros. apply CHK_ret; [discriminate|assumption].
Qed.

Lemma chk_atomic c rq d p b a w :
  nf w -> CHK (fun k => stp k c rq d p (PAtomic b a)) n w (fun k st => con k c rq d p st).
Proof.
  intros H.
  eapply (chk_cell c (unatomic_req rq) (dst_value_ty d) p a c rq d p b
    (fun k x => let '((r, a'), buf') := x in
       match r with
       | SUCCESS => bind (m_assign d buf') (fun _ => ret (SUCCESS, PAtomic buf' a'))
       | _ => ret (r, PAtomic buf' a')
       end) PAtomic); auto; [intros; mono|].
  intros r st v w' Hr Hn. destruct r; [|apply CHK_ret; auto|congruence].
  apply chk_neu; [apply neu_assign|assumption|]. intros. apply CHK_ret; [discriminate|assumption].
Qed.

Lemma chk_seq c rq d l w : forall rest i q a,
  skipn i l = q :: rest -> nf w ->
  CHK (fun k => seq_from ops (con k) c d l i q rest a) n w (fun k st => con k c rq d (Seq l) st).
Proof.
  intros rest. revert w. induction rest as [|q' rest IHr]; intros w i q a Hi H.
  - cbn [seq_from]. destruct (seq_dst l i d) as [di|e] eqn:Ed; [|apply CHK_raise].
    eapply (chk_child c seq_req di q a c rq d (Seq l)
      (fun k x => match fst x with SUCCESS => ret (SUCCESS, PNary i (snd x)) | r => ret (r, PNary i (snd x)) end)
      (PNary i)); auto; [intros; mono| |].
    + intros k st. unfold stp. cbn [consume_step]. unfold nary_enter. rewrite (ex_resumable _ _ _ Hext). cbn [negb andb].
      rewrite Hi. cbn [seq_from]. now rewrite Ed.
    + intros r st w' Hr Hn. destruct r; apply CHK_ret; auto.
  - pose proof (skipn_nth _ _ _ _ Hi) as [Hq Hi'].
    cbn [seq_from]. destruct (seq_dst l i d) as [di|e] eqn:Ed; [|apply CHK_raise].
    eapply (chk_child c seq_req di q a c rq d (Seq l)
      (fun k x => match fst x with
        | SUCCESS => match seq_dst l (S i) d with
                     | Err e => raise e
                     | Done di' => bind (create ops c seq_req di' q') (fun a' =>
                                   seq_from ops (con k) c d l (S i) q' rest a')
                     end
        | r => ret (r, PNary i (snd x)) end)
      (PNary i)); auto.
    + intros x. destruct (fst x); mono. intros k m Hk. apply lsim_seq_from; auto using ops_rel_eq.
      intros ? ? ? ? ?. now apply Mono_consume.
    + intros k st. unfold stp. cbn [consume_step]. unfold nary_enter. rewrite (ex_resumable _ _ _ Hext). cbn [negb andb].
      rewrite Hi. cbn [seq_from]. now rewrite Ed.
    + intros r st w' Hr Hn. destruct r; cbn [fst snd]; [|apply CHK_ret; auto|congruence].
      destruct (seq_dst l (S i) d); [|apply CHK_raise].
      apply chk_neu; auto using neu_create.
Qed.

Lemma chk_alt c rq d l w : forall rest i q a,
  skipn i l = q :: rest -> nf w ->
  CHK (fun k => alt_from ops (con k) c rq d i q rest a) n w (fun k st => con k c rq d (Alt l) st).
Proof.
  intros rest. revert w. induction rest as [|q' rest IHr]; intros w i q a Hi H.
  - cbn [alt_from].
    eapply (chk_child c (alt_req rq) d q a c rq d (Alt l)
      (fun k x => match fst x with FAILURE => ret (FAILURE, PNary i (snd x)) | r => ret (r, PNary i (snd x)) end)
      (PNary i)); auto; [intros; mono| |].
    + intros k st. unfold stp. cbn [consume_step]. unfold nary_enter. rewrite (ex_resumable _ _ _ Hext). cbn [negb andb].
      now rewrite Hi.
    + intros r st w' Hr Hn. destruct r; apply CHK_ret; auto.
  - pose proof (skipn_nth _ _ _ _ Hi) as [Hq Hi'].
    cbn [alt_from].
    eapply (chk_child c (alt_req rq) d q a c rq d (Alt l)
      (fun k x => match fst x with
        | FAILURE => bind (create ops c (alt_req rq) d q') (fun a' =>
                                   alt_from ops (con k) c rq d (S i) q' rest a')
        | r => ret (r, PNary i (snd x)) end)
      (PNary i)); auto.
    + intros x. destruct (fst x); mono. intros k m Hk. apply lsim_alt_from; auto using ops_rel_eq.
      intros ? ? ? ? ?. now apply Mono_consume.
    + intros k st. unfold stp. cbn [consume_step]. unfold nary_enter. rewrite (ex_resumable _ _ _ Hext). cbn [negb andb].
      now rewrite Hi.
    + intros r st w' Hr Hn. destruct r; cbn [fst snd]; [apply CHK_ret; auto| |congruence].
      apply chk_neu; auto using neu_create.
Qed.

Lemma chk_repeat c rq d lo hi q m a w :
  nf w -> CHK (fun k => stp k c rq d (Repeat lo hi q) (PRepeat m a)) n w
              (fun k st => con k c rq d (Repeat lo hi q) st).
Proof.
  intros H.
  eapply (chk_child c (repeat_req lo hi rq) d q a c rq d (Repeat lo hi q)
    (fun k x => match fst x with
       | FAILURE => ret (if lo <=? m then SUCCESS else FAILURE, PRepeat m (snd x))
       | PARTIAL => ret (PARTIAL, PRepeat m (snd x))
       | SUCCESS =>
         if negb (hi =? 0) && (S m =? hi) then ret (SUCCESS, PRepeat (S m) (snd x))
         else bind (create ops c (repeat_req lo hi rq) d q)
                   (fun a' => con k c rq d (Repeat lo hi q) (PRepeat (S m) a'))
       end) (PRepeat m)); auto; [intros; mono|].
  intros r st w' Hr Hn. destruct r; cbn [fst snd]; [| |congruence].
  - destruct (_ && _); [apply CHK_ret; auto|]. apply chk_neu; auto using neu_create.
  - apply CHK_ret; auto. destruct (_ <=? _); discriminate.
Qed.

Lemma chk_not c rq d q a w :
  nf w -> CHK (fun k => stp k c rq d (Not q) (PNot a)) n w (fun k st => con k c rq d (Not q) st).
Proof.
  intros H.
  eapply (chk_child c (not_req rq) d q a c rq d (Not q)
    (fun k x => match fst x with
       | SUCCESS => bind (m_commit ops) (fun _ => ret (FAILURE, PNot (snd x)))
       | FAILURE => bind (m_commit ops) (fun _ => ret (SUCCESS, PNot (snd x)))
       | PARTIAL => ret (PARTIAL, PNot (snd x))
       end) PNot); auto; [intros; mono|].
  intros r st w' Hr Hn. destruct r; cbn [fst snd]; [| |congruence];
  (apply chk_neu; [apply neu_commit|assumption|intros; apply CHK_ret; [discriminate|assumption]]).
Qed.

Lemma chk_opt c rq d q a w :
  nf w -> CHK (fun k => stp k c rq d (Opt q) (POpt a)) n w (fun k st => con k c rq d (Opt q) st).
Proof.
  intros H.
  eapply (chk_child c (opt_req rq) d q a c rq d (Opt q)
    (fun k x => match fst x with
       | SUCCESS => ret (SUCCESS, POpt (snd x))
       | FAILURE => bind (m_commit ops) (fun _ => ret (SUCCESS, POpt (snd x)))
       | PARTIAL => ret (PARTIAL, POpt (snd x))
       end) POpt); auto; [intros; mono|].
  intros r st w' Hr Hn. destruct r; cbn [fst snd]; [apply CHK_ret; auto| |congruence].
  (apply chk_neu; [apply neu_commit|assumption|intros; apply CHK_ret; [discriminate|assumption]]).
Qed.

Lemma chk_forward c c' rq rq' d d' p q a w :
  (forall k st, stp k c rq d p (POne st) = forward_consume (con k) c' rq' d' q st) ->
  nf w -> CHK (fun k => stp k c rq d p (POne a)) n w (fun k st => con k c rq d p st).
Proof.
  intros HE H.
  assert (CHK (fun k => forward_consume (con k) c' rq' d' q a) n w (fun k st => con k c rq d p st)) as HC.
  { eapply (chk_child c' rq' d' q a c rq d p (fun k x => ret (fst x, POne (snd x))) POne); auto.
    - intros; mono.
    - intros r st w' Hr Hn. now apply CHK_ret. }
  unfold CHK in *. rewrite HE. destruct (forward_consume (con n) c' rq' d' q a w) as [[[r st] w']|e]; auto.
  destruct r; auto. destruct HC as [H1 H2]. split; auto.
  eapply EQ_trans; [|exact H2]. apply EQ_pt. intros k. now rewrite HE.
Qed.

Lemma chk_action c rq d act q land a w :
  nf w -> CHK (fun k => stp k c rq d (Act act q) (PAction land a)) n w
              (fun k st => con k c rq d (Act act q) st).
Proof.
  intros H.
  eapply (chk_cell c (action_req rq) (ac_land act) q a c rq d (Act act q) land
    (fun k x => let '((r, a'), buf') := x in
       match r with
       | SUCCESS => bind (act_dispatch act buf' d c) (fun _ => ret (SUCCESS, PAction buf' a'))
       | _ => ret (r, PAction buf' a')
       end) PAction); auto; [intros; mono|].
  intros r st v w' Hr Hn. destruct r; [|apply CHK_ret; auto|congruence].
  apply chk_neu; [apply neu_act_dispatch|assumption|]. intros. apply CHK_ret; [discriminate|assumption].
Qed.

Lemma chk_construct c rq d args q buf a w :
  nf w -> CHK (fun k => stp k c rq d (Construct args q) (PConstruct buf a)) n w
              (fun k st => con k c rq d (Construct args q) st).
Proof.
  intros H.
  eapply (chk_cell c (unatomic_req rq) (TTuple args) q a c rq d (Construct args q) buf
    (fun k x => let '((r, a'), buf') := x in
       match r with
       | SUCCESS => match make_from (dst_ty d) buf' with
                    | Err e => raise e
                    | Done v => bind (m_assign d v) (fun _ => ret (SUCCESS, PConstruct buf' a'))
                    end
       | _ => ret (r, PConstruct buf' a')
       end) PConstruct); auto; [intros; mono|].
  intros r st v w' Hr Hn. destruct r; [|apply CHK_ret; auto|congruence].
  destruct (make_from (dst_ty d) v); [|apply CHK_raise].
  apply chk_neu; [apply neu_assign|assumption|]. intros. apply CHK_ret; [discriminate|assumption].
Qed.

Lemma chk_except1 c rq d q neg a w :
  nf w -> CHK (fun k => bind (con k c (except_req rq) d q a) (fun y => ret (fst y, PExcept 1 (snd y)))) n w
              (fun k st => con k c rq d (Except q neg) st).
Proof.
  intros H.
  eapply (chk_child c (except_req rq) d q a c rq d (Except q neg)
            (fun k y => ret (fst y, PExcept 1 (snd y))) (PExcept 1)); auto; [intros; mono|].
  intros r st w' Hr Hn. now apply CHK_ret.
Qed.

Lemma chk_except c rq d q neg i a w :
  nf w -> CHK (fun k => stp k c rq d (Except q neg) (PExcept i a)) n w
              (fun k st => con k c rq d (Except q neg) st).
Proof.
  intros H. destruct i as [|[|i]].
  - eapply (chk_child c neg_req DNil neg a c rq d (Except q neg)
    (fun k x => match fst x with
       | PARTIAL => ret (PARTIAL, PExcept 0 (snd x))
       | SUCCESS => ret (FAILURE, PExcept 0 (snd x))
       | FAILURE => bind (create ops c (except_req rq) d q) (fun a' =>
                    bind (con k c (except_req rq) d q a') (fun y => ret (fst y, PExcept 1 (snd y))))
       end) (PExcept 0)); auto; [intros; mono|].
    intros r st w' Hr Hn. destruct r; cbn [fst snd]; [apply CHK_ret; [discriminate|assumption]| |congruence].
    apply chk_neu; [apply neu_create|assumption|]. intros. now apply chk_except1.
  - now apply chk_except1.
  - apply CHK_raise.
Qed.

Lemma chk_list c rq d q sep i a w :
  nf w -> CHK (fun k => stp k c rq d (PList q sep) (PListSt i a)) n w
              (fun k st => con k c rq d (PList q sep) st).
Proof.
  intros H. destruct i as [|[|i]].
  - eapply (chk_child c list_req d q a c rq d (PList q sep)
    (fun k x => match fst x with
       | SUCCESS => bind (m_cancel ops) (fun _ => bind (m_prepare ops) (fun _ =>
                    bind (create ops c sep_req DNil sep) (fun a' =>
                    con k c rq d (PList q sep) (PListSt 1 a'))))
       | FAILURE => bind (m_commit ops) (fun _ => ret (SUCCESS, PListSt 0 (snd x)))
       | PARTIAL => ret (PARTIAL, PListSt 0 (snd x))
       end) (PListSt 0)); auto; [intros; mono|].
    intros r st w' Hr Hn. destruct r; cbn [fst snd]; [| |congruence].
    + apply chk_neu; [apply neu_cancel|assumption|]. intros. apply chk_neu; [apply neu_prepare|assumption|]. intros.
      apply chk_neu; auto using neu_create.
    + apply chk_neu; [apply neu_commit|assumption|]. intros. apply CHK_ret; [discriminate|assumption].
  - eapply (chk_child c sep_req DNil sep a c rq d (PList q sep)
    (fun k x => match fst x with
       | SUCCESS => bind (create ops c list_req d q) (fun a' =>
                    con k c rq d (PList q sep) (PListSt 0 a'))
       | FAILURE => bind (m_commit ops) (fun _ => ret (SUCCESS, PListSt 1 (snd x)))
       | PARTIAL => ret (PARTIAL, PListSt 1 (snd x))
       end) (PListSt 1)); auto; [intros; mono|].
    intros r st w' Hr Hn. destruct r; cbn [fst snd]; [| |congruence].
    + apply chk_neu; auto using neu_create.
    + apply chk_neu; [apply neu_commit|assumption|]. intros. apply CHK_ret; [discriminate|assumption].
  - apply CHK_raise.
Qed.

Lemma chk_recur c rq d id b a w :
  nf w -> CHK (fun k => stp k c rq d (Recur id b) (PRecur a)) n w
              (fun k st => con k c rq d (Recur id b) st).
Proof.
  intros H. unfold stp. cbn [consume_step]. unfold recur_consume.
  destruct (env id) as [q|] eqn:E; [|apply CHK_raise].
  apply chk_neu; auto.
  { destruct a; [apply neu_ret|apply neu_create]. }
  intros a' w' H'.
  eapply (chk_child c recur_req d q a' c rq d (Recur id b)
           (fun k x => ret (fst x, PRecur (Some (snd x)))) (fun st => PRecur (Some st))); auto.
  - intros; mono.
  - intros k st. unfold stp. cbn [consume_step]. unfold recur_consume. rewrite E. reflexivity.
  - intros r st w'' Hr Hn. now apply CHK_ret.
Qed.

Lemma chk_nary l i (f : nat -> pat -> list pat -> MM (result * pst)) w G :
  (forall q rest, skipn i l = q :: rest -> CHK (fun k => f k q rest) n w G) ->
  CHK (fun k => nary_enter ops l i (f k)) n w G.
Proof.
  intros Hf. unfold nary_enter. rewrite (ex_resumable _ _ _ Hext). cbn [negb andb].
  destruct (skipn i l) as [|q rest]; [apply CHK_raise|]. auto.
Qed.

Lemma chk_step c rq d p st w :
  nf w -> CHK (fun k => stp k c rq d p st) n w (fun k st => con k c rq d p st).
Proof.
  intros H.
  destruct st; [now apply chk_skip|now apply chk_clean|now apply chk_atomic|..].
  all: destruct p; try (apply CHK_raise).
  all: try (apply CHK_ret; [discriminate|exact H]).
  - now apply chk_char.
  - now apply chk_char_symbol.
  - now apply chk_eoi.
  - now apply chk_lit.
  - now apply chk_sym.
  - now apply chk_uint.
  - now apply chk_int.
  - unfold stp. cbn [consume_step]. apply chk_nary. intros. now apply chk_seq.
  - unfold stp. cbn [consume_step]. apply chk_nary. intros. now apply chk_alt.
  - now apply chk_except.
  - now apply chk_list.
  - now apply chk_repeat.
  - now apply chk_not.
  - now apply chk_opt.
  - now eapply chk_forward.
  - now eapply chk_forward.
  - now eapply chk_forward.
  - now eapply chk_forward.
  - now apply chk_action.
  - now apply chk_construct.
  - now apply chk_recur.
Qed.
End Classes.

Lemma chk_all n : chk_n n.
Proof.
  induction n as [|n IH]; intros c rq d p st w H.
  - unfold CHK. cbn. auto.
  - apply CHK_shift; [apply Mono_consume|]. now apply (chk_step n IH).
Qed.

End Resume.
