(** Everything in the big-step relation is done by the machine. *)
From Coq Require Import List ZArith Bool Arith Lia.
From Verif Require Import Base CharSet Source Dst Pattern Parser Rel Safety Keep Limit Big BigMk BigLeaf BigSound.
Import ListNotations.

Lemma mk_map_done k f cs a cs1 : f cs = Done (a, cs1) -> mk_map k f cs = Done (k a, cs1).
Proof. intros H. unfold mk_map. now rewrite H. Qed.

Lemma mk_cell_done v k f cs a csx :
  (forall l, lenp (f l)) -> f (length cs) (cs ++ [v]) = Done (a, csx) ->
  exists v1 cs1, csx = cs1 ++ [v1] /\ length cs1 = length cs /\ mk_cell v k f cs = Done (k v1 a, cs1).
Proof.
  intros H E. pose proof (H _ _ _ _ E) as L. rewrite app_length in L. cbn in L.
  destruct (nth_error csx (length cs)) as [v1|] eqn:N.
  - exists v1, (firstn (length cs) csx). split; [|split].
    + apply split_last; auto. lia.
    + rewrite firstn_length. lia.
    + unfold mk_cell. now rewrite E, N.
  - apply nth_error_None in N. lia.
Qed.

Section Complete.
Context (env : nat -> option pat).
Hypothesis Henv : forall id q, env id = Some q -> mok true recur_req q = true.
Notation consume := (consume sf_ops env).
Notation ev := (ev env).
Notation gconsume := (gconsume env).

Definition Cmp g c rq d p x (w : sw) (r : bool) (w' : sw) : Prop :=
  forall h base, cok c = true -> gok h g rq p = true ->
  exists st cs1, mkg g c rq d p (q_c w) = Done (st, cs1) /\
  exists st' lk, (h = true -> lk = []) /\
    evt (fun n => gconsume n g c rq d p st (W (q_s w) (gstk g x st base) cs1 (q_t w)))
        (Done ((res r, st'), W (q_s w') (lk ++ base) (q_c w') (q_t w'))).

Lemma with_cell_done n c rq t p a v1 s stk cs1 tr r a' v' src cs' tr' :
  consume n c rq (dst_cell (length cs1) t) p a (W s stk (cs1 ++ [v1]) tr)
      = Done ((r, a'), World src (cs' ++ [v']) tr') -> length cs' = length cs1 ->
  with_cell v1 (fun lvl => consume n c rq (dst_cell lvl t) p a) (W s stk cs1 tr)
      = Done (((r, a'), v'), World src cs' tr').
Proof.
  intros H L. unfold with_cell. cbn [w_cells w_src w_trace]. rewrite H. cbn [w_cells w_src w_trace].
  rewrite nth_error_app2 by lia. rewrite <- L, Nat.sub_diag. cbn [nth_error].
  rewrite firstn_app, firstn_all, Nat.sub_diag. cbn. now rewrite app_nil_r.
Qed.

Lemma bind_done {S A B} (m : M S A) (f : A -> M S B) w a w1 :
  m w = Done (a, w1) -> bind m f w = f a w1.
Proof. unfold bind. now intros ->. Qed.

(** One more round of fuel. *)
Lemma up {X} (f g : nat -> outcome X) o n0 :
  (forall n, n0 <= n -> f (S n) = o) -> evt f o.
Proof. intros H. exists (S n0). intros [|n] Hn; [lia|]. apply H. lia. Qed.

Lemma strip_evt c rq d p st w r w' :
  evt (fun n => strip (consume n c rq d p st w)) (Done (r, w')) ->
  exists st', evt (fun n => consume n c rq d p st w) (Done ((r, st'), w')).
Proof.
  intros [n0 H]. pose proof (H n0 (le_n _)) as H0.
  destruct (consume n0 c rq d p st w) as [[[r0 st'] w0]|] eqn:E; [|discriminate]. cbn in H0. injection H0 as -> ->.
  exists st'. now apply evt_of in E.
Qed.

Ltac start := intros h base Hc Hp; cbn [gok mokr mkg mk_raw q_s q_c q_t] in *.
Ltac fin lk := intros; exists lk.

Lemma leaf_cmp c rq d p st x w r s cs :
  (forall base, evt (fun n => strip (consume n c rq d p st (W (q_s w) base (q_c w) (q_t w))))
       (Done (res r, W s base cs (q_t w)))) ->
  forall c0, mk_raw (sk_of (c_skip c)) rq d p c0 = Done (st, q_c w) -> owed st = 0 ->
  Cmp GRaw c rq d p x (SW (q_s w) c0 (q_t w)) r (SW s cs (q_t w)).
Proof.
  intros HE c0 Hk Ho h base _ _. cbn [mkg q_c q_s q_t]. exists st, (q_c w). split; [exact Hk|].
  destruct (strip_evt _ _ _ _ _ _ _ _ (HE base)) as [st' H]. exists st', []. split; [auto|].
  cbn [BigSound.gconsume gstk]. rewrite Ho. exact H.
Qed.

Theorem complete_all g c rq d p x w r w' : ev g c rq d p x w r w' -> Cmp g c rq d p x w r w'.
Proof.
  induction 1.
  - (* recur *)
    start. destruct (IHev h base Hc) as (st & cs1 & Hk & st' & lk & Hlk & HE).
    { cbn [gok]. rewrite mok_eq in Hp. unfold raw_req in Hp. rewrite H in Hp. cbn in Hp. now rewrite orb_false_r in Hp. }
    exists st, cs1. split.
    + unfold mk. rewrite mk_in_eq. unfold mk_adapt. now rewrite H.
    + exists st', lk. split; auto.
  - (* no skipper *)
    start. destruct (IHev h base Hc) as (st & cs1 & Hk & st' & lk & Hlk & HE).
    { cbn [gok]. now rewrite H, Hp. }
    exists st, cs1. split.
    + unfold mk. rewrite mk_in_eq. unfold mk_adapt, sk_of. rewrite H, H0.
      cbn [mkg] in Hk. unfold mk_cln, sk_of in Hk. now rewrite H0 in Hk.
    + exists st', lk. split; auto.
  - (* skipper *)
    start. destruct (IHev h base Hc) as (st & cs1 & Hk & st' & lk & Hlk & HE).
    { cbn [gok]. now rewrite H, Hp. }
    exists st, cs1. split.
    + unfold mk. rewrite mk_in_eq. unfold mk_adapt, sk_of. rewrite H, H0.
      cbn [mkg] in Hk. unfold mk_cln, sk_of in Hk. now rewrite H0 in Hk.
    + exists st', lk. split; auto.
  - (* skip more *)
    intros h base Hc Hp. destruct (IHev h base Hc Hp) as (st & cs1 & Hk & st' & lk & Hlk & n0 & HE).
    cbn [at_ q_c q_s q_t] in *. exists st, cs1. split; [exact Hk|]. exists st', lk. split; [exact Hlk|].
    assert (sfree (c_skip c) = true) as Hf by (unfold cok in Hc; destruct (c_skip c); cbn in *; auto).
    cbn [mkg] in Hk. apply mk_map_inv in Hk. destruct Hk as (a & -> & Hk).
    destruct (skip_leaf env (c_skip c) (gstk GSkip x (PSkip false (skip_st (c_skip c)) a) base) cs1 (q_t w) Hf (q_s w)) as [n1 H1].
    exists (S (max n0 n1)). intros [|n] Hn; [lia|]. specialize (H1 n ltac:(lia)). unfold skip_out in H1. rewrite H in H1.
    cbn [BigSound.gconsume Parser.consume consume_step]. unfold skip_consume. unfold bind at 1.
    destruct (consume n skip_ctx skip_req DNil (c_skip c) (skip_st (c_skip c)) _) as [[[r0 s0] w0]|]; [|discriminate].
    cbn in H1. injection H1 as -> ->. cbn [fst snd]. unfold bind, create.
    change (mk_skip_of sf_ops skip_ctx) with (@None (M sfwd pst)).
    rewrite (proj1 (makes_skip _ Hf)). cbn [mk_ret]. rewrite (proj2 (makes_skip _ Hf)).
    specialize (HE n ltac:(lia)). cbn [BigSound.gconsume gstk owed] in HE. rewrite (proj2 (makes_skip _ Hf)) in HE. exact HE.
  - (* skip end *)
    intros h base Hc Hp. destruct (IHev h base Hc Hp) as (st & cs1 & Hk & st' & lk & Hlk & n0 & HE).
    exists (PSkip false (skip_st (c_skip c)) st), cs1. split; [now apply mk_map_done|].
    assert (sfree (c_skip c) = true) as Hf by (unfold cok in Hc; destruct (c_skip c); cbn in *; auto).
    destruct (skip_leaf env (c_skip c) (gstk GSkip x (PSkip false (skip_st (c_skip c)) st) base) cs1 (q_t w) Hf (q_s w)) as [n1 H1].
    assert (exists s1, forall n, n1 <= n -> consume n skip_ctx skip_req DNil (c_skip c) (skip_st (c_skip c))
       (W (q_s w) (gstk GSkip x (PSkip false (skip_st (c_skip c)) st) base) cs1 (q_t w)) = Done ((FAILURE, s1),
       W (q_s w) (gstk GSkip x (PSkip false (skip_st (c_skip c)) st) base) cs1 (q_t w))) as [s1 HS].
    { pose proof (H1 n1 (le_n _)) as H2. unfold skip_out in H2. rewrite H in H2.
      destruct (consume n1 _ _ _ _ _ _) as [[[r0 s0] w0]|] eqn:E; [|discriminate]. cbn in H2. injection H2 as -> ->.
      exists s0. intros n Hn. now apply (consume_up env _ _ _ _ _ _ n1). }
    exists (PSkip true s1 st'), lk. split; [exact Hlk|].
    exists (S (S (max n0 n1))). intros [|[|n]] Hn; [lia|lia|].
    cbn [BigSound.gconsume]. change (consume (S (S n))) with (consume_step sf_ops env (consume (S n))).
    cbn [consume_step]. unfold skip_consume. unfold bind at 1. rewrite HS by lia. cbn [fst snd].
    cbn [Parser.consume consume_step]. unfold skip_consume, bind.
    specialize (HE n ltac:(lia)). cbn [BigSound.gconsume] in HE.
    replace (gstk GSkip x (PSkip false (skip_st (c_skip c)) st) base) with (gstk GCln x st base).
    2:{ cbn [gstk owed]. rewrite (proj2 (makes_skip _ Hf)). reflexivity. }
    rewrite HE. reflexivity.
  - (* clean, not needed *)
    start. apply andb_prop in Hp. destruct Hp as [Hr Hp]. apply negb_true_iff in Hr.
    destruct (IHev h base Hc) as (st & cs1 & Hk & st' & lk & Hlk & HE).
    { cbn [gok]. rewrite mok_eq in Hp. unfold raw_req in Hp. rewrite Hr, H in Hp. cbn in Hp. now rewrite orb_false_r in Hp. }
    exists st, cs1. split; [unfold mk_cln, mk_cln_of; now rewrite H|]. exists st', lk. auto.
  - (* clean, success *)
    start. apply andb_prop in Hp. destruct Hp as [Hr Hp]. apply negb_true_iff in Hr.
    destruct (IHev true (x :: base) Hc) as (st & cs1 & Hk & st' & lk & Hlk & n0 & HE).
    { cbn [gok]. rewrite mok_eq in Hp. unfold raw_req in Hp. rewrite Hr, H in Hp. cbn in Hp. now rewrite orb_true_r in Hp. }
    exists (PClean st), cs1. split; [unfold mk_cln, mk_cln_of; rewrite H; now apply mk_map_done|].
    exists (PClean st'), []. split; auto. rewrite (Hlk eq_refl) in HE. cbn [app] in *.
    exists (S n0). intros [|n] Hn; [lia|]. specialize (HE n ltac:(lia)). cbn [BigSound.gconsume gstk owed repeat app] in *.
    rewrite repeat_mid. cbn [Parser.consume consume_step]. unfold clean_consume.
    rewrite (bind_done _ _ _ _ _ HE). reflexivity.
  - (* clean, failure *)
    start. apply andb_prop in Hp. destruct Hp as [Hr Hp]. apply negb_true_iff in Hr.
    destruct (IHev true (x :: base) Hc) as (st & cs1 & Hk & st' & lk & Hlk & n0 & HE).
    { cbn [gok]. rewrite mok_eq in Hp. unfold raw_req in Hp. rewrite Hr, H in Hp. cbn in Hp. now rewrite orb_true_r in Hp. }
    exists (PClean st), cs1. split; [unfold mk_cln, mk_cln_of; rewrite H; now apply mk_map_done|].
    exists (PClean st'), []. split; auto. rewrite (Hlk eq_refl) in HE. cbn [app] in *.
    exists (S n0). intros [|n] Hn; [lia|]. specialize (HE n ltac:(lia)). cbn [BigSound.gconsume gstk owed repeat app] in *.
    rewrite repeat_mid. cbn [Parser.consume consume_step]. unfold clean_consume.
    rewrite (bind_done _ _ _ _ _ HE). reflexivity.
  - (* atomic, not needed *)
    start. unfold atm_req in Hp. rewrite H in Hp.
    destruct (IHev h base Hc Hp) as (st & cs1 & Hk & st' & lk & Hlk & HE).
    exists st, cs1. split; [unfold mk_atm, mk_atm_of; now rewrite H|]. exists st', lk. auto.
  - (* atomic, success *)
    start. unfold atm_req in Hp. rewrite H in Hp.
    destruct (IHev h base Hc Hp) as (st & csx & Hk & st' & lk & Hlk & n0 & HE).
    cbn [with_c q_c q_s q_t mkg] in *.
    destruct (mk_cell_done (default_init (dst_value_ty d)) PAtomic
       (fun lvl => mk_raw (sk_of (c_skip c)) (unatomic_req rq) (dst_cell lvl (dst_value_ty d)) p) (q_c w) st csx)
       as (v1 & cs1 & -> & HL & Hm); [intros; apply lenp_raw|exact Hk|].
    exists (PAtomic v1 st), cs1. split; [unfold mk_atm, mk_atm_of; rewrite H; exact Hm|].
    exists (PAtomic v st'), lk. split; auto.
    exists (S n0). intros [|n] Hn; [lia|]. specialize (HE n ltac:(lia)). cbn [BigSound.gconsume gstk owed] in *.
    cbn [Parser.consume consume_step]. unfold atomic_consume.
    rewrite <- HL in HE. apply with_cell_done in HE; [|congruence].
    rewrite (bind_done _ _ _ _ _ HE). cbn [res]. unfold bind, m_assign, on_cells. cbn. now rewrite H2.
  - (* atomic, failure *)
    start. unfold atm_req in Hp. rewrite H in Hp.
    destruct (IHev h base Hc Hp) as (st & csx & Hk & st' & lk & Hlk & n0 & HE).
    cbn [with_c q_c q_s q_t mkg] in *.
    destruct (mk_cell_done (default_init (dst_value_ty d)) PAtomic
       (fun lvl => mk_raw (sk_of (c_skip c)) (unatomic_req rq) (dst_cell lvl (dst_value_ty d)) p) (q_c w) st csx)
       as (v1 & cs1 & -> & HL & Hm); [intros; apply lenp_raw|exact Hk|].
    exists (PAtomic v1 st), cs1. split; [unfold mk_atm, mk_atm_of; rewrite H; exact Hm|].
    exists (PAtomic v st'), lk. split; auto.
    exists (S n0). intros [|n] Hn; [lia|]. specialize (HE n ltac:(lia)). cbn [BigSound.gconsume gstk owed] in *.
    cbn [Parser.consume consume_step]. unfold atomic_consume.
    rewrite <- HL in HE. apply with_cell_done in HE; [|congruence].
    rewrite (bind_done _ _ _ _ _ HE). reflexivity.
  - (* Char *)
    start. exists PLeaf, ce. split; [reflexivity|]. exists PLeaf, []. split; auto.
    exists 1. intros [|n] Hn; [lia|]. cbn [BigSound.gconsume Parser.consume consume_step gstk owed repeat app].
    unfold char_consume, bind. cbn. rewrite H. unfold m_assign, on_cells. cbn. now rewrite H0.
  - start. exists PLeaf, (q_c w). split; [reflexivity|]. exists PLeaf, []. split; auto.
    exists 1. intros [|n] Hn; [lia|]. cbn [BigSound.gconsume Parser.consume consume_step gstk owed repeat app].
    unfold char_consume, starved, bind. destruct (q_s w); cbn; [reflexivity|]. now rewrite H.
  - (* CharSymbol *)
    start. exists PLeaf, ce. split; [reflexivity|]. exists PLeaf, []. split; auto.
    exists 1. intros [|n] Hn; [lia|]. cbn [BigSound.gconsume Parser.consume consume_step gstk owed repeat app].
    unfold char_symbol_consume, bind. cbn. rewrite H. unfold m_assign, on_cells. cbn. now rewrite H0.
  - start. exists PLeaf, (q_c w). split; [reflexivity|]. exists PLeaf, []. split; auto.
    exists 1. intros [|n] Hn; [lia|]. cbn [BigSound.gconsume Parser.consume consume_step gstk owed repeat app].
    unfold char_symbol_consume, starved, bind. destruct (q_s w); cbn; [reflexivity|]. now rewrite H.
  - (* Eoi *)
    start. exists PLeaf, (q_c w). split; [reflexivity|]. exists PLeaf, []. split; auto.
    exists 1. intros [|n] Hn; [lia|]. cbn [BigSound.gconsume Parser.consume consume_step gstk owed repeat app].
    unfold eoi_consume, bind. destruct (q_s w); reflexivity.
  - (* Pass *)
    start. exists PLeaf, (q_c w). split; [now rewrite H|]. exists PLeaf, []. split; auto.
    exists 1. intros [|n] Hn; [lia|]. reflexivity.
  - (* Fail *)
    start. exists PLeaf, (q_c w). split; [reflexivity|]. exists PLeaf, []. split; auto.
    exists 1. intros [|n] Hn; [lia|]. reflexivity.
  - (* Lit *)
    destruct w as [s0 cs tr]. apply (leaf_cmp c rq d (Lit l) (PLit l) x (SW s0 cs tr)); auto.
    intros base. cbn [q_s q_c q_t] in *. pose proof (lit_leaf env c rq d l base cs tr l s0) as L. now rewrite H in L.
  - (* Symbol *)
    destruct w as [s0 cs0 tr]. apply (leaf_cmp c rq d (Symbol m) (PSym (trie_build m) None) x (SW s0 cs0 tr)); auto.
    intros base. cbn [q_s q_c q_t] in *. pose proof (sym_leaf env c rq d m base tr cs0 s0 (trie_build m) None []) as L.
    rewrite H in L. exact L.
  - (* UInt *)
    destruct w as [s0 cs0 tr]. cbn [q_s q_c q_t] in *.
    apply (leaf_cmp c rq d (UInt b lo hi) (PUInt 0) x (SW s0 c0 tr)); auto.
    2:{ cbn [mk_raw]. now rewrite H. }
    intros base. cbn [q_s q_c q_t] in *. pose proof (uint_leaf env c rq d b lo hi base tr s0 c0 0%Z) as L.
    rewrite H0 in L. exact L.
  - (* Int *)
    destruct w as [s0 cs0 tr]. cbn [q_s q_c q_t] in *.
    apply (leaf_cmp c rq d (Int b lo hi) (PInt 0 true false) x (SW s0 c0 tr)); auto.
    2:{ cbn [mk_raw]. now rewrite H. }
    intros base. cbn [q_s q_c q_t] in *. pose proof (int_leaf env c rq d b lo hi base tr s0 c0) as L.
    rewrite H0 in L. exact L.
  - (* Seq *)
    intros h base Hc Hp. destruct (IHev h base Hc Hp) as (st & cs1 & Hk & st' & lk & Hlk & n0 & HE).
    cbn [mkg] in Hk. destruct l as [|q l]; [discriminate|]. cbn [nth_error] in Hk.
    destruct (seq_dst (q :: l) 0 d) as [di|] eqn:Ed; [|discriminate].
    exists st, cs1. split; [cbn [mkg mk_raw]; now rewrite Ed|]. exists st', lk. split; auto.
    apply mk_map_inv in Hk. destruct Hk as (a & -> & Hk).
    exists (S n0). intros [|n] Hn; [lia|]. specialize (HE (S n) ltac:(lia)). exact HE.
  - (* Seq: failure *)
    start. destruct (IHev h base Hc) as (st & cs1 & Hk & st' & lk & Hlk & n0 & HE).
    { rewrite forallb_forall in Hp. apply nth_error_In in H. exact (Hp _ H). }
    exists (PNary i st), cs1. rewrite H, H0. split; [now apply mk_map_done|]. exists (PNary i st'), lk. split; auto.
    exists (S n0). intros [|n] Hn; [lia|]. specialize (HE n ltac:(lia)). cbn [BigSound.gconsume gstk owed] in *.
    assert (exists rest, skipn i l = q :: rest) as [rest ->].
    { destruct (skipn i l) eqn:Es; [|apply skipn_nth in Es; rewrite H in Es; injection Es as ->; eauto].
      assert (length (skipn i l) = 0) as L0 by now rewrite Es. rewrite skipn_length in L0.
      assert (i < length l) by (apply nth_error_Some; congruence). lia. }
    destruct rest; cbn [seq_from]; rewrite H0; rewrite (bind_done _ _ _ _ _ HE); reflexivity.
  - (* Seq: end *)
    start. destruct (IHev h base Hc) as (st & cs1 & Hk & st' & lk & Hlk & n0 & HE).
    { rewrite forallb_forall in Hp. apply nth_error_In in H. exact (Hp _ H). }
    exists (PNary i st), cs1. rewrite H, H1. split; [now apply mk_map_done|]. exists (PNary i st'), lk. split; auto.
    exists (S n0). intros [|n] Hn; [lia|]. specialize (HE n ltac:(lia)). cbn [BigSound.gconsume gstk owed] in *.
    assert (skipn i l = [q]) as ->.
    { destruct (skipn i l) as [|y [|z t]] eqn:Es.
      - assert (length (skipn i l) = 0) as L0 by now rewrite Es. rewrite skipn_length in L0.
        assert (i < length l) by (apply nth_error_Some; congruence). lia.
      - apply skipn_nth in Es. congruence.
      - assert (length (skipn i l) >= 2) as L0 by (rewrite Es; cbn; lia). rewrite skipn_length in L0.
        apply nth_error_None in H0. lia. }
    cbn [seq_from]; rewrite H1; rewrite (bind_done _ _ _ _ _ HE); reflexivity.
  - (* Seq: next *)
    intros h base Hc Hp. destruct (IHev1 h base Hc) as (st & cs1 & Hk & st' & lk & Hlk & n0 & HE).
    { cbn [gok mokr] in *. rewrite forallb_forall in Hp. apply nth_error_In in H. exact (Hp _ H). }
    destruct (IHev2 h (lk ++ base) Hc Hp) as (st2 & cs2 & Hk2 & st2' & lk2 & Hlk2 & n1 & HE2).
    cbn [mkg] in *. rewrite H0 in Hk2. destruct (seq_dst l (S i) d) as [di'|] eqn:Ed; [|discriminate].
    apply mk_map_inv in Hk2. destruct Hk2 as (a2 & -> & Hk2).
    exists (PNary i st), cs1. rewrite H, H1. split; [now apply mk_map_done|]. exists st2', (lk2 ++ lk). split.
    { intros Hh. rewrite Hlk2, Hlk by auto. reflexivity. }
    exists (S (max n0 n1)). intros [|n] Hn; [lia|].
    specialize (HE n ltac:(lia)). specialize (HE2 (S n) ltac:(lia)). cbn [BigSound.gconsume gstk owed] in *.
    assert (exists rest, skipn i l = q :: rest /\ skipn (S i) l = rest) as (rest & E1 & E2).
    { clear - H. revert l H. induction i as [|i IHi]; intros [|y l] H; try discriminate.
      - injection H as ->. cbn. eauto.
      - cbn in H. apply IHi in H. cbn. exact H. }
    rewrite E2 in HE2. destruct rest as [|q'' rest]; [discriminate|].
    apply skipn_nth in E2 as E3. assert (q'' = q') as -> by congruence.
    rewrite E1. cbn [seq_from]. rewrite H1. rewrite (bind_done _ _ _ _ _ HE). cbn [fst snd res]. rewrite Ed.
    unfold bind. rewrite (create_mk c seq_req di' q').
    2: exact Hc. 2:{ cbn [gok mokr] in Hp. rewrite forallb_forall in Hp. apply nth_error_In in H0. eapply mok_skips. eauto. }
    rewrite Hk2. rewrite <- app_assoc. exact HE2.
  - (* Alt *)
    intros h base Hc Hp. destruct (IHev h base Hc Hp) as (st & cs1 & Hk & st' & lk & Hlk & n0 & HE).
    cbn [mkg] in Hk. destruct l as [|q l]; [discriminate|]. cbn [nth_error] in Hk.
    exists st, cs1. split; [exact Hk|]. exists st', lk. split; auto.
    apply mk_map_inv in Hk. destruct Hk as (a & -> & Hk).
    exists (S n0). intros [|n] Hn; [lia|]. specialize (HE (S n) ltac:(lia)). exact HE.
  - (* Alt: success *)
    start. destruct (IHev h base Hc) as (st & cs1 & Hk & st' & lk & Hlk & n0 & HE).
    { rewrite forallb_forall in Hp. apply nth_error_In in H. exact (Hp _ H). }
    exists (PNary i st), cs1. rewrite H. split; [now apply mk_map_done|]. exists (PNary i st'), lk. split; auto.
    exists (S n0). intros [|n] Hn; [lia|]. specialize (HE n ltac:(lia)). cbn [BigSound.gconsume gstk owed] in *.
    assert (exists rest, skipn i l = q :: rest) as [rest ->].
    { destruct (skipn i l) eqn:Es; [|apply skipn_nth in Es; rewrite H in Es; injection Es as ->; eauto].
      assert (length (skipn i l) = 0) as L0 by now rewrite Es. rewrite skipn_length in L0.
      assert (i < length l) by (apply nth_error_Some; congruence). lia. }
    destruct rest; cbn [alt_from]; rewrite (bind_done _ _ _ _ _ HE); reflexivity.
  - (* Alt: end *)
    start. destruct (IHev h base Hc) as (st & cs1 & Hk & st' & lk & Hlk & n0 & HE).
    { rewrite forallb_forall in Hp. apply nth_error_In in H. exact (Hp _ H). }
    exists (PNary i st), cs1. rewrite H. split; [now apply mk_map_done|]. exists (PNary i st'), lk. split; auto.
    exists (S n0). intros [|n] Hn; [lia|]. specialize (HE n ltac:(lia)). cbn [BigSound.gconsume gstk owed] in *.
    assert (skipn i l = [q]) as ->.
    { destruct (skipn i l) as [|y [|z t]] eqn:Es.
      - assert (length (skipn i l) = 0) as L0 by now rewrite Es. rewrite skipn_length in L0.
        assert (i < length l) by (apply nth_error_Some; congruence). lia.
      - apply skipn_nth in Es. congruence.
      - assert (length (skipn i l) >= 2) as L0 by (rewrite Es; cbn; lia). rewrite skipn_length in L0.
        apply nth_error_None in H0. lia. }
    cbn [alt_from]; rewrite (bind_done _ _ _ _ _ HE); reflexivity.
  - (* Alt: next *)
    intros h base Hc Hp. destruct (IHev1 h base Hc) as (st & cs1 & Hk & st' & lk & Hlk & n0 & HE).
    { cbn [gok mokr] in *. rewrite forallb_forall in Hp. apply nth_error_In in H. exact (Hp _ H). }
    destruct (IHev2 h (lk ++ base) Hc Hp) as (st2 & cs2 & Hk2 & st2' & lk2 & Hlk2 & n1 & HE2).
    cbn [mkg] in *. rewrite H0 in Hk2.
    apply mk_map_inv in Hk2. destruct Hk2 as (a2 & -> & Hk2).
    exists (PNary i st), cs1. rewrite H. split; [now apply mk_map_done|]. exists st2', (lk2 ++ lk). split.
    { intros Hh. rewrite Hlk2, Hlk by auto. reflexivity. }
    exists (S (max n0 n1)). intros [|n] Hn; [lia|].
    specialize (HE n ltac:(lia)). specialize (HE2 (S n) ltac:(lia)). cbn [BigSound.gconsume gstk owed] in *.
    assert (exists rest, skipn i l = q :: rest /\ skipn (S i) l = rest) as (rest & E1 & E2).
    { clear - H. revert l H. induction i as [|i IHi]; intros [|y l] H; try discriminate.
      - injection H as ->. cbn. eauto.
      - cbn in H. apply IHi in H. cbn. exact H. }
    rewrite E2 in HE2. destruct rest as [|q'' rest]; [discriminate|].
    apply skipn_nth in E2 as E3. assert (q'' = q') as -> by congruence.
    rewrite E1. cbn [alt_from]. rewrite (bind_done _ _ _ _ _ HE). cbn [fst snd res].
    unfold bind. rewrite (create_mk c (alt_req rq) d q').
    2: exact Hc. 2:{ cbn [gok mokr] in Hp. rewrite forallb_forall in Hp. apply nth_error_In in H0. eapply mok_skips. eauto. }
    rewrite Hk2. rewrite <- app_assoc. exact HE2.
  - (* Repeat *)
    intros h base Hc Hp. destruct (IHev h base Hc Hp) as (st & cs1 & Hk & st' & lk & Hlk & n0 & HE).
    exists st, cs1. split; [cbn [mkg mk_raw]; rewrite H; exact Hk|]. exists st', lk. split; auto.
    cbn [mkg] in Hk. apply mk_map_inv in Hk. destruct Hk as (a & -> & Hk). exists n0. exact HE.
  - (* Repeat: stop *)
    start. destruct (IHev h base Hc Hp) as (st & cs1 & Hk & st' & lk & Hlk & n0 & HE).
    exists (PRepeat n st), cs1. split; [now apply mk_map_done|]. exists (PRepeat n st'), lk. split; auto.
    exists (S n0). intros [|k] Hn; [lia|]. specialize (HE k ltac:(lia)). cbn [BigSound.gconsume gstk owed] in *.
    cbn [Parser.consume consume_step]. unfold repeat_consume. rewrite (bind_done _ _ _ _ _ HE). reflexivity.
  - (* Repeat: full *)
    start. destruct (IHev h base Hc Hp) as (st & cs1 & Hk & st' & lk & Hlk & n0 & HE).
    exists (PRepeat n st), cs1. split; [now apply mk_map_done|]. exists (PRepeat (S n) st'), lk. split; auto.
    exists (S n0). intros [|k] Hn; [lia|]. specialize (HE k ltac:(lia)). cbn [BigSound.gconsume gstk owed] in *.
    cbn [Parser.consume consume_step]. unfold repeat_consume. rewrite (bind_done _ _ _ _ _ HE).
    cbn [fst snd res]. rewrite H0. reflexivity.
  - (* Repeat: more *)
    intros h base Hc Hp. destruct (IHev1 h base Hc Hp) as (st & cs1 & Hk & st' & lk & Hlk & n0 & HE).
    destruct (IHev2 h (lk ++ base) Hc Hp) as (st2 & cs2 & Hk2 & st2' & lk2 & Hlk2 & n1 & HE2).
    cbn [mkg] in *. apply mk_map_inv in Hk2. destruct Hk2 as (a2 & -> & Hk2).
    exists (PRepeat n st), cs1. split; [now apply mk_map_done|]. exists st2', (lk2 ++ lk). split.
    { intros Hh. rewrite Hlk2, Hlk by auto. reflexivity. }
    exists (S (max n0 n1)). intros [|k] Hn; [lia|].
    specialize (HE k ltac:(lia)). specialize (HE2 k ltac:(lia)). cbn [BigSound.gconsume gstk owed] in *.
    cbn [Parser.consume consume_step]. unfold repeat_consume. rewrite (bind_done _ _ _ _ _ HE). cbn [fst snd res].
    rewrite H0. unfold bind. rewrite (create_mk c (repeat_req lo hi rq) d q); [|exact Hc|].
    2:{ cbn [gok mokr] in Hp. eapply mok_skips. eauto. }
    rewrite Hk2. rewrite <- app_assoc. exact HE2.
  - (* Not *)
    start. destruct (IHev true (x :: base) Hc Hp) as (st & cs1 & Hk & st' & lk & Hlk & n0 & HE).
    exists (PNot st), cs1. split; [now apply mk_map_done|]. exists (PNot st'), []. split; auto.
    rewrite (Hlk eq_refl) in HE. cbn [app] in *.
    exists (S n0). intros [|k] Hn; [lia|]. specialize (HE k ltac:(lia)). cbn [BigSound.gconsume gstk owed repeat app] in *.
    rewrite repeat_mid. cbn [Parser.consume consume_step]. unfold not_consume. rewrite (bind_done _ _ _ _ _ HE).
    destruct r; reflexivity.
  - (* Opt: match *)
    start. apply andb_prop in Hp. destruct Hp as [Hh Hp].
    destruct (IHev true (x :: base) Hc Hp) as (st & cs1 & Hk & st' & lk & Hlk & n0 & HE).
    exists (POpt st), cs1. split; [now apply mk_map_done|]. exists (POpt st'), [x].
    split; [intros ->; discriminate|]. rewrite (Hlk eq_refl) in HE. cbn [app] in *.
    exists (S n0). intros [|k] Hn; [lia|]. specialize (HE k ltac:(lia)). cbn [BigSound.gconsume gstk owed repeat app] in *.
    rewrite repeat_mid. cbn [Parser.consume consume_step]. unfold opt_consume. rewrite (bind_done _ _ _ _ _ HE).
    reflexivity.
  - (* Opt: no match *)
    start. apply andb_prop in Hp. destruct Hp as [Hh Hp].
    destruct (IHev true (x :: base) Hc Hp) as (st & cs1 & Hk & st' & lk & Hlk & n0 & HE).
    exists (POpt st), cs1. split; [now apply mk_map_done|]. exists (POpt st'), []. split; auto.
    rewrite (Hlk eq_refl) in HE. cbn [app] in *.
    exists (S n0). intros [|k] Hn; [lia|]. specialize (HE k ltac:(lia)). cbn [BigSound.gconsume gstk owed repeat app] in *.
    rewrite repeat_mid. cbn [Parser.consume consume_step]. unfold opt_consume. rewrite (bind_done _ _ _ _ _ HE).
    reflexivity.
  - (* Discard *)
    start. destruct (IHev h base Hc Hp) as (st & cs1 & Hk & st' & lk & Hlk & n0 & HE).
    exists (POne st), cs1. split; [now apply mk_map_done|]. exists (POne st'), lk. split; auto.
    exists (S n0). intros [|k] Hn; [lia|]. specialize (HE k ltac:(lia)). cbn [BigSound.gconsume gstk owed] in *.
    cbn [Parser.consume consume_step]. unfold forward_consume. now rewrite (bind_done _ _ _ _ _ HE).
  - (* Lexeme *)
    start. destruct (IHev h base eq_refl Hp) as (st & cs1 & Hk & st' & lk & Hlk & n0 & HE).
    exists (POne st), cs1. split; [now apply mk_map_done|]. exists (POne st'), lk. split; auto.
    exists (S n0). intros [|k] Hn; [lia|]. specialize (HE k ltac:(lia)). cbn [BigSound.gconsume gstk owed] in *.
    cbn [Parser.consume consume_step]. unfold forward_consume. now rewrite (bind_done _ _ _ _ _ HE).
  - (* WithSkipper *)
    start. apply andb_prop in Hp. destruct Hp as [Hs Hp].
    destruct (IHev h base Hs Hp) as (st & cs1 & Hk & st' & lk & Hlk & n0 & HE).
    exists (POne st), cs1. split; [now apply mk_map_done|]. exists (POne st'), lk. split; auto.
    exists (S n0). intros [|k] Hn; [lia|]. specialize (HE k ltac:(lia)). cbn [BigSound.gconsume gstk owed] in *.
    cbn [Parser.consume consume_step]. unfold forward_consume. now rewrite (bind_done _ _ _ _ _ HE).
  - (* BindDst *)
    start. destruct (IHev h base Hc Hp) as (st & cs1 & Hk & st' & lk & Hlk & n0 & HE).
    exists (POne st), cs1. split; [now apply mk_map_done|]. exists (POne st'), lk. split; auto.
    exists (S n0). intros [|k] Hn; [lia|]. specialize (HE k ltac:(lia)). cbn [BigSound.gconsume gstk owed] in *.
    cbn [Parser.consume consume_step]. unfold forward_consume. now rewrite (bind_done _ _ _ _ _ HE).
  - (* Construct: match *)
    start. destruct (IHev h base Hc Hp) as (st & csx & Hk & st' & lk & Hlk & n0 & HE).
    cbn [with_c q_c q_s q_t mkg] in *.
    destruct (mk_cell_done (value_init (TTuple args)) PConstruct
       (fun lvl => mk c (unatomic_req rq) (dst_cell lvl (TTuple args)) q) (q_c w) st csx)
       as (v1 & cs1 & -> & HL & Hm); [intros; apply lenp_in|exact Hk|].
    exists (PConstruct v1 st), cs1. split; [exact Hm|]. exists (PConstruct v st'), lk. split; auto.
    exists (S n0). intros [|k] Hn; [lia|]. specialize (HE k ltac:(lia)). cbn [BigSound.gconsume gstk owed] in *.
    cbn [Parser.consume consume_step]. unfold construct_consume.
    rewrite <- HL in HE. apply with_cell_done in HE; [|congruence].
    rewrite (bind_done _ _ _ _ _ HE). cbn [res]. rewrite H1. unfold bind, m_assign, on_cells. cbn. now rewrite H2.
  - (* Construct: no match *)
    start. destruct (IHev h base Hc Hp) as (st & csx & Hk & st' & lk & Hlk & n0 & HE).
    cbn [with_c q_c q_s q_t mkg] in *.
    destruct (mk_cell_done (value_init (TTuple args)) PConstruct
       (fun lvl => mk c (unatomic_req rq) (dst_cell lvl (TTuple args)) q) (q_c w) st csx)
       as (v1 & cs1 & -> & HL & Hm); [intros; apply lenp_in|exact Hk|].
    exists (PConstruct v1 st), cs1. split; [exact Hm|]. exists (PConstruct v st'), lk. split; auto.
    exists (S n0). intros [|k] Hn; [lia|]. specialize (HE k ltac:(lia)). cbn [BigSound.gconsume gstk owed] in *.
    cbn [Parser.consume consume_step]. unfold construct_consume.
    rewrite <- HL in HE. apply with_cell_done in HE; [|congruence].
    rewrite (bind_done _ _ _ _ _ HE). reflexivity.
  - (* Act: match *)
    start. destruct (IHev h base Hc Hp) as (st & csx & Hk & st' & lk & Hlk & n0 & HE).
    cbn [with_c q_c q_s q_t mkg] in *.
    destruct (mk_cell_done (default_init (ac_land a)) PAction
       (fun lvl => mk c (action_req rq) (dst_cell lvl (ac_land a)) q) (q_c w) st csx)
       as (v1 & cs1 & -> & HL & Hm); [intros; apply lenp_in|exact Hk|].
    exists (PAction v1 st), cs1. split; [exact Hm|]. exists (PAction v st'), lk. split; auto.
    exists (S n0). intros [|k] Hn; [lia|]. specialize (HE k ltac:(lia)). cbn [BigSound.gconsume gstk owed] in *.
    cbn [Parser.consume consume_step]. unfold action_consume.
    rewrite <- HL in HE. apply with_cell_done in HE; [|congruence].
    rewrite (bind_done _ _ _ _ _ HE). cbn [res].
    assert (act_dispatch a v d c (W s (lk ++ base) cs tr) = Done (tt, W (q_s w') (lk ++ base) (q_c w') (q_t w'))) as HA.
    { clear - H1. unfold act_run in H1. cbn [q_c q_t q_s] in H1. unfold act_dispatch in *.
      destruct (conv (ac_land a) v); [|discriminate]. cbn [w_cells w_src w_trace] in *.
      destruct (if ac_param a then load cs (c_bound c) else Done VNil); [|discriminate].
      destruct (ac_fun a a0 a1).
      match type of H1 with context [if ac_param a then ?y else ?z] =>
        destruct (if ac_param a then y else z); [|discriminate] end.
      destruct (ac_void a).
      - injection H1 as <-. reflexivity.
      - unfold m_assign, on_cells in *. cbn [w_cells w_src w_trace] in *.
        destruct (assign a2 d v0); [|discriminate]. injection H1 as <-. reflexivity. }
    rewrite (bind_done _ _ _ _ _ HA). reflexivity.
  - (* Act: no match *)
    start. destruct (IHev h base Hc Hp) as (st & csx & Hk & st' & lk & Hlk & n0 & HE).
    cbn [with_c q_c q_s q_t mkg] in *.
    destruct (mk_cell_done (default_init (ac_land a)) PAction
       (fun lvl => mk c (action_req rq) (dst_cell lvl (ac_land a)) q) (q_c w) st csx)
       as (v1 & cs1 & -> & HL & Hm); [intros; apply lenp_in|exact Hk|].
    exists (PAction v1 st), cs1. split; [exact Hm|]. exists (PAction v st'), lk. split; auto.
    exists (S n0). intros [|k] Hn; [lia|]. specialize (HE k ltac:(lia)). cbn [BigSound.gconsume gstk owed] in *.
    cbn [Parser.consume consume_step]. unfold action_consume.
    rewrite <- HL in HE. apply with_cell_done in HE; [|congruence].
    rewrite (bind_done _ _ _ _ _ HE). reflexivity.
  - (* Except: hit *)
    start. apply andb_prop in Hp. destruct Hp as [Hp1 Hp2].
    destruct (IHev h base Hc Hp1) as (st & cs1 & Hk & st' & lk & Hlk & n0 & HE).
    exists (PExcept 0 st), cs1. split; [now apply mk_map_done|]. exists (PExcept 0 st'), lk. split; auto.
    exists (S n0). intros [|k] Hn; [lia|]. specialize (HE k ltac:(lia)). cbn [BigSound.gconsume gstk owed] in *.
    cbn [Parser.consume consume_step]. unfold except_consume. now rewrite (bind_done _ _ _ _ _ HE).
  - (* Except: go *)
    start. apply andb_prop in Hp. destruct Hp as [Hp1 Hp2].
    destruct (IHev1 h base Hc Hp1) as (st & cs1 & Hk & st' & lk & Hlk & n0 & HE).
    destruct (IHev2 h (lk ++ base) Hc Hp2) as (st2 & cs2 & Hk2 & st2' & lk2 & Hlk2 & n1 & HE2).
    exists (PExcept 0 st), cs1. split; [now apply mk_map_done|]. exists (PExcept 1 st2'), (lk2 ++ lk). split.
    { intros Hh. rewrite Hlk2, Hlk by auto. reflexivity. }
    exists (S (max n0 n1)). intros [|k] Hn; [lia|].
    specialize (HE k ltac:(lia)). specialize (HE2 k ltac:(lia)). cbn [BigSound.gconsume gstk owed mkg] in *.
    cbn [Parser.consume consume_step]. unfold except_consume. rewrite (bind_done _ _ _ _ _ HE). cbn [fst snd res].
    unfold bind. rewrite (create_mk c (except_req rq) d q); [|exact Hc|eapply mok_skips; eauto].
    rewrite Hk2, HE2. rewrite <- app_assoc. reflexivity.
  - (* PList *)
    intros h base Hc Hp. destruct (IHev h base Hc Hp) as (st & cs1 & Hk & st' & lk & Hlk & n0 & HE).
    exists st, cs1. split; [exact Hk|]. exists st', lk. split; auto.
    cbn [mkg] in Hk. apply mk_map_inv in Hk. destruct Hk as (a & -> & Hk). exists n0. intros n Hn.
    specialize (HE n Hn). cbn [BigSound.gconsume gstk owed repeat app] in *. now rewrite repeat_mid.
  - (* list: element missing *)
    start. apply andb_prop in Hp. destruct Hp as [Hp1 Hp2].
    destruct (IHev true (m :: base) Hc Hp1) as (st & cs1 & Hk & st' & lk & Hlk & n0 & HE).
    exists (PListSt 0 st), cs1. split; [now apply mk_map_done|]. exists (PListSt 0 st'), []. split; auto.
    rewrite (Hlk eq_refl) in HE. cbn [app] in *.
    exists (S n0). intros [|k] Hn; [lia|]. specialize (HE k ltac:(lia)). cbn [BigSound.gconsume gstk] in *.
    cbn [Parser.consume consume_step]. unfold list_consume. now rewrite (bind_done _ _ _ _ _ HE).
  - (* list: element *)
    intros h base Hc Hp. assert (Hp' := Hp). cbn [gok mokr] in Hp'. apply andb_prop in Hp'. destruct Hp' as [Hp1 Hp2].
    destruct (IHev1 true (m :: base) Hc Hp1) as (st & cs1 & Hk & st' & lk & Hlk & n0 & HE).
    destruct (IHev2 h base Hc Hp) as (st2 & cs2 & Hk2 & st2' & lk2 & Hlk2 & n1 & HE2).
    cbn [mkg] in *. apply mk_map_inv in Hk2. destruct Hk2 as (a2 & -> & Hk2).
    exists (PListSt 0 st), cs1. split; [now apply mk_map_done|]. exists st2', lk2. split; auto.
    rewrite (Hlk eq_refl) in HE. cbn [app] in *.
    exists (S (max n0 n1)). intros [|k] Hn; [lia|].
    specialize (HE k ltac:(lia)). specialize (HE2 k ltac:(lia)). cbn [BigSound.gconsume gstk] in *.
    cbn [Parser.consume consume_step]. unfold list_consume. rewrite (bind_done _ _ _ _ _ HE). cbn [fst snd res].
    unfold bind at 1 2. cbn [m_cancel m_prepare m_src so_cancel so_prepare sf_ops sf_cancel sf_prepare w_src w_cells w_trace sf_stack sf_cur].
    unfold sf_prepare. cbn [sf_cur sf_stack]. unfold bind.
    rewrite (create_mk c sep_req DNil sep); [|exact Hc|eapply mok_skips; eauto].
    rewrite Hk2. exact HE2.
  - (* list: separator missing *)
    start. apply andb_prop in Hp. destruct Hp as [Hp1 Hp2].
    destruct (IHev true (m :: base) Hc Hp2) as (st & cs1 & Hk & st' & lk & Hlk & n0 & HE).
    exists (PListSt 1 st), cs1. split; [now apply mk_map_done|]. exists (PListSt 1 st'), []. split; auto.
    rewrite (Hlk eq_refl) in HE. cbn [app] in *.
    exists (S n0). intros [|k] Hn; [lia|]. specialize (HE k ltac:(lia)). cbn [BigSound.gconsume gstk] in *.
    cbn [Parser.consume consume_step]. unfold list_consume. now rewrite (bind_done _ _ _ _ _ HE).
  - (* list: separator *)
    intros h base Hc Hp. assert (Hp' := Hp). cbn [gok mokr] in Hp'. apply andb_prop in Hp'. destruct Hp' as [Hp1 Hp2].
    destruct (IHev1 true (m :: base) Hc Hp2) as (st & cs1 & Hk & st' & lk & Hlk & n0 & HE).
    destruct (IHev2 h base Hc Hp) as (st2 & cs2 & Hk2 & st2' & lk2 & Hlk2 & n1 & HE2).
    cbn [mkg] in *. apply mk_map_inv in Hk2. destruct Hk2 as (a2 & -> & Hk2).
    exists (PListSt 1 st), cs1. split; [now apply mk_map_done|]. exists st2', lk2. split; auto.
    rewrite (Hlk eq_refl) in HE. cbn [app] in *.
    exists (S (max n0 n1)). intros [|k] Hn; [lia|].
    specialize (HE k ltac:(lia)). specialize (HE2 k ltac:(lia)). cbn [BigSound.gconsume gstk] in *.
    cbn [Parser.consume consume_step]. unfold list_consume. rewrite (bind_done _ _ _ _ _ HE). cbn [fst snd res].
    unfold bind. rewrite (create_mk c list_req d q); [|exact Hc|eapply mok_skips; eauto].
    rewrite Hk2. exact HE2.
  - (* Recur *)
    start. destruct (IHev true base Hc (Henv _ _ H)) as (st & cs1 & Hk & st' & lk & Hlk & n0 & HE).
    exists (PRecur None), (q_c w). split; [reflexivity|]. exists (PRecur (Some st')), lk. split; auto.
    exists (S n0). intros [|k] Hn; [lia|]. specialize (HE k ltac:(lia)). cbn [BigSound.gconsume gstk owed repeat app mkg] in *.
    cbn [Parser.consume consume_step]. unfold recur_consume. rewrite H. unfold bind.
    rewrite (create_mk c recur_req d q); [|exact Hc|eapply mok_skips; eauto].
    rewrite Hk, HE. reflexivity.
Qed.

End Complete.
