(** A sequence between two parts is a parser for one part, started on the rest of the data. *)
From Coq Require Import List ZArith Bool Arith Lia.
From Verif Require Import Base CharSet Source Dst Pattern Parser Session SourceProofs SourceHist SpecSource.
From Verif Require Import SpecSession SpecRun SpecValue SpecCollect SpecStream Rel Shift Safety Keep Limit Chunk SessionProofs Big BigMk PegSound Stream SkipFront StreamThms StreamList.
Import ListNotations.

Local Notation ops := (a_ops true).

(** Where a part writes to. *)
Definition pd (t : ty) (q : pat) : dst := if ignores q then DNil else top_dst t.

Lemma part_dst t l i q rest : (forall ts, t <> TTuple ts) -> skipn i l = q :: rest -> seq_dst l i (top_dst t) = Done (pd t q).
Proof.
  intros Ht H. assert (nth_error l i = Some q) as Hn.
  { revert l H. induction i as [|i IH]; intros [|a l] H; try discriminate; cbn in *; auto. congruence. }
  unfold pd, top_dst, dst_cell, seq_dst. destruct t; try (now destruct (ignores q)); rewrite Hn; destruct (ignores q); auto.
  exfalso. eapply Ht; eauto.
Qed.

Lemma pd_ok t q : dst_ok (pd t q) 1.
Proof. unfold pd. destruct (ignores q); [exact I|]. apply dst_cell_ok. lia. Qed.

(** Runs of a sequence without the adapter in front, and of a part on its own. *)
Definition seq_runs (env : nat -> option pat) (t : ty) (sk : pat) (U : pat -> pat) : Prop :=
  forall q l v F r w', (forall ts, t <> TTuple ts) ->
  (exists m st, a_run env t v (U (Seq (q :: l))) m F false = Done ((r, st), w')) ->
  exists m st, bind (create ops (Ctx sk (top_dst t)) seq_req (pd t q) q) (fun a =>
                  consume ops env m (Ctx sk (top_dst t)) default_req (top_dst t) (Seq (q :: l)) (PNary 0 a))
                  (World (Cursor F false 0 []) [v] []) = Done ((r, st), w').
Definition part_runs (env : nat -> option pat) (t : ty) (sk : pat) (U : pat -> pat) : Prop :=
  forall q v F m a b r a1 b2,
  create ops (Ctx sk (top_dst t)) seq_req (top_dst t) q (World (Cursor F false 0 []) [v] []) = Done (a, b) ->
  consume ops env m (Ctx sk (top_dst t)) seq_req (top_dst t) q a b = Done ((r, a1), b2) ->
  exists m' st, a_run env t v (U q) m' F false = Done ((r, st), b2).

Lemma seq_plain env t : seq_runs env t Fail (fun p => p).
Proof.
  intros q l v F r w' Ht (m & st & E). exists m, st. revert E.
  unfold a_run, top_run, top_create, create. change (mk_skip_of ops (top_ctx t)) with (@None (M cursor pst)).
  cbn [create_in]. unfold adapt at 1. cbn [default_req r_recur r_atomic r_clean andb].
  rewrite (part_dst t (q :: l) 0 q l Ht eq_refl). unfold bind, ret. change (mk_skip_of ops (Ctx Fail (top_dst t))) with (@None (M cursor pst)).
  destruct (create_in ops None seq_req (pd t q) q _) as [[a w]|]; auto.
Qed.

Lemma part_plain env t : part_runs env t Fail (fun p => p).
Proof. intros q v F m a b r a1 b2 E1 E2. exists m, a1. unfold a_run, top_run, bind, top_create, top_ctx. change default_req with seq_req. rewrite E1. exact E2. Qed.

Section Skp.
Context (T : char_ty) (env : nat -> option pat) (skp : pat) (t : ty).
Hypothesis Hs : skipper1 T skp = true.

Lemma part_under : part_runs env t skp (under skp).
Proof.
  intros q v F m a b r a1 b2 E1 E2. exists (S m), (POne a1). unfold a_run, top_run, under. unfold bind at 1.
  unfold top_create, create in *. change (mk_skip_of ops (top_ctx t)) with (@None (M cursor pst)).
  cbn [create_in]. unfold adapt at 1. cbn [default_req r_recur r_atomic r_clean andb]. rewrite (skipper1_fail T _ Hs).
  unfold mk_skip_of in E1. cbn [c_skip] in E1. rewrite (skipper1_fail T _ Hs) in E1.
  unfold bind at 1. change default_req with seq_req. rewrite E1. unfold ret.
  unfold top_consume. cbn [consume consume_step]. unfold forward_consume, bind, ret.
  change (Ctx skp (c_bound (top_ctx t))) with (Ctx skp (top_dst t)). change default_req with seq_req. rewrite E2. reflexivity.
Qed.

Lemma seq_under : seq_runs env t skp (under skp).
Proof.
  intros q l v F r w' Ht (m & st & E). revert E. unfold a_run, top_run, under. unfold bind at 1.
  unfold top_create, create. change (mk_skip_of ops (top_ctx t)) with (@None (M cursor pst)).
  cbn [create_in]. unfold adapt at 1. cbn [default_req r_recur r_atomic r_clean andb]. rewrite (skipper1_fail T _ Hs).
  unfold bind at 1. unfold adapt at 1. cbn [default_req r_recur r_atomic r_clean r_consumes andb].
  unfold bind at 1. rewrite (skip_create T skp Hs). unfold bind at 1.
  rewrite (part_dst t (q :: l) 0 q l Ht eq_refl). unfold bind at 1.
  unfold mk_skip_of at 1. cbn [c_skip]. rewrite (skipper1_fail T _ Hs).
  unfold bind.
  destruct (create_in ops (Some _) seq_req (pd t q) q _) as [[a w]|] eqn:E1; [|discriminate]. unfold ret.
  assert (create ops (Ctx skp (top_dst t)) seq_req (pd t q) q (World (Cursor F false 0 []) [v] []) = Done (a, w)) as E1'.
  { unfold create, mk_skip_of. cbn [c_skip]. now rewrite (skipper1_fail T _ Hs). }
  destruct (create_skips T skp _ seq_req _ _ _ _ _ Hs eq_refl E1') as [b ->].
  assert (a_fin (w_src w) = false) as Hf.
  { destruct (keeps_create ops (fun x y => a_fin y = a_fin x)
       (fun _ => eq_refl) (fun a b c (H1 : a_fin b = _) (H2 : a_fin c = _) => eq_trans H2 H1) (fun _ => eq_refl) _ _ _ _ _ _ _ E1') as [_ Hf1]. exact Hf1. }
  intros E. destruct m as [|m]; [discriminate|]. unfold top_consume in E. cbn [consume consume_step] in E. unfold forward_consume, bind, ret in E.
  change (Ctx skp (c_bound (top_ctx t))) with (Ctx skp (top_dst t)) in E.
  destruct (consume ops env m _ _ _ _ _ w) as [[[r1 s1] w1]|] eqn:E2; [|discriminate]. cbn [fst snd] in E. injection E as -> _ ->.
  cut (exists m st, consume ops env m (Ctx skp (top_dst t)) default_req (top_dst t) (Seq (q :: l)) (PNary 0 (PSkip false (skip_st skp) b)) w = Done ((r, st), w')).
  { intros (m1 & st1 & H). exists m1, st1. exact H. }
  destruct l; (eapply head_skips; [exact Hs| | |exact Hf|exists m, s1; exact E2]).
  1, 3: intros m0 w0; cbn [consume consume_step]; unfold nary_enter; cbn [so_resumable a_ops negb andb skipn];
    cbn [seq_from]; rewrite (part_dst t (_ :: _) 0 q _ Ht eq_refl); reflexivity.
  all: intros m0 a' w0; cbn [fst snd]; eexists; reflexivity.
Qed.
End Skp.

Section Sq.
Context (env : nat -> option pat) (sk : pat) (U : pat -> pat) (t : ty) (F : list Z).
Hypothesis Henv : forall id q, env id = Some q -> optfree q = true.
Hypothesis Hsk : optfree sk = true.
Hypothesis Ht : forall ts, t <> TTuple ts.
Hypothesis HU : runs_as env t sk U.
Hypothesis HP : part_runs env t sk U.
Hypothesis HS : seq_runs env t sk U.
Notation C := (Ctx sk (top_dst t)).
Notation D := (top_dst t).

Lemma part_run q v m x a b r a1 b2 : create ops C seq_req (pd t q) q (alone F x v) = Done (a, b) ->
  consume ops env m C seq_req (pd t q) q a b = Done ((r, a1), b2) ->
  exists m' st, a_run env t v (U (part t q)) m' (skipn x F) false = Done ((r, st), b2).
Proof.
  intros E1 E2. unfold part, pd in *. destruct (ignores q).
  - assert (t = TNil \/ (match t with TNil => q | _ => Discard q end) = Discard q) as [-> | ->] by (destruct t; auto).
    + exact (HP q v (skipn x F) m a b r a1 b2 E1 E2).
    + exact (discard_run env sk U t q F HU v m x a b r a1 b2 E1 E2).
  - replace (match t with TNil => q | _ => q end) with q by (destruct t; auto). exact (HP q v (skipn x F) m a b r a1 b2 E1 E2).
Qed.

Definition at_part (l : list pat) (x : nat) (v : val) (tr : list event) (w' : world cursor) : Prop :=
  exists j y v1 k1 q' m' st' b', nth_error l j = Some q' /\ x <= y <= length F
  /\ (forall more, through env U t (firstn j l) v (skipn x F ++ more) (skipn y F ++ more) v1 k1)
  /\ a_run env t v1 (U (part t q')) m' (skipn y F) false = Done ((PARTIAL, st'), b')
  /\ w_cells w' = w_cells b' /\ w_trace w' = w_trace b' ++ rev k1 ++ tr /\ oldest (w_src w') = y + oldest (w_src b').

Lemma seq_loop L m : forall rest q i x v tr a b w st w', skipn i L = q :: rest -> forallb optfree (q :: rest) = true -> x <= length F ->
  create ops C seq_req (pd t q) q (alone F x v) = Done (a, b) -> created true false env (skipn x F) false 1 [] 0 sk q a b ->
  on_top (firstn x F) [] tr b w ->
  seq_from ops (consume ops env m) C D L i q rest a w = Done ((PARTIAL, st), w') -> at_part (q :: rest) x v tr w'.
Proof.
  induction rest as [|q' rest IH]; intros q i x v tr a b w st w' HL Ho Hx Ec Hcr HT E;
  cbn [forallb] in Ho; apply andb_prop in Ho as [Hq Ho]; cbn [seq_from] in E; rewrite (part_dst t L i q _ Ht HL) in E; unfold bind at 1 in E;
  (destruct (consume ops env m C seq_req (pd t q) q a w) as [[[r a1] w2]|] eqn:E1; [|discriminate]); cbn [fst snd] in E;
  destruct (run_consume env sk t Henv Hsk (skipn x F) seq_req (pd t q) q Hq (pd_ok t q) _ _ _ _ _ _ _ _ _ _ Hcr HT E1) as (b2 & E2 & HPo & HT2);
  pose proof (one_inw env sk t F _ _ _ _ _ _ _ _ _ _ _ Ec E2) as HI;
  destruct (part_run _ _ _ _ _ _ _ _ _ Ec E2) as (mr & st2 & R).
  1: assert (r = PARTIAL) as -> by (destruct r; inversion E; auto).
  2: destruct r; [|discriminate|].
  1, 3: inversion E; subst; exists 0, x, v, [], q, mr, st2, b2; cbn [nth_error firstn rev app];
    (split; [auto|]); (split; [lia|]); (split; [intros more; apply thr_none|]); (split; [exact R|]);
    destruct HT2 as ((_ & _ & K1 & K) & K2 & K3); (split; [auto|]); (split; [auto|]);
    unfold oldest;
    (rewrite K, app_nil_r, K1, firstn_length, Nat.min_l by lia; apply (last_map (plus x))).
  destruct (st_done _ _ HPo) as (S1 & S2 & S3 & v3 & S4).
  destruct (top_world F x [] _ b2 w2 v3 Hx HT2 HI S2 S3 S1 S4) as [Hx' ->].
  pose proof (run_does env t F (U (part t q)) _ _ _ _ _ v3 R HI S2 S4) as HD.
  set (x' := x + a_pos (w_src b2)) in *.
  assert (skipn (S i) L = q' :: rest) as HL'.
  { clear -HL. revert L HL. induction i as [|i IH]; intros [|z L] HL; try discriminate; cbn in *; [congruence|]. now apply IH. }
  rewrite (part_dst t L (S i) q' _ Ht HL') in E. unfold bind in E.
  destruct (create ops C seq_req (pd t q') q' _) as [[a' w3]|] eqn:E3; [|discriminate].
  edestruct (run_create env sk t (skipn x' F) seq_req (pd t q') q' (pd_ok t q')) as (b3 & E4 & HC3 & HT3); [apply alone_st| |exact E3|].
  { apply alone_top. exact Hx'. }
  destruct (IH q' (S i) x' v3 _ a' b3 w3 st w' HL' Ho Hx' E4 HC3 HT3 E) as (j & y & v1 & k1 & q2 & m' & st' & b' & N1 & N2 & N3 & N4 & N5 & N6 & N7).
  exists (S j), y, v1, (rev (w_trace b2) ++ k1), q2, m', st', b'. split; [exact N1|]. split; [unfold x' in N2; lia|]. split; [|split; [exact N4|split; [exact N5|split; [|exact N7]]]].
  - intros more. cbn [firstn]. eapply thr_one; [exact (HD more)|apply N3].
  - rewrite N6, rev_app_distr, rev_involutive, <- !app_assoc. reflexivity.
Qed.

Lemma seq_waits q l v m st w' : forallb optfree (q :: l) = true ->
  a_run env t v (U (Seq (q :: l))) m F false = Done ((PARTIAL, st), w') -> at_part (q :: l) 0 v [] w'.
Proof.
  intros Ho E0. destruct (HS q l v F PARTIAL w' Ht) as (m0 & st0 & HR); [eauto|]. clear E0.
  change (World (Cursor F false 0 []) [v] []) with (alone F 0 v) in HR. unfold bind in HR.
  destruct (create ops C seq_req (pd t q) q (alone F 0 v)) as [[a b]|] eqn:E; [|discriminate].
  pose proof (one_create env sk t (skipn 0 F) seq_req (pd t q) q (pd_ok t q) _ (alone_st F 0 v)) as HC. rewrite E in HC.
  destruct m0 as [|m0]; [discriminate|]. cbn [consume consume_step] in HR. unfold nary_enter in HR. cbn [so_resumable a_ops negb andb skipn] in HR.
  refine (seq_loop (q :: l) m0 l q 0 0 v [] a b b st0 w' eq_refl Ho ltac:(lia) E HC _ HR).
  repeat split; cbn; auto; try now rewrite app_nil_r. rewrite app_nil_r. clear. induction (a_stk (w_src b)) as [|z l IH]; cbn; congruence.
Qed.
End Sq.

Section Thm.
Context (env : nat -> option pat) (sk : pat) (U : pat -> pat) (t : ty) (v : val).
Hypothesis Henv : forall id q, env id = Some q -> optfree q = true.
Hypothesis Hsk : optfree sk = true.
Hypothesis Ht : forall ts, t <> TTuple ts.
Hypothesis HU : runs_as env t sk U.
Hypothesis HP : part_runs env t sk U.
Hypothesis HS : seq_runs env t sk U.
Hypothesis Hmk : forall lo hi q lo' hi', repeat_req lo' hi' default_req = repeat_req lo hi default_req ->
  mok false default_req (U (Repeat lo hi q)) = true -> mok false default_req (U (Repeat lo' hi' q)) = true.
Hypothesis Hfull : forall q v lo' n s s' v' k, (forall id q, env id = Some q -> mok true recur_req q = true) ->
  mok false default_req (U (Repeat lo' n q)) = true -> n <> 0 -> n <= lo' ->
  does env (U (Repeat lo' n q)) t v s SUCCESS s' v' k -> matches (parses env (U (once q)) t SUCCESS) v s n s' v' k.

Theorem seq_holds n l cs s : forallb optfree l = true ->
  run_session env n t v (U (Seq l)) (cs ++ [Consume]) = Done s -> s_res s = None -> l <> [] ->
  exists j p A B v1 k o, nth_error l j = Some p /\ fed cs = A ++ B
   /\ (forall more, through env U t (firstn j l) v (A ++ B ++ more) (B ++ more) v1 k)
   /\ waits_alone env (U (part t p)) t v1 B k o s
   /\ map snd (cs_bufs (w_src (s_world s))) = reaching (length A + o) (buffers cs)
   /\ (forall lo hi q, part t p = Repeat lo hi q ->
       exists c A' B' v2 k' o', B = A' ++ B'
       /\ ((forall id q, env id = Some q -> mok true recur_req q = true) -> mok false default_req (U (Repeat lo hi q)) = true ->
           forall more, matches (parses env (U (once q)) t SUCCESS) v1 (A' ++ B' ++ more) c (B' ++ more) v2 k')
       /\ waits_alone env (U (item_of lo hi q)) t v2 B' (k ++ k') o' s
       /\ map snd (cs_bufs (w_src (s_world s))) = reaching (length A + length A' + o') (buffers cs)).
Proof.
  intros Ho E Hn Hl. destruct (waiting_run env t v _ n cs s E Hn) as (m & st & a & Em & W2 & W3 & W1).
  destruct l as [|q l]; [congruence|].
  destruct (seq_waits env sk U t (fed cs) Henv Hsk Ht HU HP HS q l v m st a Ho Em) as (j & y & v1 & k & p & m' & st' & b' & N1 & N2 & N3 & N4 & N5 & N6 & N7).
  rewrite app_nil_r in N6.
  assert (length (firstn y (fed cs)) = y) as Hy by (rewrite firstn_length; lia).
  exists j, p, (firstn y (fed cs)), (skipn y (fed cs)), v1, k, (oldest (w_src b')).
  split; [exact N1|]. split; [symmetry; apply firstn_skipn|]. split; [|split; [|split]].
  - intros more. rewrite app_assoc, firstn_skipn. apply N3.
  - eapply alone_again; eauto.
  - rewrite Hy, <- N7. exact W1.
  - intros lo hi q0 Hp. rewrite Hp in N4.
    assert (optfree (part t p) = true) as Hop.
    { apply nth_error_In in N1. rewrite forallb_forall in Ho. specialize (Ho p N1). unfold part. destruct t, (ignores p); auto. }
    rewrite Hp in Hop. cbn [optfree] in Hop.
    destruct (stream_run env sk U t v1 lo hi q0 Henv Hsk Hop HU (Hmk lo hi q0) (Hfull q0 v1) m' _ _ _ N4) as (c & A & B & v2 & k' & w2 & H1 & H2 & (mr & sr & H3) & H4 & H5 & H6).
    exists c, A, B, v2, k', (oldest (w_src w2)). split; [exact H1|]. split; [exact H2|]. split.
    + eapply alone_again; eauto; [congruence|]. rewrite N6, H5, rev_app_distr, app_assoc. reflexivity.
    + rewrite Hy, <- Nat.add_assoc, <- H6, <- N7. exact W1.
Qed.
End Thm.

Theorem sequence_plain env t v n l cs s :
  (forall id q, env id = Some q -> optfree q = true) -> (forall ts, t <> TTuple ts) -> forallb optfree l = true ->
  run_session env n t v (Seq l) (cs ++ [Consume]) = Done s -> s_res s = None ->
  exists j p A B v1 k o, nth_error l j = Some p /\ fed cs = A ++ B
   /\ (forall more, through env (fun p => p) t (firstn j l) v (A ++ B ++ more) (B ++ more) v1 k)
   /\ waits_alone env (part t p) t v1 B k o s
   /\ map snd (cs_bufs (w_src (s_world s))) = reaching (length A + o) (buffers cs)
   /\ (forall lo hi q, part t p = Repeat lo hi q ->
       exists c A' B' v2 k' o', B = A' ++ B'
       /\ ((forall id q, env id = Some q -> mok true recur_req q = true) -> mok false default_req (Repeat lo hi q) = true ->
           forall more, matches (parses env (once q) t SUCCESS) v1 (A' ++ B' ++ more) c (B' ++ more) v2 k')
       /\ waits_alone env (item_of lo hi q) t v2 B' (k ++ k') o' s
       /\ map snd (cs_bufs (w_src (s_world s))) = reaching (length A + length A' + o') (buffers cs)).
Proof.
  intros Henv Ht Ho E Hr.
  assert (l <> []) as Hl. { intros ->. unfold run_session in E. destruct n; discriminate. }
  refine (seq_holds env Fail (fun p => p) t v Henv eq_refl Ht (runs_plain env t) (part_plain env t) (seq_plain env t) _ _ n l cs s Ho E Hr Hl).
  - intros lo hi q lo' hi' Hlo'. cbn [mok]. unfold raw_req. cbn. now rewrite <- !Hlo'.
  - intros q0 v0 lo' j. intros. eapply repeat_full; eauto.
Qed.

Theorem sequence_under env T skp t v n l cs s :
  (forall id q, env id = Some q -> optfree q = true) -> skipper1 T skp = true -> (forall ts, t <> TTuple ts) -> forallb optfree l = true ->
  run_session env n t v (under skp (Seq l)) (cs ++ [Consume]) = Done s -> s_res s = None ->
  exists j p A B v1 k o, nth_error l j = Some p /\ fed cs = A ++ B
   /\ (forall more, through env (under skp) t (firstn j l) v (A ++ B ++ more) (B ++ more) v1 k)
   /\ waits_alone env (under skp (part t p)) t v1 B k o s
   /\ map snd (cs_bufs (w_src (s_world s))) = reaching (length A + o) (buffers cs)
   /\ (forall lo hi q, part t p = Repeat lo hi q ->
       exists c A' B' v2 k' o', B = A' ++ B'
       /\ ((forall id q, env id = Some q -> mok true recur_req q = true) -> mok false default_req (under skp (Repeat lo hi q)) = true ->
           forall more, matches (parses env (under skp (once q)) t SUCCESS) v1 (A' ++ B' ++ more) c (B' ++ more) v2 k')
       /\ waits_alone env (under skp (item_of lo hi q)) t v2 B' (k ++ k') o' s
       /\ map snd (cs_bufs (w_src (s_world s))) = reaching (length A + length A' + o') (buffers cs)).
Proof.
  intros Henv Hs Ht Ho E Hr.
  assert (l <> []) as Hl.
  { intros ->. unfold run_session in E. revert E. unfold top_create, create, under. cbn [create_in]. unfold adapt, bind, raise.
    rewrite (skipper1_fail T _ Hs). cbn [default_req r_recur r_atomic r_clean r_consumes andb].
    change (mk_skip_of cs_ops (top_ctx t)) with (@None (M cseq pst)). cbv iota beta.
    destruct (create_in cs_ops None skip_req DNil skp _) as [[]|]; discriminate. }
  refine (seq_holds env skp (under skp) t v Henv (skipper_optfree T skp Hs) Ht (runs_under T env skp t Hs) (part_under T env skp t Hs) (seq_under T env skp t Hs) _ _ n l cs s Ho E Hr Hl).
  - intros lo hi q lo' hi' Hlo'. unfold under. cbn [mok]. unfold raw_req. cbn. now rewrite <- !Hlo'.
  - intros q0 v0 lo' j. intros. eapply repeat_full_under; eauto.
Qed.

Lemma part_nested t ps j p lo hi q : mok false default_req (Seq ps) = true -> nth_error ps j = Some p ->
  part t p = Repeat lo hi q -> mok false default_req (Repeat lo hi q) = true.
Proof.
  intros H N Hp. cbn [mok] in H. rewrite forallb_forall in H. apply nth_error_In in N. specialize (H p N).
  assert (p = Repeat lo hi q) as ->; [|exact H].
  unfold part in Hp. destruct t, (ignores p); auto; discriminate.
Qed.
