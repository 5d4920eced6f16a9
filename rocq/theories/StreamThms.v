(** C48: what a stream of items keeps. *)
From Coq Require Import List ZArith Bool Arith Lia.
From Verif Require Import Base CharSet Source Dst Pattern Parser Session SourceProofs SourceHist SpecSource.
From Verif Require Import SpecSession SpecRun SpecValue SpecCollect SpecStream Rel Shift Safety Keep Limit Chunk SessionProofs.
From Verif Require Import Big PegSound Collect Stream SkipFront.
Import ListNotations.

(** No skipper is no skipper. *)
Lemma run_bare env n t p w : exists g, (forall a, g (POne a) = a) /\
  top_run sf_ops env (S n) t (under Fail p) w =
  match top_run sf_ops env n t p w with Done ((r, a), w') => Done ((r, POne a), w') | Err e => Err e end.
Proof.
  exists (fun s => match s with POne a => a | _ => s end). split; auto.
  unfold top_run, top_create, create, under. unfold bind at 1. change (mk_skip_of sf_ops (top_ctx t)) with (@None (M sfwd pst)).
  cbn [create_in is_fail]. unfold adapt. cbn [default_req r_recur r_atomic r_clean andb].
  unfold bind, ret. change (mk_skip_of sf_ops (top_ctx t)) with (@None (M sfwd pst)).
  destruct (create_in sf_ops None default_req (top_dst t) p w) as [[a w1]|]; [|reflexivity].
  unfold top_consume. cbn [consume consume_step]. unfold forward_consume, bind, ret. change (Ctx Fail (c_bound (top_ctx t))) with (top_ctx t).
  destruct (consume _ _ _ _ _ _ _ _ _) as [[[r b] w2]|]; reflexivity.
Qed.

Lemma does_bare env p t v s r s' v' k : does env (under Fail p) t v s r s' v' k <-> does env p t v s r s' v' k.
Proof.
  split; intros (n & w & E & H).
  - destruct n as [|n].
    { exfalso. unfold parse, top_run, bind in E. destruct (top_create _ _ _ _) as [[]|]; discriminate. }
    exists n, w. split; auto. revert E. unfold parse. destruct (run_bare env n t p (World (sf_make s) [v] [])) as (_ & _ & ->).
    destruct (top_run _ _ n _ _ _) as [[[]]|]; auto.
  - exists (S n), w. split; auto. revert E. unfold parse. destruct (run_bare env n t p (World (sf_make s) [v] [])) as (_ & _ & ->).
    destruct (top_run _ _ n _ _ _) as [[[]]|]; auto.
Qed.

Lemma matches_bare env q t v s n s' v' k :
  matches (parses env (under Fail (once q)) t SUCCESS) v s n s' v' k -> matches (parses env (once q) t SUCCESS) v s n s' v' k.
Proof. induction 1; [constructor|]. econstructor; [|eassumption]. now apply does_bare. Qed.

(** A bounded repetition that cannot succeed with less stopped after as many items. *)
Lemma repeat_full_under env sk lo n q t v s s' v' k : (forall id q, env id = Some q -> mok true recur_req q = true) ->
  mok false default_req (under sk (Repeat lo n q)) = true -> n <> 0 -> n <= lo ->
  does env (under sk (Repeat lo n q)) t v s SUCCESS s' v' k -> matches (parses env (under sk (once q)) t SUCCESS) v s n s' v' k.
Proof.
  intros Henv Hm Hn Hlo H.
  apply (rep_top env Henv sk t lo n q v s true) in H; auto. pose proof (one_rep _ _ _ _ Hm) as Ho.
  eapply (rep_fwd env Henv) in H; eauto; [|reflexivity|right; lia].
  destruct H as (j & s1 & v1 & kk & M & [(A & B & E & F)|(A & B & _)]); cbn in *.
  - injection F as -> -> F. apply rev_eq in F. subst. exact M.
  - symmetry in B. apply Nat.leb_le in B. lia.
Qed.

Lemma repeat_full env lo n q t v s s' v' k : (forall id q, env id = Some q -> mok true recur_req q = true) ->
  mok false default_req (Repeat lo n q) = true -> n <> 0 -> n <= lo ->
  does env (Repeat lo n q) t v s SUCCESS s' v' k -> matches (parses env (once q) t SUCCESS) v s n s' v' k.
Proof.
  intros Henv Hm Hn Hlo H. apply matches_bare. apply does_bare in H.
  eapply repeat_full_under; eauto. exact Hm.
Qed.

Lemma last_map {A B} (f : A -> B) l x : last (map f l) (f x) = f (last l x).
Proof. induction l as [|a l IH]; auto. destruct l; auto. Qed.

(** A session that waits is a run that does, and back. *)
Lemma waiting_run env t v p n l s : run_session env n t v p (l ++ [Consume]) = Done s -> s_res s = None ->
  exists m st a, a_run env t v p m (fed l) false = Done ((PARTIAL, st), a)
  /\ w_cells (s_world s) = w_cells a /\ w_trace (s_world s) = w_trace a
  /\ map snd (cs_bufs (w_src (s_world s))) = reaching (oldest (w_src a)) (buffers l).
Proof.
  intros E Hn. destruct (held_session env t v p n (l ++ [Consume]) s E Hn) as (a & Ea & Hr & Hst & Hw).
  assert (buffers (l ++ [Consume]) = buffers l) as Hb.
  { clear. induction l as [|[[|x b] f|] l IH]; cbn; congruence. }
  rewrite Hb in Hw. rewrite Hn in Hr. symmetry in Hr.
  destruct (session_waits env t v _ n l a Ea Hr) as (m & Em). destruct Hw as (W1 & W2 & W3).
  exists m, (s_st a), (s_world a). split; auto. split; auto. split; auto. now apply held_reaching.
Qed.

Lemma alone_again env t v1 P mr B sr w2 (s : session cseq) (a : world cursor) k :
  a_run env t v1 P mr B false = Done ((PARTIAL, sr), w2) ->
  w_cells (s_world s) = w_cells a -> w_trace (s_world s) = w_trace a ->
  w_cells a = w_cells w2 -> w_trace a = w_trace w2 ++ rev k ->
  waits_alone env P t v1 B k (oldest (w_src w2)) s.
Proof.
  intros Hrun H1 H2 H3 H4. destruct (run_waits env t v1 _ _ _ _ _ Hrun) as (m1 & s1 & G1 & G2 & G3 & G4).
  destruct (back_cs _ _ _ _ _ _ _ G1) as (z & Z1 & Z2 & Z3 & Z4). rewrite G2 in Z2.
  destruct (held_session env t v1 _ _ _ z Z1 Z2) as (s1' & G1' & _ & _ & Y1 & Y2 & Y3).
  rewrite G1 in G1'. inversion G1'; subst s1'. rewrite G4 in *.
  exists m1, z. split; [exact Z1|]. split; [exact Z2|]. rewrite H1, H2, Y2, Y3. split; auto. split; auto.
  now apply held_reaching.
Qed.

Section Thm.
Context (env : nat -> option pat) (sk : pat) (U : pat -> pat) (t : ty) (v : val) (lo hi : nat) (q : pat).
Hypothesis Hopt : forall id q, env id = Some q -> optfree q = true.
Hypothesis Hsk : optfree sk = true.
Hypothesis Hq : optfree q = true.
Hypothesis HU : runs_as env t sk U.
Hypothesis Hmk : forall lo' hi', repeat_req lo' hi' default_req = repeat_req lo hi default_req ->
  mok false default_req (U (Repeat lo hi q)) = true -> mok false default_req (U (Repeat lo' hi' q)) = true.
Hypothesis Hfull : forall lo' n s s' v' k, (forall id q, env id = Some q -> mok true recur_req q = true) ->
  mok false default_req (U (Repeat lo' n q)) = true -> n <> 0 -> n <= lo' ->
  does env (U (Repeat lo' n q)) t v s SUCCESS s' v' k -> matches (parses env (U (once q)) t SUCCESS) v s n s' v' k.

(** A waiting run. *)
Theorem stream_run m F st a :
  a_run env t v (U (Repeat lo hi q)) m F false = Done ((PARTIAL, st), a) ->
  exists c A B v1 k w2, F = A ++ B
   /\ ((forall id q, env id = Some q -> mok true recur_req q = true) -> mok false default_req (U (Repeat lo hi q)) = true ->
       forall more, matches (parses env (U (once q)) t SUCCESS) v (A ++ B ++ more) c (B ++ more) v1 k)
   /\ (exists mr sr, a_run env t v1 (U (item_of lo hi q)) mr B false = Done ((PARTIAL, sr), w2))
   /\ w_cells a = w_cells w2 /\ w_trace a = w_trace w2 ++ rev k /\ oldest (w_src a) = length A + oldest (w_src w2).
Proof.
  intros Em.
  destruct (waiting env sk t lo hi q F Hopt Hsk Hq U HU v m _ _ Em) as (c & w1 & a' & m' & K1 & K2 & K4 & K5 & K6).
  destruct w1 as [[F0 f0 x stk] cells tr]. destruct K1 as [C1 (mm & C2 & C3) C4 C5]. cbn in C1, C2, C3, C4, C5.
  destruct mm; [|discriminate]. cbn in C2. subst F0 f0 stk. destruct cells as [|v1 [|]]; try discriminate.
  destruct K2 as (_ & Hx & _). cbn in Hx.
  destruct (fresh_shift env sk t lo hi q F m' _ a' _ v1 tr x eq_refl Hx K4) as (w2 & F1 & F2 & F3 & F4).
  set (A := firstn x F) in *. set (B := skipn x F) in *.
  assert (length A = x) as HA by (unfold A; rewrite firstn_length; lia).
  assert (F = A ++ B) as Hfed by (symmetry; apply firstn_skipn).
  assert (exists lo1, item_of lo hi q = Repeat lo1 1 q /\ repeat_req lo1 1 default_req = repeat_req lo hi default_req) as (lo1 & Hi1 & Hi2).
  { unfold item_of, repeat_req. destruct (lo =? hi), (hi =? 0); cbn; eauto. }
  destruct (item_run env sk t lo hi q U HU v1 m' B a' w2 lo1 Hi2 F1) as (mr & sr & Hrun).
  exists c, A, B, v1, (rev tr), w2. split; [exact Hfed|]. split; [|split; [|split; [|split]]].
  - intros Henv Hm more. destruct (Nat.eq_dec c 0) as [->|Hc].
    + specialize (K5 eq_refl). injection K5 as Ex Ev Et. rewrite Ex in HA. destruct A; [|discriminate]. rewrite Ev, Et. constructor.
    + set (lo' := if (lo =? hi) && negb (hi =? 0) then c else S c).
      assert (repeat_req lo' c default_req = repeat_req lo hi default_req) as Hlo'.
      { unfold lo', repeat_req. destruct (lo =? hi) eqn:E1, (hi =? 0) eqn:E2; cbn [andb negb].
        all: try rewrite Nat.eqb_refl; try rewrite (proj2 (Nat.eqb_neq c 0) Hc); try reflexivity.
        all: rewrite (proj2 (Nat.eqb_neq (S c) c)) by lia; reflexivity. }
      destruct (K6 ltac:(lia) lo' Hlo') as (m2 & st2 & R1).
      destruct (run_answers _ _ _ _ _ _ _ _ R1 more) as (m3 & st3 & R2).
      pose proof (parse_sim env t v (U (Repeat lo' c q)) m3 (F ++ more)) as HP. rewrite R2 in HP.
      destruct (parse env m3 t v (U (Repeat lo' c q)) (F ++ more)) as [[r w]|] eqn:EP; [|destruct HP].
      destruct HP as (P1 & P2 & P3 & P4). cbn in P1, P2, P3, P4. subst r.
      apply (Hfull lo' c); auto.
      * unfold lo'. destruct ((lo =? hi) && negb (hi =? 0)); lia.
      * exists m3, w. rewrite app_assoc, <- Hfed. split; [exact EP|]. split; [|split; [exact P3|rewrite rev_involutive; exact P4]].
        destruct P2 as (_ & _ & P2 & _). unfold left_at. rewrite P2. cbn. rewrite skipn_app. fold B.
        replace (x - length F) with 0 by lia. reflexivity.
  - exists mr, sr. now rewrite Hi1.
  - exact F3.
  - now rewrite rev_involutive.
  - destruct F2 as (_ & _ & P & S). unfold oldest. rewrite P, S, HA. apply (last_map (plus x)).
Qed.

Theorem stream_holds n l s :
  run_session env n t v (U (Repeat lo hi q)) (l ++ [Consume]) = Done s -> s_res s = None ->
  exists c A B v1 k o, fed l = A ++ B
   /\ ((forall id q, env id = Some q -> mok true recur_req q = true) -> mok false default_req (U (Repeat lo hi q)) = true ->
       forall more, matches (parses env (U (once q)) t SUCCESS) v (A ++ B ++ more) c (B ++ more) v1 k)
   /\ waits_alone env (U (item_of lo hi q)) t v1 B k o s
   /\ map snd (cs_bufs (w_src (s_world s))) = reaching (length A + o) (buffers l).
Proof.
  intros E Hn. destruct (waiting_run env t v _ n l s E Hn) as (m & st & a & Em & W2 & W3 & W1).
  destruct (stream_run m (fed l) st a Em) as (c & A & B & v1 & k & w2 & H1 & H2 & (mr & sr & H3) & H4 & H5 & H6).
  exists c, A, B, v1, k, (oldest (w_src w2)). split; auto. split; auto. split; [|now rewrite <- H6].
  eapply alone_again; eauto.
Qed.
End Thm.

Theorem stream_plain env t v lo hi q n l s :
  (forall id q, env id = Some q -> optfree q = true) -> optfree q = true ->
  run_session env n t v (Repeat lo hi q) (l ++ [Consume]) = Done s -> s_res s = None ->
  exists c A B v1 k o, fed l = A ++ B
   /\ ((forall id q, env id = Some q -> mok true recur_req q = true) -> mok false default_req (Repeat lo hi q) = true ->
       forall more, matches (parses env (once q) t SUCCESS) v (A ++ B ++ more) c (B ++ more) v1 k)
   /\ (exists m s1, run_session env m t v1 (item_of lo hi q) [Feed B false; Consume] = Done s1 /\ s_res s1 = None
        /\ w_cells (s_world s) = w_cells (s_world s1) /\ w_trace (s_world s) = w_trace (s_world s1) ++ rev k
        /\ map snd (cs_bufs (w_src (s_world s1))) = reaching o (buffers [Feed B false]))
   /\ map snd (cs_bufs (w_src (s_world s))) = reaching (length A + o) (buffers l).
Proof.
  intros Ho Hq E Hr. refine (stream_holds env Fail (fun p => p) t v lo hi q Ho eq_refl Hq (runs_plain env t) _ _ n l s E Hr).
  - intros lo' hi' Hlo'. cbn [mok]. unfold raw_req. cbn. now rewrite <- !Hlo'.
  - intros lo' j. intros. eapply repeat_full; eauto.
Qed.

Theorem stream_under env T skp t v lo hi q n l s :
  (forall id q, env id = Some q -> optfree q = true) -> skipper1 T skp = true -> optfree q = true ->
  run_session env n t v (under skp (Repeat lo hi q)) (l ++ [Consume]) = Done s -> s_res s = None ->
  exists c A B v1 k o, fed l = A ++ B
   /\ ((forall id q, env id = Some q -> mok true recur_req q = true) -> mok false default_req (under skp (Repeat lo hi q)) = true ->
       forall more, matches (parses env (under skp (once q)) t SUCCESS) v (A ++ B ++ more) c (B ++ more) v1 k)
   /\ (exists m s1, run_session env m t v1 (under skp (item_of lo hi q)) [Feed B false; Consume] = Done s1 /\ s_res s1 = None
        /\ w_cells (s_world s) = w_cells (s_world s1) /\ w_trace (s_world s) = w_trace (s_world s1) ++ rev k
        /\ map snd (cs_bufs (w_src (s_world s1))) = reaching o (buffers [Feed B false]))
   /\ map snd (cs_bufs (w_src (s_world s))) = reaching (length A + o) (buffers l).
Proof.
  intros Ho Hs Hq E Hr. refine (stream_holds env skp (under skp) t v lo hi q Ho (skipper_optfree T skp Hs) Hq (runs_under T env skp t Hs) _ _ n l s E Hr).
  - intros lo' hi' Hlo'. unfold under. cbn [mok]. unfold raw_req. cbn. now rewrite <- !Hlo'.
  - intros lo' j. intros. eapply repeat_full_under; eauto.
Qed.
