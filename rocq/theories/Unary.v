(** Sequences into one object, and the unary patterns, values included. *)
From Coq Require Import List ZArith Bool Arith Lia.
From Verif Require Import Base CharSet Source Dst Pattern Parser Session Rel Safety Keep Limit SpecSession SessionThms.
From Verif Require Import SpecRun Run Blind BlindThms Local SpecValue LocalThms.
Import ListNotations.

Section Unary.
Context (env : nat -> option pat).

Definition final (o : outcome (result * pst * world sfwd)) : outcome (result * world sfwd) :=
  match o with Done ((r, _), w) => Done (r, w) | Err e => Err e end.

Definition W0 (inp : list Z) (v : val) : world sfwd := World (sf_make inp) [v] [].

Lemma parse_0 t v p inp r w : parse env 0 t v p inp = Done (r, w) -> False.
Proof. unfold parse, top_run, bind. destruct (top_create _ _ _ _) as [[? ?]|]; discriminate. Qed.

Ltac start := unfold parse, top_run, top_create, top_consume, create, part, create; change (top_ctx _) with (Ctx Fail (top_dst (_ : ty))).

Lemma parse_discard n t v q inp :
  parse env (S n) t v (Discard q) inp = final (part env n DNil (top_dst t) q (W0 inp v)).
Proof.
  unfold parse, top_run, top_create, top_consume, part, create, final, W0, bind, top_ctx.
  cbn [mk_skip_of is_fail c_skip create_in adapt default_req r_recur r_atomic r_clean andb].
  unfold bind. fold default_req. destruct (create_in sf_ops None default_req DNil q _) as [[st w]|]; [|reflexivity].
  cbn [ret consume consume_step]. unfold forward_consume, bind.
  destruct (consume _ _ _ _ _ _ _ _ _) as [[[? ?] ?]|]; reflexivity.
Qed.

Lemma parse_bind n t v q inp : parse env (S n) t v (BindDst q) inp = parse env n t v q inp.
Proof.
  unfold parse, top_run, top_create, top_consume, create, bind, top_ctx.
  cbn [mk_skip_of is_fail c_skip create_in adapt default_req r_recur r_atomic r_clean andb].
  unfold bind. change (unatomic_req _) with default_req.
  destruct (create_in sf_ops None default_req (top_dst t) q _) as [[st w]|]; [|reflexivity].
  cbn [ret consume consume_step c_skip]. unfold forward_consume, bind. change (unatomic_req _) with default_req.
  destruct (consume _ _ _ _ _ _ _ _ _) as [[[? ?] ?]|]; reflexivity.
Qed.

Lemma parse_lexeme n t v q inp : parse env (S n) t v (Lexeme q) inp = parse env n t v q inp.
Proof.
  unfold parse, top_run, top_create, top_consume, create, bind, top_ctx.
  cbn [mk_skip_of is_fail c_skip create_in adapt default_req r_recur r_atomic r_clean andb].
  unfold bind. fold default_req. destruct (create_in sf_ops None default_req (top_dst t) q _) as [[st w]|]; [|reflexivity].
  cbn [ret consume consume_step c_bound]. unfold forward_consume, bind.
  destruct (consume _ _ _ _ _ _ _ _ _) as [[[? ?] ?]|]; reflexivity.
Qed.

Lemma parse_noskip n t v q inp : parse env (S n) t v (WithSkipper q Fail) inp = parse env n t v q inp.
Proof.
  unfold parse, top_run, top_create, top_consume, create, bind, top_ctx.
  cbn [mk_skip_of is_fail c_skip create_in adapt default_req r_recur r_atomic r_clean andb].
  unfold bind. fold default_req. destruct (create_in sf_ops None default_req (top_dst t) q _) as [[st w]|]; [|reflexivity].
  cbn [ret consume consume_step c_bound]. unfold forward_consume, bind.
  destruct (consume _ _ _ _ _ _ _ _ _) as [[[? ?] ?]|]; reflexivity.
Qed.

Lemma does_same p q : (forall n t v inp, parse env (S n) t v p inp = parse env n t v q inp) ->
  forall t v inp r s v' k, does env p t v inp r s v' k <-> does env q t v inp r s v' k.
Proof.
  intros H t v inp r s v' k. split; intros (n & w & E & E').
  - destruct n as [|n]; [destruct (parse_0 _ _ _ _ _ _ E)|]. rewrite H in E. exists n, w. auto.
  - exists (S n), w. rewrite H. auto.
Qed.

(** ** Discard *)

Theorem does_discard q : unbound q = true -> all_unbound env ->
  forall t v inp r s v' k,
  does env (Discard q) t v inp r s v' k <-> v' = v /\ does env q TNil VNil inp r s VNil k.
Proof.
  intros Hu He t v inp r s v' k. split.
  - intros (n & w & H & A & B & D). destruct n as [|n]; [destruct (parse_0 _ _ _ _ _ _ H)|].
    rewrite parse_discard in H. destruct (part _ _ _ _ _ _) as [[[r1 st] w1]|] eqn:E; [|discriminate]. injection H as -> ->.
    destruct (part_does env n q TNil VNil DNil (top_dst t) (W0 inp v) _ _ _ E eq_refl (or_intror (conj Hu He)))
      as (_ & v1 & k1 & Hd & Hs & Ht).
    cbn in Hs, Ht. injection Hs as Hs. rewrite app_nil_r in Ht.
    assert (k1 = k) as -> by (rewrite <- (rev_involutive k1), <- (rev_involutive k); congruence).
    rewrite (does_nil _ _ _ _ _ _ _ _ Hd) in Hd. split; [congruence|]. rewrite <- A. exact Hd.
  - intros [-> H]. destruct (does_part _ _ _ _ _ _ _ _ _ H) as [n0 H0].
    destruct (H0 n0 (Nat.le_refl _) DNil (top_dst t) (W0 inp v) eq_refl eq_refl (or_intror (conj Hu He)))
      as (st & w' & E & A & B & D).
    exists (S n0), w'. rewrite parse_discard, E. cbn in B, D. rewrite app_nil_r in D. injection B as <-.
    repeat split; auto.
Qed.

(** ** Sequences into one object *)

Definition one (t : ty) : Prop := t <> TNil /\ forall ts, t <> TTuple ts.

Lemma slot_one l i p t : one t -> nth_error l i = Some p ->
  seq_dst l i (DRef 0 [] t) = Done (if ignores p then DNil else DRef 0 [] t).
Proof.
  intros [H1 H2] E. unfold seq_dst. rewrite E. destruct (ignores p); auto.
  destruct t; auto. destruct (H2 l0); reflexivity.
Qed.

Hypothesis Henv : all_unbound env.

Lemma chained_fwd l t v s r s' v' k : chained env l t v s r s' v' k -> one t -> forallb unbound l = true ->
  match l with
  | [] => True
  | q :: rest => exists n0, forall n, n0 <= n -> forall done w,
      w_cells w = [v] -> left_at w = s ->
      exists st w', go_on env n (DRef 0 [] t) (DRef 0 [] t) (done ++ l) (length done) q rest w = Done ((r, st), w') /\
        left_at w' = s' /\ w_cells w' = [v'] /\ w_trace w' = rev k ++ w_trace w
  end.
Proof.
  induction 1 as [t v s | p l t v s s' v' k Hi Hd | p l t v s s1 v1 k1 r s' v' k Hi Hd Hs IH
                 | p l t v s s' v' k Hi Hd | p l t v s s1 v1 k1 r s' v' k Hi Hd Hs IH];
    intros Ht Hu; [exact I|..]; cbn [forallb] in Hu; apply andb_true_iff in Hu as [Hup Hul];
    destruct (does_part _ _ _ _ _ _ _ _ _ Hd) as [n0 H0].
  - exists n0. intros n Hn done w Hc Hw. rewrite go_on_eq, (slot_one _ _ p), Hi by (auto using nth_at).
    destruct (H0 n Hn DNil (DRef 0 [] t) w Hw eq_refl (or_intror (conj Hup Henv))) as (st & w' & -> & Hl & Hc' & Htr).
    cbn in Hc'. injection Hc' as Hc'. exists (PNary (length done) st), w'. repeat (split; auto). congruence.
  - destruct l as [|q rest].
    + inversion Hs; subst. exists n0. intros n Hn done w Hc Hw. rewrite go_on_eq, (slot_one _ _ p), Hi by (auto using nth_at).
      destruct (H0 n Hn DNil (DRef 0 [] t) w Hw eq_refl (or_intror (conj Hup Henv))) as (st & w' & -> & Hl & Hc' & Htr).
      cbn in Hc'. injection Hc' as Hc'. exists (PNary (length done) st), w'. rewrite app_nil_r. repeat (split; auto). congruence.
    + destruct (IH Ht Hul) as [n1 H1]. exists (n0 + n1). intros n Hn done w Hc Hw.
      rewrite go_on_eq, (slot_one _ _ p), Hi by (auto using nth_at).
      destruct (H0 n ltac:(lia) DNil (DRef 0 [] t) w Hw eq_refl (or_intror (conj Hup Henv))) as (st & w1 & -> & Hl & Hc' & Htr).
      cbn in Hc'. injection Hc' as Hc'.
      destruct (H1 n ltac:(lia) (done ++ [p]) w1) as (st' & w' & E & A & B & D); try congruence.
      rewrite snoc_length, <- snoc in E. exists st', w'. rewrite rev_app_distr, <- app_assoc. repeat (split; auto). congruence.
  - assert (place [v] (DRef 0 [] t) t v) as Hp by (repeat split; auto; apply Ht).
    exists n0. intros n Hn done w Hc Hw. rewrite go_on_eq, (slot_one _ _ p), Hi by (auto using nth_at).
    rewrite <- Hc in Hp.
    destruct (H0 n Hn (DRef 0 [] t) (DRef 0 [] t) w Hw Hp (or_introl eq_refl)) as (st & w' & -> & Hl & Hc' & Htr).
    rewrite Hc in Hc'. cbn in Hc'. injection Hc' as Hc'. exists (PNary (length done) st), w'. repeat (split; auto).
  - assert (place [v] (DRef 0 [] t) t v) as Hp by (repeat split; auto; apply Ht).
    destruct l as [|q rest].
    + inversion Hs; subst. exists n0. intros n Hn done w Hc Hw. rewrite go_on_eq, (slot_one _ _ p), Hi by (auto using nth_at).
      rewrite <- Hc in Hp.
      destruct (H0 n Hn (DRef 0 [] t) (DRef 0 [] t) w Hw Hp (or_introl eq_refl)) as (st & w' & -> & Hl & Hc' & Htr).
      rewrite Hc in Hc'. cbn in Hc'. injection Hc' as Hc'. exists (PNary (length done) st), w'. rewrite app_nil_r. repeat (split; auto).
    + destruct (IH Ht Hul) as [n1 H1]. exists (n0 + n1). intros n Hn done w Hc Hw.
      rewrite go_on_eq, (slot_one _ _ p), Hi by (auto using nth_at). rewrite <- Hc in Hp.
      destruct (H0 n ltac:(lia) (DRef 0 [] t) (DRef 0 [] t) w Hw Hp (or_introl eq_refl)) as (st & w1 & -> & Hl & Hc' & Htr).
      rewrite Hc in Hc'. cbn in Hc'. injection Hc' as Hc'.
      destruct (H1 n ltac:(lia) (done ++ [p]) w1) as (st' & w' & E & A & B & D); try congruence.
      rewrite snoc_length, <- snoc in E. exists st', w'. rewrite rev_app_distr, <- app_assoc. repeat (split; auto). congruence.
Qed.

Lemma chained_bwd n t : one t -> forall rest q v done w r st w',
  forallb unbound (q :: rest) = true -> w_cells w = [v] ->
  go_on env n (DRef 0 [] t) (DRef 0 [] t) (done ++ q :: rest) (length done) q rest w = Done ((r, st), w') ->
  exists v' k, chained env (q :: rest) t v (left_at w) r (left_at w') v' k /\
    w_cells w' = [v'] /\ w_trace w' = rev k ++ w_trace w.
Proof.
  intros Ht. induction rest as [|q' rest IH]; intros q v done w r st w' Hu Hc H;
    rewrite go_on_eq, (slot_one _ _ q) in H by (auto using nth_at);
    pose proof Hu as Hu'; cbn [forallb] in Hu'; apply andb_true_iff in Hu' as [Hup Hul];
    destruct (ignores q) eqn:Hi.
  all: destruct (part env n _ _ q w) as [[[r1 st1] w1]|] eqn:E; [|discriminate].
  - destruct (part_does _ _ _ TNil VNil _ _ _ _ _ _ E eq_refl (or_intror (conj Hup Henv))) as (Hpart & v1 & k1 & Hd & Hc' & Htr).
    cbn in Hc'. injection Hc' as Hc'. rewrite Hc in Hc'. destruct r1; [| |congruence]; injection H as <- <- <-.
    + exists v, (k1 ++ []). split; [eapply chn_quiet; eauto; constructor|]. rewrite app_nil_r. auto.
    + exists v, k1. split; [eapply chn_quiet_no; eauto|]. auto.
  - assert (place (w_cells w) (DRef 0 [] t) t v) as Hp by (rewrite Hc; repeat split; auto; apply Ht).
    destruct (part_does _ _ _ _ _ _ _ _ _ _ _ E Hp (or_introl eq_refl)) as (Hpart & v1 & k1 & Hd & Hc' & Htr).
    rewrite Hc in Hc'. cbn in Hc'. injection Hc' as Hc'. destruct r1; [| |congruence]; injection H as <- <- <-.
    + exists v1, (k1 ++ []). split; [eapply chn_next; eauto; constructor|]. rewrite app_nil_r. auto.
    + exists v1, k1. split; [eapply chn_no; eauto|]. auto.
  - destruct (part_does _ _ _ TNil VNil _ _ _ _ _ _ E eq_refl (or_intror (conj Hup Henv))) as (Hpart & v1 & k1 & Hd & Hc' & Htr).
    cbn in Hc'. injection Hc' as Hc'. rewrite Hc in Hc'. destruct r1; [|injection H as <- <- <-|congruence].
    + rewrite (snoc done), <- (snoc_length done q) in H. apply (IH q' v) in H; auto.
      destruct H as (v' & k & HS & A & B). exists v', (k1 ++ k). split; [eapply chn_quiet; eauto|].
      rewrite rev_app_distr, <- app_assoc, B, Htr. auto.
    + exists v, k1. split; [eapply chn_quiet_no; eauto|]. auto.
  - assert (place (w_cells w) (DRef 0 [] t) t v) as Hp by (rewrite Hc; repeat split; auto; apply Ht).
    destruct (part_does _ _ _ _ _ _ _ _ _ _ _ E Hp (or_introl eq_refl)) as (Hpart & v1 & k1 & Hd & Hc' & Htr).
    rewrite Hc in Hc'. cbn in Hc'. injection Hc' as Hc'. destruct r1; [|injection H as <- <- <-|congruence].
    + rewrite (snoc done), <- (snoc_length done q) in H. apply (IH q' v1) in H; auto.
      destruct H as (v' & k & HS & A & B). exists v', (k1 ++ k). split; [eapply chn_next; eauto|].
      rewrite rev_app_distr, <- app_assoc, B, Htr. auto.
    + exists v1, k1. split; [eapply chn_no; eauto|]. auto.
Qed.

Theorem seq_one l t v inp r s v' k : l <> [] -> forallb unbound l = true -> one t ->
  does env (Seq l) t v inp r s v' k <-> chained env l t v inp r s v' k.
Proof.
  intros Hl Hu Ht. destruct l as [|q rest]; [congruence|].
  assert (top_dst t = DRef 0 [] t) as Htop by (destruct Ht as [Ht _]; destruct t; auto; congruence). split.
  - intros (n & w & H & A & B & D). destruct n as [|n]; [destruct (parse_0 _ _ _ _ _ _ H)|].
    rewrite parse_seq, Htop in H. destruct (go_on _ _ _ _ _ _ _ _ _) as [[[r' st] w']|] eqn:E; [|discriminate]. injection H as -> ->.
    apply (chained_bwd n t Ht rest q v [] (W0 inp v)) in E; auto.
    destruct E as (v1 & k' & HS & Hc & Htr). cbn in Htr. rewrite app_nil_r in Htr.
    assert (k' = k) as -> by (rewrite <- (rev_involutive k'), <- (rev_involutive k); congruence).
    assert (v1 = v') as -> by congruence. rewrite <- A. exact HS.
  - intros H. destruct (chained_fwd _ _ _ _ _ _ _ _ H Ht Hu) as [n0 H0].
    destruct (H0 n0 (Nat.le_refl _) [] (W0 inp v) eq_refl eq_refl) as (st & w' & E & A & B & D).
    exists (S n0), w'. rewrite parse_seq, Htop. cbn [app length] in E. unfold W0 in *. rewrite E.
    cbn in D. rewrite app_nil_r in D. auto.
Qed.

(** ** Patterns with a buffer of their own *)

(** A buffer for the constructor and one for consume is one buffer for both. *)
Lemma two_cells {A B} (x : val) (f : nat -> M sfwd A) (g : nat -> A -> M sfwd B) w :
  (forall lvl, keeps (fun _ _ => True) (f lvl)) ->
  (y <- with_cell x f ;; with_cell (snd y) (fun lvl => g lvl (fst y))) w =
  with_cell x (fun lvl => a <- f lvl ;; g lvl a) w.
Proof.
  intros HK. unfold bind, with_cell.
  destruct (f (length (w_cells w)) _) as [[a w1]|] eqn:E; [|reflexivity].
  apply HK in E as [E _]. cbn [w_cells] in E. rewrite app_length in E. cbn [length] in E.
  destruct (nth_error (w_cells w1) (length (w_cells w))) as [v'|] eqn:E1.
  - cbn [w_cells w_src w_trace fst snd].
    assert (w_cells w1 = firstn (length (w_cells w)) (w_cells w1) ++ [v']) as E2.
    { apply nth_error_split in E1 as (l1 & l2 & E1 & E3). rewrite E1 in E |- *. rewrite app_length in E. cbn in E.
      destruct l2; [|cbn in E; lia]. rewrite <- E3, firstn_app, firstn_all, Nat.sub_diag. cbn. now rewrite app_nil_r. }
    assert (length (firstn (length (w_cells w)) (w_cells w1)) = length (w_cells w)) as -> by (rewrite firstn_length; lia).
    rewrite <- E2. destruct w1; reflexivity.
  - apply nth_error_None in E1. lia.
Qed.

Lemma buffered n T b q w : unbound q = true ->
  match parse env n T (default_init T) q (left_at w) with
  | Err e => with_cell (default_init T) (fun lvl => part env n (dst_cell lvl T) b q) w = Err e
  | Done (r, w1) => exists l st w',
      w_cells w1 = [l] /\
      with_cell (default_init T) (fun lvl => part env n (dst_cell lvl T) b q) w = Done (((r, st), l), w') /\
      left_at w' = left_at w1 /\ w_cells w' = w_cells w /\ w_trace w' = w_trace w1 ++ w_trace w
  end.
Proof.
  intros Hu. unfold with_cell. set (x := default_init T).
  set (w0 := World (w_src w) (w_cells w ++ [x]) (w_trace w)). set (d := dst_cell (length (w_cells w)) T).
  assert (nth_error (w_cells w ++ [x]) (length (w_cells w)) = Some x) as Hnth by apply nth_at.
  assert (place (w_cells w0) d T x) as Hp.
  { unfold d, dst_cell, place. destruct T; auto; cbn [w_cells w0]; (split; [auto|split; [discriminate|]]); cbn [load];
      rewrite Hnth; reflexivity. }
  pose proof (part_exact env n T x d b q w0 Hp (or_intror (conj Hu Henv))) as Hm.
  change (left_at w0) with (left_at w) in Hm. unfold mirrors in Hm.
  destruct (parse env n T x q (left_at w)) as [[r w1]|e] eqn:E; [|now rewrite Hm].
  destruct Hm as (l & st & w' & Hv & -> & Hl & Hs & Ht & _).
  destruct (parse_done _ _ _ _ _ _ _ _ E) as (_ & v1 & k & Hc & Hk & Hd).
  assert (w_cells w' = w_cells w ++ [l]) as Hc'.
  { unfold d, dst_cell in Hs. assert (T = TNil \/ T <> TNil) as [->|HT] by (destruct T; auto; right; discriminate).
    - cbn in Hs. injection Hs as Hs. rewrite <- Hs. cbn. f_equal. f_equal.
      assert (l = v1) as -> by congruence. now rewrite (does_nil _ _ _ _ _ _ _ _ Hd).
    - assert (store (w_cells w0) (DRef (length (w_cells w)) [] T) l = Done (w_cells w')) as Hs'
        by (destruct T; auto; congruence).
      cbn [store w_cells w0] in Hs'. rewrite Hnth in Hs'. cbn in Hs'. injection Hs' as Hs'. rewrite <- Hs'.
      apply upd_at. }
  rewrite Hc', nth_at. exists l, st. eexists. repeat (split; [eauto|]); cbn; auto.
  rewrite firstn_app, firstn_all, Nat.sub_diag. cbn. rewrite app_nil_r. auto.
Qed.

Definition then_act (a : action) (t : ty) (o : outcome (result * pst * val * world sfwd)) : outcome (result * world sfwd) :=
  match o with
  | Err e => Err e
  | Done (((r, _), l), w) =>
    match r with
    | SUCCESS => match act_dispatch a l (top_dst t) (top_ctx t) w with Done (_, w') => Done (SUCCESS, w') | Err e => Err e end
    | _ => Done (r, w)
    end
  end.

Lemma parse_act n t v a q inp :
  parse env (S n) t v (Act a q) inp =
  then_act a t (with_cell (default_init (ac_land a)) (fun lvl => part env n (dst_cell lvl (ac_land a)) (top_dst t) q) (W0 inp v)).
Proof.
  unfold part. rewrite <- two_cells.
  2:{ intros. apply (keeps_create sf_ops); auto. }
  unfold parse, top_run, top_create, top_consume, create, top_ctx, W0.
  cbn [mk_skip_of is_fail c_skip create_in adapt default_req r_recur r_atomic r_clean andb].
  unfold bind. change (action_req _) with default_req. fold default_req.
  destruct (with_cell _ _ _) as [[[st l] w]|]; [|reflexivity].
  cbn [ret consume consume_step fst snd]. unfold action_consume, bind. change (action_req _) with default_req.
  destruct (with_cell _ _ _) as [[[[r st'] l'] w']|]; [|reflexivity].
  cbn [then_act]. destruct r; try reflexivity. unfold top_ctx.
  destruct (act_dispatch _ _ _ _ _) as [[? ?]|]; reflexivity.
Qed.

(** The effect of an assignment on the only object. *)
Lemma stored_assign t v x v' : stored t v x v' <-> assign [v] (top_dst t) x = Done [v'].
Proof.
  split.
  - intros [v0 y|e l y z Hc|t' v0 y z H1 H2 Hc]; cbn; auto.
    + now rewrite Hc.
    + destruct t'; try congruence; cbn -[conv]; rewrite Hc; reflexivity.
  - destruct t; cbn -[conv]; intros H.
    + injection H as ->. constructor.
    + destruct (conv _ x) eqn:E; [|discriminate]. injection H as ->. constructor; auto; discriminate.
    + destruct (conv _ x) eqn:E; [|discriminate]. destruct v; try discriminate. injection H as <-. now constructor.
    + destruct (conv _ x) eqn:E; [|discriminate]. injection H as ->. constructor; auto; discriminate.
    + destruct (conv _ x) eqn:E; [|discriminate]. injection H as ->. constructor; auto; discriminate.
Qed.

Lemma called_dispatch a t v l (w : world sfwd) x v' : w_cells w = [v] -> conv (ac_land a) l = Done x ->
  called a t v x v' <->
  act_dispatch a l (top_dst t) (top_ctx t) w = Done (tt, World (w_src w) [v'] (Event (ac_id a) x :: w_trace w)).
Proof.
  intros Hc Hx. unfold act_dispatch. rewrite Hx, Hc. unfold m_assign, on_cells. cbn [c_bound top_ctx].
  assert (load [v] (top_dst t) = Done (match t with TNil => VNil | _ => v end)) as Hl by (destruct t; reflexivity).
  assert (forall b', match top_dst t with DNil => Done [v] | DRef _ _ t0 => if has_ty t0 b' then store [v] (top_dst t) b' else Err EType end
    = match t with TNil => Done [v] | _ => if has_ty t b' then Done [b'] else Err EType end) as Hs.
  { intros b'. destruct t; cbn -[has_ty]; try reflexivity; destruct (has_ty _ b'); reflexivity. }
  split.
  - intros [r b Hp Hv Hf|r b v0 Hp Hv Hf Hst|r b Hp Hv Hf Ht|r b v0 Hp Hv Hf Ht Hst]; rewrite Hp, Hv.
    + now rewrite Hf.
    + rewrite Hf. cbn [w_cells w_src w_trace]. apply stored_assign in Hst. now rewrite Hst.
    + rewrite Hl, Hf, Hs. destruct t; [reflexivity|..]; rewrite Ht by discriminate; reflexivity.
    + rewrite Hl, Hf, Hs. apply stored_assign in Hst.
      destruct t; [|rewrite Ht by discriminate..]; cbn [w_cells w_src w_trace]; rewrite Hst; reflexivity.
  - destruct (ac_param a) eqn:Hp, (ac_void a) eqn:Hv.
    + rewrite Hl. destruct (ac_fun a x _) as [r b] eqn:Hf. rewrite Hs. intros H.
      pose proof (cal_bound_void a t v x r b Hp Hv Hf) as HC.
      destruct t; [injection H as <-; apply HC; congruence|..];
        (destruct (has_ty _ b); [|discriminate]; injection H as <-; apply HC; auto).
    + rewrite Hl. destruct (ac_fun a x _) as [r b] eqn:Hf. rewrite Hs. intros H.
      eapply cal_bound_value; eauto.
      * intros Ht. destruct t; [congruence|..]; destruct (has_ty _ b); auto; discriminate.
      * apply stored_assign. destruct t; [|destruct (has_ty _ b); [|discriminate]..]; cbn [w_cells w_src w_trace] in H;
          destruct (assign _ _ r); congruence.
    + destruct (ac_fun a x VNil) as [r b] eqn:Hf. intros H. injection H as <-. eapply cal_void; eauto.
    + destruct (ac_fun a x VNil) as [r b] eqn:Hf. cbn [w_cells w_src w_trace]. intros H.
      eapply cal_value; eauto. apply stored_assign. destruct (assign _ _ r); congruence.
Qed.

Lemma dispatch_shape a t v l (w w' : world sfwd) u : w_cells w = [v] ->
  act_dispatch a l (top_dst t) (top_ctx t) w = Done (u, w') ->
  exists x v', conv (ac_land a) l = Done x /\ u = tt /\ w' = World (w_src w) [v'] (Event (ac_id a) x :: w_trace w).
Proof.
  intros Hc H.
  assert (length (w_cells w') = 1) as HL.
  { assert (keeps (fun _ _ : sfwd => True) (act_dispatch a l (top_dst t) (top_ctx t))) as HK by (apply keeps_act_dispatch; auto).
    apply HK in H as [H _]. now rewrite Hc in H. }
  unfold act_dispatch in H. destruct (conv (ac_land a) l) as [x|]; [|discriminate]. exists x.
  destruct (if ac_param a then load _ _ else _) as [b0|]; [|discriminate].
  destruct (ac_fun a x b0) as [r b].
  match type of H with match ?m with _ => _ end = _ => destruct m as [cs|]; [|discriminate] end.
  destruct (ac_void a).
  - injection H as <- <-. cbn in HL. destruct cs as [|v' [|]]; cbn in HL; try lia. exists v'. auto.
  - unfold m_assign, on_cells in H. cbn [w_cells w_src w_trace] in H. destruct (assign cs _ r) as [cs'|]; [|discriminate].
    injection H as <- <-. cbn in HL. destruct cs' as [|v' [|]]; cbn in HL; try lia. exists v'. auto.
Qed.

Theorem does_act a q : unbound q = true -> forall t v inp r s v' k,
  does env (Act a q) t v inp r s v' k <->
  (r = FAILURE /\ v' = v /\ exists l, does env q (ac_land a) (default_init (ac_land a)) inp FAILURE s l k) \/
  (r = SUCCESS /\ exists l x k1, does env q (ac_land a) (default_init (ac_land a)) inp SUCCESS s l k1 /\
     conv (ac_land a) l = Done x /\ called a t v x v' /\ k = k1 ++ [Event (ac_id a) x]).
Proof.
  intros Hu t v inp r s v' k. split.
  - intros (n & w & H & A & B & D). destruct n as [|n]; [destruct (parse_0 _ _ _ _ _ _ H)|].
    rewrite parse_act in H. pose proof (buffered n (ac_land a) (top_dst t) q (W0 inp v) Hu) as HB.
    change (left_at (W0 inp v)) with inp in HB.
    destruct (parse env n (ac_land a) _ q inp) as [[r1 w1]|] eqn:E; [|rewrite HB in H; discriminate].
    destruct HB as (l & st & w' & Hl & Hw & A' & B' & D'). rewrite Hw in H. cbn [then_act] in H.
    destruct (parse_done _ _ _ _ _ _ _ _ E) as (Hpart & l1 & k1 & Hc & Hk & Hd).
    assert (l1 = l) as -> by congruence. cbn in B', D'. rewrite app_nil_r in D'.
    destruct r1; [|injection H as <- <-|congruence].
    + right. destruct (act_dispatch a l (top_dst t) (top_ctx t) w') as [[u w2]|] eqn:E2; [|discriminate]. injection H as <- ->.
      destruct (dispatch_shape _ _ _ _ _ _ _ B' E2) as (x & v2 & Hx & -> & ->). cbn in A, B, D.
      split; auto. exists l, x, k1. rewrite <- A. unfold left_at at 1. cbn. fold (left_at w'). rewrite A'.
      assert (v2 = v') as -> by congruence.
      repeat split; auto; [now apply (called_dispatch a t v l w' x v' B' Hx)|].
      rewrite <- (rev_involutive k), <- D, D', Hk. cbn. now rewrite rev_involutive.
    + left. split; auto. split; [congruence|]. exists l.
      assert (k1 = k) as -> by (rewrite <- (rev_involutive k1), <- (rev_involutive k); congruence).
      rewrite <- A, A'. exact Hd.
  - intros [(-> & -> & l & H)|(-> & l & x & k1 & H & Hx & Hcl & ->)];
      destruct (does_more _ _ _ _ _ _ _ _ _ H) as (n0 & w1 & Hn & A & B & D);
      pose proof (buffered n0 (ac_land a) (top_dst t) q (W0 inp v) Hu) as HB;
      change (left_at (W0 inp v)) with inp in HB; rewrite Hn in HB by auto;
      destruct HB as (l1 & st & w' & Hl & Hw & A' & B' & D'); cbn in B', D'; rewrite app_nil_r in D';
      assert (l1 = l) as -> by congruence; exists (S n0); rewrite parse_act, Hw; cbn [then_act].
    + exists w'. repeat split; congruence.
    + apply (called_dispatch a t v l w' x v' B' Hx) in Hcl. rewrite Hcl. eexists. split; [reflexivity|].
      cbn. repeat split; auto; [unfold left_at in *; cbn; congruence|]. rewrite D', D, rev_app_distr. reflexivity.
Qed.

(** ** Construct *)

Definition then_make (t : ty) (o : outcome (result * pst * val * world sfwd)) : outcome (result * world sfwd) :=
  match o with
  | Err e => Err e
  | Done (((r, _), l), w) =>
    match r with
    | SUCCESS =>
      match make_from (dst_ty (top_dst t)) l with
      | Err e => Err e
      | Done x => match m_assign (top_dst t) x w with Done (_, w') => Done (SUCCESS, w') | Err e => Err e end
      end
    | _ => Done (r, w)
    end
  end.

Lemma parse_construct n t v args q inp :
  parse env (S n) t v (Construct args q) inp =
  then_make t (with_cell (default_init (TTuple args)) (fun lvl => part env n (dst_cell lvl (TTuple args)) (top_dst t) q) (W0 inp v)).
Proof.
  unfold part. rewrite <- two_cells.
  2:{ intros. apply (keeps_create sf_ops); auto. }
  unfold parse, top_run, top_create, top_consume, create, top_ctx, W0.
  cbn [mk_skip_of is_fail c_skip create_in adapt default_req r_recur r_atomic r_clean andb].
  unfold bind. change (unatomic_req _) with default_req. fold default_req.
  change (value_init (TTuple args)) with (default_init (TTuple args)).
  destruct (with_cell _ _ _) as [[[st l] w]|]; [|reflexivity].
  cbn [ret consume consume_step fst snd]. unfold construct_consume, bind. change (unatomic_req _) with default_req.
  destruct (with_cell _ _ _) as [[[[r st'] l'] w']|]; [|reflexivity].
  cbn [then_make]. destruct r; try reflexivity.
  destruct (make_from _ _); [|reflexivity]. destruct (m_assign _ _ _) as [[? ?]|]; reflexivity.
Qed.

Lemma made_from t xs y : made t xs y <-> make_from (dst_ty (top_dst t)) (VTuple xs) = Done y.
Proof.
  assert (dst_ty (top_dst t) = t) as -> by (destruct t; reflexivity). split.
  - intros []; cbn [make_from]; auto.
  - destruct t; cbn [make_from]; intros H.
    + destruct xs as [|? [|]]; try discriminate; injection H as <-; constructor.
    + destruct xs as [|? [|]]; try discriminate. now constructor.
    + discriminate.
    + now constructor.
    + injection H as <-. constructor.
Qed.

Theorem does_construct args q : unbound q = true -> forall t v inp r s v' k,
  does env (Construct args q) t v inp r s v' k <->
  (r = FAILURE /\ v' = v /\ exists l, does env q (TTuple args) (value_init (TTuple args)) inp FAILURE s l k) \/
  (r = SUCCESS /\ exists xs y, does env q (TTuple args) (value_init (TTuple args)) inp SUCCESS s (VTuple xs) k /\
     made t xs y /\ stored t v y v').
Proof.
  intros Hu t v inp r s v' k. change (value_init (TTuple args)) with (default_init (TTuple args)). split.
  - intros (n & w & H & A & B & D). destruct n as [|n]; [destruct (parse_0 _ _ _ _ _ _ H)|].
    rewrite parse_construct in H. pose proof (buffered n (TTuple args) (top_dst t) q (W0 inp v) Hu) as HB.
    change (left_at (W0 inp v)) with inp in HB.
    destruct (parse env n (TTuple args) _ q inp) as [[r1 w1]|] eqn:E; [|rewrite HB in H; discriminate].
    destruct HB as (l & st & w' & Hl & Hw & A' & B' & D'). rewrite Hw in H. cbn [then_make] in H.
    destruct (parse_done _ _ _ _ _ _ _ _ E) as (Hpart & l1 & k1 & Hc & Hk & Hd).
    assert (l1 = l) as -> by congruence. cbn in B', D'. rewrite app_nil_r in D'.
    destruct r1; [|injection H as <- <-|congruence].
    + right. destruct (make_from _ l) as [y|] eqn:E2; [|discriminate].
      unfold m_assign, on_cells in H. rewrite B' in H. destruct (assign [v] (top_dst t) y) as [cs|] eqn:E3; [|discriminate].
      injection H as <- <-. cbn in A, B, D. subst cs. split; auto.
      assert (exists xs, l = VTuple xs) as [xs ->] by (destruct l; try discriminate; eauto).
      exists xs, y. rewrite <- made_from in E2. rewrite <- stored_assign in E3.
      assert (k1 = k) as -> by (rewrite <- (rev_involutive k1), <- (rev_involutive k); congruence).
      split; auto. rewrite <- A. unfold left_at at 1. cbn. fold (left_at w'). now rewrite A'.
    + left. split; auto. split; [congruence|]. exists l.
      assert (k1 = k) as -> by (rewrite <- (rev_involutive k1), <- (rev_involutive k); congruence).
      rewrite <- A, A'. exact Hd.
  - intros [(-> & -> & l & H)|(-> & xs & y & H & Hm & Hst)];
      destruct (does_more _ _ _ _ _ _ _ _ _ H) as (n0 & w1 & Hn & A & B & D);
      pose proof (buffered n0 (TTuple args) (top_dst t) q (W0 inp v) Hu) as HB;
      change (left_at (W0 inp v)) with inp in HB; rewrite Hn in HB by auto;
      destruct HB as (l1 & st & w' & Hl & Hw & A' & B' & D'); cbn in B', D'; rewrite app_nil_r in D'.
    + assert (l1 = l) as -> by congruence. exists (S n0), w'. rewrite parse_construct, Hw. cbn [then_make]. repeat split; congruence.
    + assert (l1 = VTuple xs) as -> by congruence. apply made_from in Hm. apply stored_assign in Hst.
      exists (S n0). rewrite parse_construct, Hw. cbn [then_make]. rewrite Hm. unfold m_assign, on_cells. rewrite B', Hst.
      eexists. split; [reflexivity|]. unfold left_at in *. cbn. repeat split; congruence.
Qed.

End Unary.
