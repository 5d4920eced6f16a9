(** Parts of a pattern and parse() of those parts, values included. *)
From Coq Require Import List ZArith Bool Arith Lia.
From Verif Require Import Base CharSet Source Dst Pattern Parser Session Rel Safety Keep Limit SpecSession SessionThms.
From Verif Require Import SpecRun Run Blind BlindThms Local SpecValue.
Import ListNotations.

Lemma unbound_binds p : unbound p = true -> binds false p = false.
Proof.
  induction p using pat_ind'; cbn; intros Hu; auto.
  - induction H as [|q l Hq Hl IH]; cbn in *; auto. apply andb_true_iff in Hu as [H1 H2].
    rewrite Hq, IH; auto.
  - induction H as [|q l Hq Hl IH]; cbn in *; auto. apply andb_true_iff in Hu as [H1 H2].
    rewrite Hq, IH; auto.
  - apply andb_true_iff in Hu as [H1 H2]. apply negb_true_iff in H1. rewrite H1. auto.
  - apply andb_true_iff in Hu as [H1 H2]. rewrite IHp1, IHp2; auto.
  - apply andb_true_iff in Hu as [H1 H2]. rewrite IHp1, IHp2; auto.
Qed.

Lemma keeps_cells env n d b p w x w' : part env n d b p w = Done (x, w') ->
  length (w_cells w') = length (w_cells w).
Proof.
  intros H.
  assert (keeps (fun _ _ : sfwd => True) (part env n d b p)) as HK.
  { unfold part. apply keeps_bind; auto.
    - apply (keeps_create sf_ops); auto.
    - intros. apply (keeps_consume sf_ops); auto. }
  apply (HK _ _ _ H).
Qed.

(** The object [d] refers to. *)
Definition place (cells : list val) (d : dst) (t : ty) (v : val) : Prop :=
  match d with
  | DNil => t = TNil
  | DRef _ _ t' => t' = t /\ t <> TNil /\ load cells d = Done v
  end.

(** The bound destination is of no interest, or the destination itself. *)
Definition harmless (env : nat -> option pat) (p : pat) (d b : dst) : Prop :=
  b = d \/ (unbound p = true /\ all_unbound env).

(** How a run somewhere follows from the run on an object of its own. *)
Definition mirrors (o : outcome (result * world sfwd)) (d : dst) (w : world sfwd)
           (o' : outcome (result * pst * world sfwd)) : Prop :=
  match o with
  | Done (r, w1) => exists v' st w',
      w_cells w1 = [v'] /\
      o' = Done ((r, st), w') /\ left_at w' = left_at w1 /\
      store (w_cells w) d v' = Done (w_cells w') /\ w_trace w' = w_trace w1 ++ w_trace w /\
      sf_stack (w_src w') = sf_stack (w_src w1) ++ sf_stack (w_src w)
  | Err e => o' = Err e
  end.

Section Part.
Context (env : nat -> option pat).

Lemma part_exact n t v d b p w : place (w_cells w) d t v -> harmless env p d b ->
  mirrors (parse env n t v p (left_at w)) d w (part env n d b p w).
Proof.
  intros Hp Hb. rewrite parse_part.
  set (C := w_cells w). set (hole := match d with DNil => None | DRef lv P _ => Some (lv, P) end).
  set (base := sf_stack (w_src w)).
  assert (Dr C hole (top_dst t) d) as Hd.
  { unfold hole. destruct d as [|lv P t']; cbn in Hp.
    - subst t. constructor.
    - destruct Hp as (-> & Ht & Hl). unfold top_dst, dst_cell.
      assert (Dr C (Some (lv, P)) (DRef 0 [] t) (DRef lv P t)) as Hx.
      { rewrite <- (app_nil_r P) at 2. now constructor. }
      destruct t; try exact Hx. congruence. }
  assert (Lw C hole base (w_trace w) (World (sf_make (left_at w)) [v] []) w) as HL.
  { unfold Lw. cbn. repeat (split; auto). exists v, []. split; auto. unfold hole. destruct d as [|lv P t']; cbn in Hp.
    - now rewrite app_nil_r.
    - destruct Hp as (-> & Ht & Hl). cbn in Hl. fold C in Hl.
      destruct (nth_error C lv) as [root|] eqn:E; [|discriminate]. cbn in Hl. exists root, root.
      split; auto. split; [now apply get_set|]. rewrite app_nil_r, upd_same; auto. }
  assert (exists eb, (eb = false -> forall id q, env id = Some q -> binds eb q = false) /\
    bound_ok C hole eb p (Ctx Fail (top_dst t)) (Ctx Fail b)) as (eb & He & Hok).
  { destruct Hb as [->|[Hu Ha]].
    - exists true. split; [discriminate|]. split; auto.
    - exists false. split; [intros _ id q Hq; apply unbound_binds; eauto|]. split; auto. left. now apply unbound_binds. }
  pose proof (xsim_run C hole base (w_trace w) env eb He n _ _ default_req _ _ p Hok Hd _ _ HL) as H.
  fold (part env n (top_dst t) (top_dst t) p) in H. fold (part env n d b p) in H.
  unfold mirrors.
  pose proof (keeps_cells env n (top_dst t) (top_dst t) p (World (sf_make (left_at w)) [v] [])) as HK.
  destruct (part env n (top_dst t) (top_dst t) p _) as [[[r st] w1]|e] eqn:E.
  - destruct H as (w' & -> & H1 & H2 & (v0 & bufs & Hc1 & Hc2) & H4).
    specialize (HK _ _ eq_refl). rewrite Hc1 in HK. cbn in HK. destruct bufs; [|cbn in HK; lia].
    exists v0, st, w'. repeat (split; auto).
    unfold hole in Hc2. destruct d as [|lv P t']; cbn in Hp |- *.
    + now rewrite Hc2, app_nil_r.
    + destruct Hc2 as (root & root' & Hn & Hs & ->). fold C. rewrite Hn. cbn. rewrite Hs. cbn. now rewrite app_nil_r.
  - destruct H as [->|H]; auto. exfalso.
    assert (parse env n t v p (left_at w) = Err (EUb UbMark)) as Hx by (rewrite parse_part, E; reflexivity).
    apply parse_errors in Hx. unfold okerr in Hx. intuition discriminate.
Qed.

(** ** parse() of parts *)

Lemma does_more p t v inp r s v' k : does env p t v inp r s v' k ->
  exists n0 w, (forall n, n0 <= n -> parse env n t v p inp = Done (r, w)) /\
    left_at w = s /\ w_cells w = [v'] /\ w_trace w = rev k.
Proof.
  intros (n0 & w & H & H1). exists n0, w. split; auto. intros n Hn. rewrite <- H.
  apply (mono_lim (fun n => parse env n t v p inp) n0); auto; [apply mono_parse|congruence].
Qed.

Lemma does_fun p t v inp r s v' k r2 s2 v2 k2 :
  does env p t v inp r s v' k -> does env p t v inp r2 s2 v2 k2 -> r = r2 /\ s = s2 /\ v' = v2 /\ k = k2.
Proof.
  intros H H2. destruct (does_more _ _ _ _ _ _ _ _ H) as (n & w & Hn & A & B & D).
  destruct (does_more _ _ _ _ _ _ _ _ H2) as (n' & w' & Hn' & A' & B' & D').
  specialize (Hn (n + n') ltac:(lia)). specialize (Hn' (n + n') ltac:(lia)). rewrite Hn in Hn'. injection Hn' as -> <-.
  repeat split; try congruence. rewrite <- (rev_involutive k), <- (rev_involutive k2). congruence.
Qed.

Lemma parse_done n t v p inp r w : parse env n t v p inp = Done (r, w) ->
  r <> PARTIAL /\ exists v' k, w_cells w = [v'] /\ w_trace w = rev k /\ does env p t v inp r (left_at w) v' k.
Proof.
  intros H. split; [eapply parse_answers; eauto|].
  assert (exists v', w_cells w = [v']) as [v' Hv].
  { rewrite parse_part in H. destruct (part env n _ _ p _) as [[[r' st] w1]|] eqn:E; [|discriminate].
    injection H as -> ->. apply keeps_cells in E. cbn in E. destruct (w_cells w) as [|v' [|]]; cbn in E; try lia. eauto. }
  exists v', (rev (w_trace w)). rewrite rev_involutive. repeat (split; auto).
  exists n, w. rewrite rev_involutive. auto.
Qed.

Lemma does_nil p v inp r s v' k : does env p TNil v inp r s v' k -> v' = v.
Proof.
  intros (n & w & H & _ & Hc & _).
  pose proof (part_exact n TNil v DNil DNil p (World (sf_make inp) [v] []) eq_refl (or_introl eq_refl)) as Hm.
  change (left_at (World (sf_make inp) [v] [])) with inp in Hm. rewrite H in Hm.
  destruct Hm as (v0 & st & w' & Hv & Hp & _ & Hs & _). cbn in Hs. injection Hs as Hs.
  rewrite parse_part in H. change (top_dst TNil) with DNil in H. rewrite Hp in H. injection H as ->. congruence.
Qed.

Lemma does_nil_any p v inp r s v' k v2 : does env p TNil v inp r s v' k -> does env p TNil v2 inp r s v2 k.
Proof.
  intros (n & w & H & Hl & Hc & Ht).
  pose proof (part_exact n TNil v DNil DNil p (World (sf_make inp) [v2] []) eq_refl (or_introl eq_refl)) as Hm.
  change (left_at (World (sf_make inp) [v2] [])) with inp in Hm. rewrite H in Hm.
  destruct Hm as (v0 & st & w' & Hv & Hp & Hl' & Hs & Ht' & _). cbn in Hs, Ht'. injection Hs as Hs.
  exists n, w'. rewrite parse_part. change (top_dst TNil) with DNil. rewrite Hp. rewrite app_nil_r in Ht'.
  repeat split; congruence.
Qed.

(** A part that does something by itself does it here. *)
Lemma does_part p t v inp r s v' k : does env p t v inp r s v' k ->
  exists n0, forall n, n0 <= n -> forall d b w,
  left_at w = inp -> place (w_cells w) d t v -> harmless env p d b ->
  exists st w', part env n d b p w = Done ((r, st), w') /\ left_at w' = s /\
    store (w_cells w) d v' = Done (w_cells w') /\ w_trace w' = rev k ++ w_trace w.
Proof.
  intros H. destruct (does_more _ _ _ _ _ _ _ _ H) as (n0 & w0 & Hn & A & B & D).
  exists n0. intros n Hle d b w Hw Hp Hb. pose proof (part_exact n t v d b p w Hp Hb) as Hm.
  rewrite Hw, Hn in Hm by auto. destruct Hm as (v1 & st & w' & Hv & Hr & Hl & Hs & Ht & _).
  exists st, w'. rewrite Ht, D. assert (v1 = v') as -> by congruence. repeat split; congruence.
Qed.

(** And a part that did something here does it by itself. *)
Lemma part_does n p t v d b w r st w' :
  part env n d b p w = Done ((r, st), w') -> place (w_cells w) d t v -> harmless env p d b ->
  r <> PARTIAL /\ exists v' k, does env p t v (left_at w) r (left_at w') v' k /\
    store (w_cells w) d v' = Done (w_cells w') /\ w_trace w' = rev k ++ w_trace w.
Proof.
  intros H Hp Hb. pose proof (part_exact n t v d b p w Hp Hb) as Hm. unfold mirrors in Hm. rewrite H in Hm.
  destruct (parse env n t v p (left_at w)) as [[r1 w1]|e] eqn:E; [|discriminate].
  destruct Hm as (v' & st' & w2 & Hv & Hr & Hl & Hs & Ht & _). injection Hr as -> -> ->.
  destruct (parse_done _ _ _ _ _ _ _ E) as (Hpart & v1 & k & Hc & Hk & Hd). split; auto. exists v1, k.
  assert (v' = v1) as -> by congruence. rewrite Hl. rewrite <- Hk. auto.
Qed.

(** ** Sequences into tuples *)

Definition loud (p : pat) : nat := if ignores p then 0 else 1.
Fixpoint louds (l : list pat) : nat := match l with [] => 0 | p :: t => loud p + louds t end.

Lemma tuple_index_at done q rest : tuple_index1 (done ++ q :: rest) (length done) = louds done + loud q.
Proof. induction done as [|a done IH]; cbn; auto. rewrite IH. unfold loud at 2. lia. Qed.

Lemma nth_at {A} (l : list A) x r : nth_error (l ++ x :: r) (length l) = Some x.
Proof. rewrite nth_error_app2, Nat.sub_diag; auto. Qed.
Lemma upd_at {A} (l : list A) x r y : upd (l ++ x :: r) (length l) y = l ++ y :: r.
Proof. induction l; cbn; auto. now rewrite IHl. Qed.

(** The place of the next part. *)
Lemma slot done q rest td ts vd vs cells : length td = louds done -> length vd = louds done ->
  cells = [VTuple (vd ++ vs)] ->
  match (if ignores q then Some (TNil, VNil) else match ts, vs with t :: _, v :: _ => Some (t, v) | _, _ => None end) with
  | Some (t, v) => exists di, seq_dst (done ++ q :: rest) (length done) (DRef 0 [] (TTuple (td ++ ts))) = Done di /\
      place cells di t v /\
      forall v', (t = TNil -> v' = v) ->
        store cells di v' = Done [VTuple (vd ++ if ignores q then vs else match vs with _ :: r => v' :: r | [] => [] end)]
  | None => match ts with [] => seq_dst (done ++ q :: rest) (length done) (DRef 0 [] (TTuple (td ++ ts))) = Err EType | _ => True end
  end.
Proof.
  intros Htd Hvd ->. unfold seq_dst. rewrite nth_at, tuple_index_at. unfold loud. destruct (ignores q).
  - exists DNil. repeat split; auto.
  - assert (louds done + 1 - 1 = louds done) as -> by lia.
    destruct ts as [|t ts].
    + rewrite app_nil_r. assert (nth_error td (louds done) = None) as -> by (apply nth_error_None; lia). reflexivity.
    + destruct vs as [|v vs]; [exact I|]. replace (nth_error (td ++ t :: ts) (louds done)) with (Some t) by (rewrite <- Htd; now rewrite nth_at).
      assert (t = TNil \/ t <> TNil) as [->|Ht] by (destruct t; auto; right; discriminate).
      * exists DNil. repeat split; auto. intros v' Hv'. cbn. now rewrite Hv'.
      * exists (DRef 0 [louds done] t). split; [destruct t; auto; congruence|]. split.
        -- cbn. repeat split; auto. rewrite <- Hvd, nth_at. reflexivity.
        -- intros v' _. cbn. rewrite <- Hvd, nth_at. cbn. now rewrite upd_at.
Qed.

Lemma louds_snoc l p : louds (l ++ [p]) = louds l + loud p.
Proof. induction l; cbn; lia. Qed.

Lemma snoc {A} (l : list A) x r : l ++ x :: r = (l ++ [x]) ++ r.
Proof. now rewrite <- app_assoc. Qed.
Lemma snoc_length {A} (l : list A) x : length (l ++ [x]) = S (length l).
Proof. rewrite app_length. cbn. lia. Qed.

Hypothesis Henv : all_unbound env.

Lemma spread_fwd b l ts vs s r s' vs' k : spread env l ts vs s r s' vs' k -> forallb unbound l = true ->
  match l with
  | [] => True
  | q :: rest => exists n0, forall n, n0 <= n -> forall done td vd w,
      length td = louds done -> length vd = louds done -> w_cells w = [VTuple (vd ++ vs)] -> left_at w = s ->
      exists st w', go_on env n b (DRef 0 [] (TTuple (td ++ ts))) (done ++ l) (length done) q rest w = Done ((r, st), w') /\
        left_at w' = s' /\ w_cells w' = [VTuple (vd ++ vs')] /\ w_trace w' = rev k ++ w_trace w
  end.
Proof.
  induction 1 as [ts vs s | p l ts vs s s' v' k Hi Hd | p l ts vs s s1 v' k1 r s' vs' k Hi Hd Hs IH
                 | p l t ts v vs s s' v' k Hi Hd | p l t ts v vs s s1 v1 k1 r s' vs' k Hi Hd Hs IH];
    intros Hu; [exact I|..]; cbn [forallb] in Hu; apply andb_true_iff in Hu as [Hup Hul];
    destruct (does_part _ _ _ _ _ _ _ _ Hd) as [n0 H0].
  - exists n0. intros n Hn done td vd w Htd Hvd Hc Hw. rewrite go_on_eq.
    pose proof (slot done p l td ts vd vs _ Htd Hvd Hc) as HS. rewrite Hi in HS. destruct HS as (di & -> & Hp & Hst).
    destruct (H0 n Hn di b w Hw Hp (or_intror (conj Hup Henv))) as (st & w' & -> & Hl & Hc' & Ht).
    rewrite Hst in Hc' by (intros; eapply does_nil; eauto).
    exists (PNary (length done) st), w'. repeat (split; auto). congruence.
  - destruct l as [|q rest].
    + inversion Hs; subst. exists n0. intros n Hn done td vd w Htd Hvd Hc Hw. rewrite go_on_eq.
      pose proof (slot done p [] td ts vd vs' _ Htd Hvd Hc) as HS. rewrite Hi in HS. destruct HS as (di & -> & Hp & Hst).
      destruct (H0 n Hn di b w Hw Hp (or_intror (conj Hup Henv))) as (st & w' & -> & Hl & Hc' & Ht).
      rewrite Hst in Hc' by (intros; eapply does_nil; eauto).
      exists (PNary (length done) st), w'. repeat (split; auto); [congruence|]. now rewrite app_nil_r.
    + destruct (IH Hul) as [n1 H1]. exists (n0 + n1). intros n Hn done td vd w Htd Hvd Hc Hw. rewrite go_on_eq.
      pose proof (slot done p (q :: rest) td ts vd vs _ Htd Hvd Hc) as HS. rewrite Hi in HS. destruct HS as (di & -> & Hp & Hst).
      destruct (H0 n ltac:(lia) di b w Hw Hp (or_intror (conj Hup Henv))) as (st & w1 & -> & Hl & Hc' & Ht).
      rewrite Hst in Hc' by (intros; eapply does_nil; eauto).
      assert (louds (done ++ [p]) = louds done) as Hld by (rewrite louds_snoc; unfold loud; rewrite Hi; lia).
      destruct (H1 n ltac:(lia) (done ++ [p]) td vd w1) as (st' & w' & E & A & B & D); try congruence.
      rewrite snoc_length, <- snoc in E. exists st', w'. rewrite rev_app_distr, <- app_assoc. repeat (split; auto). congruence.
  - exists n0. intros n Hn done td vd w Htd Hvd Hc Hw. rewrite go_on_eq.
    pose proof (slot done p l td (t :: ts) vd (v :: vs) _ Htd Hvd Hc) as HS. rewrite Hi in HS. destruct HS as (di & -> & Hp & Hst).
    destruct (H0 n Hn di b w Hw Hp (or_intror (conj Hup Henv))) as (st & w' & -> & Hl & Hc' & Ht).
    rewrite Hst in Hc' by (intros ->; eapply does_nil; eauto).
    exists (PNary (length done) st), w'. repeat (split; auto). congruence.
  - destruct l as [|q rest].
    + inversion Hs; subst. exists n0. intros n Hn done td vd w Htd Hvd Hc Hw. rewrite go_on_eq.
      pose proof (slot done p [] td (t :: ts) vd (v :: vs') _ Htd Hvd Hc) as HS. rewrite Hi in HS. destruct HS as (di & -> & Hp & Hst).
      destruct (H0 n Hn di b w Hw Hp (or_intror (conj Hup Henv))) as (st & w' & -> & Hl & Hc' & Ht).
      rewrite Hst in Hc' by (intros ->; eapply does_nil; eauto).
      exists (PNary (length done) st), w'. repeat (split; auto); [congruence|]. now rewrite app_nil_r.
    + destruct (IH Hul) as [n1 H1]. exists (n0 + n1). intros n Hn done td vd w Htd Hvd Hc Hw. rewrite go_on_eq.
      pose proof (slot done p (q :: rest) td (t :: ts) vd (v :: vs) _ Htd Hvd Hc) as HS. rewrite Hi in HS. destruct HS as (di & -> & Hp & Hst).
      destruct (H0 n ltac:(lia) di b w Hw Hp (or_intror (conj Hup Henv))) as (st & w1 & -> & Hl & Hc' & Ht).
      rewrite Hst in Hc' by (intros ->; eapply does_nil; eauto). injection Hc' as Hc'.
      assert (louds (done ++ [p]) = louds done + 1) as Hld by (rewrite louds_snoc; unfold loud; rewrite Hi; lia).
      destruct (H1 n ltac:(lia) (done ++ [p]) (td ++ [t]) (vd ++ [v1]) w1) as (st' & w' & E & A & B & D); auto.
      { rewrite snoc_length. lia. } { rewrite snoc_length. lia. } { rewrite <- snoc. auto. }
      rewrite snoc_length, <- !snoc in E. rewrite <- snoc in B.
      exists st', w'. rewrite rev_app_distr, <- app_assoc. repeat (split; auto). congruence.
Qed.

Lemma spread_bwd n b : forall rest q ts vs done td vd w r st w',
  forallb unbound (q :: rest) = true -> length ts <= length vs ->
  length td = louds done -> length vd = louds done -> w_cells w = [VTuple (vd ++ vs)] ->
  go_on env n b (DRef 0 [] (TTuple (td ++ ts))) (done ++ q :: rest) (length done) q rest w = Done ((r, st), w') ->
  exists vs' k, spread env (q :: rest) ts vs (left_at w) r (left_at w') vs' k /\
    w_cells w' = [VTuple (vd ++ vs')] /\ w_trace w' = rev k ++ w_trace w.
Proof.
  induction rest as [|q' rest IH]; intros q ts vs done td vd w r st w' Hu Hlen Htd Hvd Hc H; rewrite go_on_eq in H;
    pose proof Hu as Hu'; cbn [forallb] in Hu'; apply andb_true_iff in Hu' as [Hup Hul].
  all: pose proof (slot done q) as HS.
  1: specialize (HS []). 2: specialize (HS (q' :: rest)).
  all: specialize (HS td ts vd vs _ Htd Hvd Hc).
  all: destruct (ignores q) eqn:Hi.
  2, 4: destruct ts as [|t ts]; [rewrite HS in H; discriminate|]; destruct vs as [|v vs]; [cbn in Hlen; lia|].
  all: destruct HS as (di & Hdi & Hp & Hst); rewrite Hdi in H;
       destruct (part env n di b q w) as [[[r1 st1] w1]|] eqn:E; [|discriminate];
       destruct (part_does _ _ _ _ _ _ _ _ _ _ E Hp (or_intror (conj Hup Henv))) as (Hpart & v1 & k1 & Hd & Hc' & Ht);
       rewrite Hst in Hc' by (intros; subst; eapply does_nil; eauto); injection Hc' as Hc';
       destruct r1; [|injection H as <- <- <-|congruence].
  - injection H as <- <- <-. exists vs, (k1 ++ []). split; [eapply spr_quiet; eauto; constructor|]. rewrite app_nil_r. auto.
  - exists vs, k1. split; [eapply spr_quiet_no; eauto|]. auto.
  - injection H as <- <- <-. exists (v1 :: vs), (k1 ++ []). split; [eapply spr_next; eauto; constructor|]. rewrite app_nil_r. auto.
  - exists (v1 :: vs), k1. split; [eapply spr_no; eauto|]. auto.
  - rewrite (snoc done), <- (snoc_length done q), (snoc td) in H.
    apply (IH q' ts vs (done ++ [q]) (td ++ [t]) (vd ++ [v1])) in H; auto.
    + destruct H as (vs' & k & HS & A & B). exists (v1 :: vs'), (k1 ++ k). split; [eapply spr_next; eauto|].
      rewrite rev_app_distr, <- app_assoc, B, Ht. split; auto. now rewrite (snoc vd).
    + cbn in Hlen. lia.
    + rewrite louds_snoc, snoc_length. unfold loud. rewrite Hi. lia.
    + rewrite louds_snoc, snoc_length. unfold loud. rewrite Hi. lia.
    + now rewrite <- snoc.
  - exists (v1 :: vs), k1. split; [eapply spr_no; eauto|]. auto.
  - rewrite (snoc done), <- (snoc_length done q) in H.
    apply (IH q' ts vs (done ++ [q]) td vd) in H; auto.
    + destruct H as (vs' & k & HS & A & B). exists vs', (k1 ++ k). split; [eapply spr_quiet; eauto|].
      rewrite rev_app_distr, <- app_assoc, B, Ht. auto.
    + rewrite louds_snoc. unfold loud. rewrite Hi. lia.
    + rewrite louds_snoc. unfold loud. rewrite Hi. lia.
  - exists vs, k1. split; [eapply spr_quiet_no; eauto|]. auto.
Qed.

Theorem seq_tuple l ts vs inp r s v' k : l <> [] -> forallb unbound l = true -> length ts = length vs ->
  does env (Seq l) (TTuple ts) (VTuple vs) inp r s v' k <->
  exists vs', v' = VTuple vs' /\ spread env l ts vs inp r s vs' k.
Proof.
  intros Hl Hu Hlen. destruct l as [|q rest]; [congruence|]. split.
  - intros (n & w & H & A & B & D). destruct n as [|n].
    { unfold parse, top_run, bind in H. destruct (top_create _ _ _ _) as [[? ?]|]; discriminate. }
    rewrite parse_seq in H. destruct (go_on _ _ _ _ _ _ _ _ _) as [[[r' st] w']|] eqn:E; [|discriminate]. injection H as -> ->.
    change (top_dst (TTuple ts)) with (DRef 0 [] (TTuple ([] ++ ts))) in E.
    apply (spread_bwd n _ rest q ts vs [] [] [] (World (sf_make inp) [VTuple vs] [])) in E; auto; [|lia].
    destruct E as (vs' & k' & HS & Hc & Ht). exists vs'. cbn in Hc, Ht. rewrite app_nil_r in Ht.
    assert (k' = k) as -> by (rewrite <- (rev_involutive k'), <- (rev_involutive k); congruence).
    split; [congruence|]. rewrite <- A. exact HS.
  - intros (vs' & -> & H).
    destruct (spread_fwd (top_dst (TTuple ts)) _ _ _ _ _ _ _ _ H Hu) as [n0 H0].
    destruct (H0 n0 (Nat.le_refl _) [] [] [] (World (sf_make inp) [VTuple vs] []) eq_refl eq_refl eq_refl eq_refl)
      as (st & w' & E & A & B & D).
    exists (S n0), w'. rewrite parse_seq. cbn [app length] in E. change (top_dst (TTuple ts)) with (DRef 0 [] (TTuple ts)).
    change (top_dst (TTuple ts)) with (DRef 0 [] (TTuple ts)) in E. rewrite E.
    rewrite app_nil_r in D. auto.
Qed.

End Part.
