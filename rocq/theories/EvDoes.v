(** parse() of a part and what the part comes to where it stands. *)
From Coq Require Import List ZArith Bool Arith Lia.
From Verif Require Import Base CharSet Source Dst Pattern Parser Session Rel Safety Limit SpecSession SessionThms.
From Verif Require Import Big BigMk BigLeaf BigSound BigComplete SpecRun Run Blind BlindThms Local SpecValue LocalThms.
Import ListNotations.

Section EvDoes.
Context (env : nat -> option pat).
Hypothesis Hmok : forall id q, env id = Some q -> mok true recur_req q = true.
Notation ev := (ev env).

Lemma ev_part d b p w r w' : mok false default_req p = true ->
  ev GRun (Ctx Fail b) default_req d p (q_s w) w r w' ->
  exists n0 st lk, forall n, n0 <= n ->
  part env n d b p (W (q_s w) [] (q_c w) (q_t w)) =
    Done ((res r, st), W (q_s w') lk (q_c w') (q_t w')).
Proof.
  intros Hp H. destruct (complete_all env Hmok _ _ _ _ _ _ _ _ _ H false [] eq_refl Hp)
    as (st & cs1 & Hk & st' & lk & _ & n0 & HE). cbn [mkg gstk BigSound.gconsume] in *.
  exists n0, st', lk. intros n Hn. unfold part, bind. rewrite create_mk; [|reflexivity|now apply mok_skips in Hp].
  rewrite Hk. specialize (HE n Hn). now rewrite !app_nil_r in *.
Qed.

Lemma part_ev n d b p w r st w' : mok false default_req p = true ->
  part env n d b p (W (q_s w) [] (q_c w) (q_t w)) = Done ((r, st), w') ->
  exists b', r = res b' /\
    ev GRun (Ctx Fail b) default_req d p (q_s w) w b' (SW (left_at w') (w_cells w') (w_trace w')).
Proof.
  intros Hp H. unfold part, bind in H. rewrite create_mk in H; [|reflexivity|now apply mok_skips in Hp].
  destruct (mk _ _ _ _ _) as [[a cs1]|] eqn:Ek; [|discriminate].
  destruct (sound env Hmok n false _ _ _ _ _ _ _ _ _ _ _ _ _ _ (eq_refl : cok (Ctx Fail b) = true) Hp Ek H)
    as (b' & s' & cs' & tr' & lk & -> & -> & _ & Hev).
  exists b'. split; auto. destruct w. exact Hev.
Qed.

Theorem ev_does d b p t v w r w' : mok false default_req p = true ->
  place (q_c w) d t v -> harmless env p d b ->
  (ev GRun (Ctx Fail b) default_req d p (q_s w) w r w' <->
   exists v' k, does env p t v (q_s w) (res r) (q_s w') v' k /\
     store (q_c w) d v' = Done (q_c w') /\ q_t w' = rev k ++ q_t w).
Proof.
  intros Hp Hpl Hh. split.
  - intros H. destruct (ev_part _ _ _ _ _ _ Hp H) as (n & st & lk & E). specialize (E n (le_n n)).
    destruct (part_does env n p t v d b _ _ _ _ E) as (_ & v' & k & Hd & Hs & Ht); auto.
    exists v', k. auto.
  - intros (v' & k & Hd & Hs & Ht). destruct (does_part env _ _ _ _ _ _ _ _ Hd) as [n H].
    destruct (H n (le_n n) d b (W (q_s w) [] (q_c w) (q_t w)) eq_refl Hpl Hh) as (st & w1 & E & E1 & E2 & E3).
    apply part_ev in E; auto. destruct E as (b' & Eb & E).
    assert (b' = r) as -> by (destruct b', r; auto; discriminate).
    cbn in E2, E3. assert (w_cells w1 = q_c w') as Ec by congruence. rewrite Ec, E1, E3, <- Ht in E.
    destruct w'. exact E.
Qed.

Corollary ev_does_top p t v inp r s v' k : mok false default_req p = true ->
  (does env p t v inp (res r) s v' k <->
   ev GRun (top_ctx t) default_req (top_dst t) p inp (SW inp [v] []) r (SW s [v'] (rev k))).
Proof.
  intros Hp. split.
  - intros (n & w & H & A & B & D). apply parse_ev in H; auto. destruct H as (b & E & H).
    assert (b = r) as -> by (destruct b, r; auto; discriminate). now rewrite A, B, D in H.
  - intros H. apply ev_parse in H; auto. destruct H as (w & A & B & D & n & E).
    exists n, w. rewrite (E n (le_n n)). auto.
Qed.

(** Below a skipper. *)
Lemma ev_under c sk d p x w r w' : is_fail (c_skip c) = true ->
  (ev GRun c default_req d (WithSkipper p sk) x w r w' <-> ev GRun (Ctx sk (c_bound c)) default_req d p x w r w').
Proof.
  intros Hc. split; intros H.
  - inversion H; subst; try discriminate; try congruence.
    match goal with H : ev GCln _ _ _ _ _ _ _ _ |- _ => inversion H; subst; try discriminate end.
    match goal with H : ev GAtm _ _ _ _ _ _ _ _ |- _ => inversion H; subst; try discriminate end.
    match goal with H : ev GRaw _ _ _ _ _ _ _ _ |- _ => inversion H; subst; try discriminate end. assumption.
  - apply ev_noskip; auto. apply ev_cln_no; auto. apply ev_atm_no; auto. apply ev_skipper; auto.
Qed.

End EvDoes.
