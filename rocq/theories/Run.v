(** The results about runs of the machine, for parse(). *)
From Coq Require Import List ZArith Bool Arith Lia.
From Verif Require Import Base CharSet Source Dst Pattern Parser Session Rel Safety Limit SpecSession SessionThms.
From Verif Require Import Big BigMk BigLeaf BigSound BigComplete SpecPeg Leaf PegSound PegTerm SpecRun.
Import ListNotations.

(** ** parse() and the big-step relation *)

Section Run.
Context (env : nat -> option pat).
Hypothesis Hmok : forall id q, env id = Some q -> mok true recur_req q = true.

Lemma top_cok t : cok (top_ctx t) = true. Proof. reflexivity. Qed.

Lemma parse_mk n t v p inp : skips_ok p = true ->
  parse env n t v p inp =
  match mk (top_ctx t) default_req (top_dst t) p [v] with
  | Err e => Err e
  | Done (st, cs1) =>
    match consume sf_ops env n (top_ctx t) default_req (top_dst t) p st (W inp (repeat inp (owed st)) cs1 []) with
    | Done ((r, _), w) => Done (r, w)
    | Err e => Err e
    end
  end.
Proof.
  intros Hs. unfold parse, top_run, bind, top_create, top_consume.
  change (World (sf_make inp) [v] []) with (W inp [] [v] []). rewrite create_mk; auto.
  destruct (mk _ _ _ _ _) as [[st cs1]|]; auto. now rewrite app_nil_r.
Qed.

Theorem parse_ev n t v p inp r w : mok false default_req p = true ->
  parse env n t v p inp = Done (r, w) ->
  exists b, r = res b /\
    ev env GRun (top_ctx t) default_req (top_dst t) p inp (SW inp [v] []) b
       (SW (left_at w) (w_cells w) (w_trace w)).
Proof.
  intros Hp H. rewrite parse_mk in H by now apply mok_skips in Hp.
  destruct (mk _ _ _ _ _) as [[st cs1]|] eqn:Ek; [|discriminate].
  destruct (consume _ _ _ _ _ _ _ _ _) as [[[r' st'] w']|] eqn:E; [|discriminate]. injection H as -> ->.
  rewrite <- (app_nil_r (repeat inp (owed st))) in E.
  destruct (sound env Hmok n false _ _ _ _ _ _ _ _ _ _ _ _ _ _ (top_cok t) Hp Ek E)
    as (b & s' & cs' & tr' & lk & -> & -> & _ & Hev).
  exists b. split; auto.
Qed.

Theorem ev_parse t v p inp b s cs tr : mok false default_req p = true ->
  ev env GRun (top_ctx t) default_req (top_dst t) p inp (SW inp [v] []) b (SW s cs tr) ->
  exists w, left_at w = s /\ w_cells w = cs /\ w_trace w = tr /\
            evt (fun n => parse env n t v p inp) (Done (res b, w)).
Proof.
  intros Hp H. destruct (complete_all env Hmok _ _ _ _ _ _ _ _ _ H false [] (top_cok t) Hp)
    as (st & cs1 & Hk & st' & lk & _ & n0 & HE). cbn [mkg gstk BigSound.gconsume q_s q_c q_t] in *.
  exists (W s (lk ++ []) cs tr). repeat (split; [reflexivity|]). exists n0. intros n Hn.
  rewrite parse_mk by now apply mok_skips in Hp. rewrite Hk. specialize (HE n Hn). rewrite app_nil_r in HE.
  now rewrite HE.
Qed.

Lemma mono_parse t v p inp : mono (fun n => parse env n t v p inp).
Proof.
  apply (mono_map (fun n => top_run sf_ops env n t p (World (sf_make inp) [v] []))
    (fun o => match o with Done ((r, _), w) => Done (r, w) | Err e => Err e end)); [|reflexivity].
  apply (Mono_mono (fun n => top_run sf_ops env n t p)). unfold top_run. apply Mono_bind; [apply Mono_const|].
  intros st. apply Mono_consume.
Qed.

(** Everything that comes to an end reaches an outcome. *)
Lemma live_reaches t v p inp : live (fun n => parse env n t v p inp) ->
  exists o, reaches (fun n => parse env n t v p inp) o.
Proof.
  intros [n0 H]. exists (parse env n0 t v p inp). split; [apply H; lia|]. exists n0. intros k Hk.
  apply (mono_lim (fun n => parse env n t v p inp) n0); auto. apply mono_parse.
Qed.

Lemma parse_dst_error n t v p inp e : parse env n t v p inp = Err e -> e <> EFuel -> dst_error e.
Proof. intros H Hf. apply parse_errors in H. unfold okerr in H. unfold dst_error. intuition. Qed.

End Run.

(** ** Asking for less *)

Definition weaker (rq2 rq : req) : Prop :=
  r_recur rq = false /\ r_recur rq2 = false /\ (r_clean rq2 = true -> r_clean rq = true).

Lemma weaker_raw rq2 rq p : weaker rq2 rq -> weaker (raw_req rq2 p) (raw_req rq p).
Proof.
  intros (H1 & H2 & H3). unfold weaker, raw_req. rewrite H1, H2. unfold wants_clean.
  destruct (r_clean rq) eqn:E1, (r_clean rq2) eqn:E2; try (now specialize (H3 eq_refl)); destruct (f_clean p); cbn [negb andb];
    repeat match goal with |- context [if wants_atomic ?a ?b then _ else _] => destruct (wants_atomic a b) end;
    cbn; auto; rewrite ?E1, ?E2; auto.
Qed.
Lemma weaker_wants rq2 rq p : weaker rq2 rq -> wants_clean rq2 p = true -> wants_clean rq p = true.
Proof. intros (_ & _ & H) E. unfold wants_clean in *. apply andb_prop in E. destruct E as [E1 E2]. now rewrite E2, (H E1). Qed.
Lemma weaker_refl rq : r_recur rq = false -> weaker rq rq.
Proof. unfold weaker. auto. Qed.
Lemma weaker_un rq2 rq : weaker rq2 rq -> weaker (unatomic_req rq2) (unatomic_req rq).
Proof. unfold weaker. cbn. tauto. Qed.


Definition wk (f : bool -> req -> pat -> bool) (p : pat) : Prop :=
  forall h h2 rq rq2, (h2 = true -> h = true) -> weaker rq2 rq -> f h rq p = true -> f h2 rq2 p = true.

Lemma wk_mok p : wk mokr p -> wk mok p.
Proof.
  intros H h h2 rq rq2 Hh Hw. rewrite !mok_eq. apply H; [|now apply weaker_raw].
  pose proof Hw as (W1 & W2 & _). rewrite W1, W2. cbn [negb andb]. intros E.
  apply orb_prop in E. apply orb_true_iff. destruct E as [E|E]; [left; auto|right; eapply weaker_wants; eauto].
Qed.

Lemma mok_weak p : wk mok p.
Proof.
  induction p using pat_ind'; apply wk_mok; intros h h2 rq rq2 Hh Hw; cbn [mokr]; auto;
    rewrite ?andb_true_iff, ?forallb_forall, ?Forall_forall in *; intros; intuition;
    try (eapply H || eapply IHp || eapply IHp1 || eapply IHp2; eauto; unfold weaker in *; cbn; intuition; fail).
  destruct h2; auto. rewrite Hh in H0; auto.
Qed.

Lemma mk0_weak p : wk (fun _ => mk0) p.
Proof.
  assert (forall p, wk (fun _ => mk0r) p -> wk (fun _ => mk0) p) as HS.
  { clear p. intros p H h h2 rq rq2 Hh Hw. rewrite !mk0_eq. pose proof Hw as (W1 & W2 & _). rewrite W1, W2. cbn [orb].
    rewrite !andb_true_iff. intros [H1 H2]. split; [|eapply (H h h2); eauto using weaker_raw].
    destruct (wants_clean rq2 p) eqn:E; auto. now rewrite (weaker_wants _ _ _ Hw E) in H1. }
  induction p using pat_ind'; apply HS; intros h h2 rq rq2 Hh Hw; cbn [mk0r]; auto;
    try (destruct l; auto; inversion H; subst; eapply (H2 h h2); eauto; unfold weaker in *; cbn; intuition; fail);
    try (eapply (IHp h h2) || eapply (IHp1 h h2) || eapply (IHp2 h h2); eauto; unfold weaker in *; cbn; intuition; fail).
Qed.

Lemma peg_weak T sk p : wk (fun _ => peg_ok T sk) p.
Proof.
  assert (forall sk p, wk (fun _ => pokr T sk) p -> wk (fun _ => peg_ok T sk) p) as HS.
  { clear p sk. intros sk p H h h2 rq rq2 Hh Hw. rewrite !peg_ok_eq. eapply (H h h2); eauto using weaker_raw. }
  revert sk. induction p using pat_ind'; intros sk; apply HS; intros h h2 rq rq2 Hh Hw; cbn [pokr]; auto;
    rewrite ?andb_true_iff, ?forallb_forall, ?Forall_forall in *; intros; intuition;
    try (eapply (H x) || eapply (IHp sk h h2) || eapply (IHp1 sk h h2) || eapply (IHp2 sk h h2); eauto; unfold weaker in *; cbn; intuition; fail).
  - destruct sk; cbn in H0 |- *; auto. eapply (mk0_weak p h h2); eauto.
  - eapply (IHp false h h2); eauto.
  - apply negb_true_iff in H1. apply negb_true_iff. destruct Hw as (_ & _ & Hw). destruct (r_clean rq2); auto. now rewrite Hw in H1.
  - apply negb_true_iff. apply (proj1 (proj2 Hw)).
  - destruct sk; cbn in H0 |- *; auto. eapply (mk0_weak p1 h h2); eauto.
  - eapply (IHp1 true h h2); eauto.
Qed.

(** ** What the grammar depends on *)

Section ExtIn.
Context (env : nat -> option pat) (Q : list Z -> Prop).
Hypothesis HQ : forall a b, Q (a ++ b) -> Q b.
Notation m := (m env).

Lemma in_trim ws s : Q s -> Q (trim ws s).
Proof. intros H. destruct (trim_suffix ws s) as [k E]. rewrite E in H. now apply HQ in H. Qed.
Lemma in_skipn k s : Q s -> Q (skipn k s).
Proof. intros H. rewrite <- (firstn_skipn k s) in H. now apply HQ in H. Qed.
Lemma in_number b lo hi s t : Q s -> number b lo hi s = Some t -> Q t.
Proof. unfold number. destruct (_ <=? _)%Z; [|discriminate]. intros H [= <-]. now apply in_skipn. Qed.
Lemma in_unsigned s : Q s -> Q (unsigned s).
Proof. intros H. destruct s as [|z s]; auto. cbn. destruct (_ || _); auto. now apply (HQ [z]). Qed.

(** What is skipped only matters at the places that may be met. *)
Lemma m_ext_in ws g s r : m ws g s r -> forall ws', (forall s, Q s -> ws s = ws' s) -> Q s ->
  m ws' g s r /\ (forall t, r = Some t -> Q t).
Proof.
  assert (HE : forall ws ws' s, (forall s, Q s -> ws s = ws' s) -> Q s -> trim ws s = trim ws' s).
  { intros ws0 ws' s0 Hw. now apply trim_in. }
  induction 1; intros ws' Hw Ts; pose proof (HE _ _ _ Hw Ts) as E; pose proof (in_trim ws' _ Ts) as Tt.
  all: repeat match goal with
       | IH : forall w, _ -> Q ?s -> _, Tz : Q ?s |- _ =>
         destruct (IH _ ltac:(eassumption) Tz) as [? ?]; clear IH
       | H : forall t, Some ?a = Some t -> Q t |- _ => specialize (H _ eq_refl)
       end.
  all: try (split; [|intros ? [= <-]; auto]; econstructor; eauto; try congruence; fail).
  all: try (split; [econstructor; eauto; fail|auto]).
  all: try (rewrite E in *; split; [|intros ? [= <-]; auto]; econstructor; eauto; fail).
  - rewrite E in H. split; [now apply (m_char _ ws' cs s y)|]. intros ? [= <-]. rewrite H in Tt. now apply (HQ [y]).
  - rewrite E in H. split; [now apply m_eoi|]. intros ? [= <-]. now rewrite H in Tt.
  - rewrite E in H. split; [now apply m_lit|]. intros ? [= <-]. rewrite H in Tt. now apply HQ in Tt.
  - rewrite E in *. split; [eapply m_sym; eauto|]. intros ? [= <-]. rewrite H in Tt. now apply HQ in Tt.
  - rewrite E. split; [apply m_uint|]. intros t. now apply in_number.
  - rewrite E. split; [apply m_int|]. intros t. apply in_number. now apply in_unsigned.
  - intros t. destruct (lo <=? n); [|discriminate]. now intros [= <-].
  - rewrite E in IHm. destruct (IHm nows) as [A B]; auto. split; auto. apply m_lexeme. exact A.
  - rewrite E in IHm. destruct (IHm (passes skp)) as [A B]; auto. split; auto. now apply m_skipper.
Qed.
End ExtIn.

Section Ext.
Context (env : nat -> option pat) (P : Z -> Prop).
Notation m := (m env).
Let HP (a b : list Z) : Forall P (a ++ b) -> Forall P b.
Proof. intros H. now apply Forall_app in H. Qed.

Lemma all_trim ws s : Forall P s -> Forall P (trim ws s).
Proof. now apply in_trim. Qed.
Lemma all_skipn k s : Forall P s -> Forall P (skipn k s).
Proof. now apply in_skipn. Qed.
Lemma all_number b lo hi s t : Forall P s -> number b lo hi s = Some t -> Forall P t.
Proof. now apply in_number. Qed.
Lemma all_unsigned s : Forall P s -> Forall P (unsigned s).
Proof. now apply in_unsigned. Qed.

(** The characters to skip only matter as far as they may occur. *)
Lemma m_ext_on ws g s r : m ws g s r -> forall ws', (forall s, Forall P s -> ws s = ws' s) -> Forall P s ->
  m ws' g s r /\ (forall t, r = Some t -> Forall P t).
Proof. now apply m_ext_in. Qed.

End Ext.

(** ** parse() and the grammar *)

(** The definitions of Recur patterns and the character type. *)
Definition known (T : char_ty) (env : nat -> option pat) : Prop :=
  ct_ok T /\
  (forall id q, env id = Some q -> peg_ok T true recur_req q = true) /\
  (forall id q, env id = Some q -> mok true recur_req q = true).

(** The patterns considered, without skipper and below apply_skipper. *)
Definition plain (T : char_ty) (p : pat) : bool := mok false default_req p && peg_ok T false default_req p.
Definition plain_sk (T : char_ty) (p : pat) : bool := mok false default_req p && peg_ok T true default_req p.

Section Grammar.
Context (T : char_ty) (env : nat -> option pat).
Hypothesis Hk : known T env.
Let HT : ct_ok T := proj1 Hk.
Let Henv := proj1 (proj2 Hk).
Let Hmok := proj2 (proj2 Hk).
Notation m := (m env).

Lemma run_m n t v p inp r w : plain T p = true -> Forall (tok T) inp ->
  parse env n t v p inp = Done (r, w) ->
  Forall (tok T) (left_at w) /\
  match r with
  | SUCCESS => m nows (One p) inp (Some (left_at w))
  | FAILURE => m nows (One p) inp None
  | PARTIAL => False
  end.
Proof.
  unfold plain. intros Hp Ti H. apply andb_prop in Hp. destruct Hp as [Hp1 Hp2].
  apply parse_ev in H; auto. destruct H as (b & -> & H).
  split. { apply (toks_ev env T) in H; auto. }
  apply (sound_all env T HT Henv) in H.
  destruct (H nows false inp inp) as [(r0 & HJ & HR) _]; cbn; auto with eqt; try discriminate; try reflexivity; try (split; auto; discriminate).
  cbn in HJ. destruct b, r0; cbn in HR; try contradiction; cbn [res]; auto.
  apply eqt_nows in HR. now subst.
Qed.

Lemma says_m p inp r : plain T p = true -> Forall (tok T) inp -> says env p inp r ->
  m nows (One p) inp r /\ match r with Some s => Forall (tok T) s | None => True end.
Proof.
  intros Hp Ti (t & v & n & w & H). destruct r as [s|].
  - destruct H as [H <-]. destruct (run_m _ _ _ _ _ _ _ Hp Ti H). auto.
  - destruct (run_m _ _ _ _ _ _ _ Hp Ti H). auto.
Qed.

Lemma m_live p inp r t v : plain T p = true -> Forall (tok T) inp ->
  m nows (One p) inp r -> live (fun n => parse env n t v p inp).
Proof.
  unfold plain. intros Hp Ti H. apply andb_prop in Hp. destruct Hp as [Hp1 Hp2].
  apply (live_all env T HT Henv Hmok) in H. cbn [LG] in H.
  eapply live_ext; [intros n; symmetry; apply parse_mk; now apply mok_skips in Hp1|].
  destruct (mk _ _ _ _ _) as [[st cs1]|e] eqn:Ek.
  - destruct (H false false (top_ctx t) default_req (top_dst t) inp inp [] [v] cs1 [] st) as [n0 L];
      cbn; auto with eqt; try discriminate; try reflexivity; try (split; auto; discriminate).
    cbn [gstk BigSound.gconsume] in L. rewrite app_nil_r in L.
    exists n0. intros n Hn. specialize (L n Hn). destruct (consume _ _ _ _ _ _ _ _ _) as [[[? ?] ?]|]; congruence.
  - apply live_const. pose proof (nfm_in p (sk_of (c_skip (top_ctx t))) default_req (top_dst t) [v]) as HN.
    unfold mk in Ek. rewrite Ek in HN. unfold nf in HN. congruence.
Qed.

Theorem m_obeys p inp r : plain T p = true -> Forall (tok T) inp -> m nows (One p) inp r -> obeys env p inp r.
Proof.
  intros Hp Ti H t v. destruct (live_reaches env t v p inp (m_live _ _ _ t v Hp Ti H)) as [o Ho].
  exists o. split; auto. destruct Ho as [Hf [n Ho]]. specialize (Ho n (le_n n)). destruct o as [[a w]|e].
  - destruct (run_m _ _ _ _ _ _ _ Hp Ti Ho) as [_ Hm].
    destruct a; try contradiction; apply (m_det _ _ _ _ _ H) in Hm; subst; auto.
  - eapply parse_dst_error; eauto. congruence.
Qed.

(** *** Below apply_skipper *)

Lemma m_ext ws g s r : m ws g s r -> forall ws', (forall s, Forall (tok T) s -> ws s = ws' s) -> Forall (tok T) s ->
  m ws' g s r /\ (forall t, r = Some t -> Forall (tok T) t).
Proof. apply m_ext_on. Qed.

Section Skipper.
Context (skp : pat) (ws : gap).
Hypothesis Hcs : skipper T skp = true.
Hypothesis Hws : forall s, Forall (tok T) s -> ws s = passes skp s.

Lemma ws_valid s : Forall (tok T) s -> ws s = passes skp s.
Proof. exact (Hws s). Qed.

Lemma trim_valid s : Forall (tok T) s -> trim ws s = trim (passes skp) s.
Proof. apply trim_on. exact ws_valid. Qed.

Notation skipped p := (WithSkipper p skp).

Lemma plain_sk_mok p : plain_sk T p = true -> mok false default_req (skipped p) = true.
Proof. unfold plain_sk. intros H. apply andb_prop in H. cbn. rewrite (skipper_ok T skp Hcs). apply H. Qed.

Lemma ev_skipped t d p q x w b w' :
  ev env GRun (top_ctx t) default_req d (WithSkipper p q) x w b w' ->
  ev env GRun (Ctx q (top_dst t)) default_req d p x w b w'.
Proof.
  intros H. inversion H; subst; try discriminate.
  match goal with H : ev _ GCln _ _ _ _ _ _ _ _ |- _ => inversion H; subst; try discriminate end.
  match goal with H : ev _ GAtm _ _ _ _ _ _ _ _ |- _ => inversion H; subst; try discriminate end.
  match goal with H : ev _ GRaw _ _ _ _ _ _ _ _ |- _ => inversion H; subst; try discriminate end. assumption.
Qed.

Lemma run_m_sk n t v p inp r w : plain_sk T p = true -> Forall (tok T) inp ->
  parse env n t v (skipped p) inp = Done (r, w) ->
  Forall (tok T) (left_at w) /\
  match r with
  | SUCCESS => exists s, m ws (One p) inp (Some s) /\ trim ws (left_at w) = trim ws s
  | FAILURE => m ws (One p) inp None
  | PARTIAL => False
  end.
Proof.
  intros Hp Ti H. apply parse_ev in H; auto using plain_sk_mok. destruct H as (b & -> & H).
  split. { apply (toks_ev env T) in H; auto. }
  unfold plain_sk in Hp. apply andb_prop in Hp. destruct Hp as [Hp1 Hp2].
  apply ev_skipped in H. rename H into H9.
  assert (TL : Forall (tok T) (left_at w)) by now apply (toks_ev env T) in H9.
  apply (sound_all env T HT Henv) in H9.
  pose proof (skips_passes T HT skp (top_dst t) Hcs) as HSk.
  destruct (H9 (passes skp) true inp inp) as [(r0 & HJ & HR) _]; cbn; auto with eqt; try discriminate; try (split; auto; discriminate).
  cbn in HJ, HR. apply m_ext with (ws' := ws) in HJ; auto; [|intros; symmetry; now apply ws_valid].
  destruct HJ as [HJ HJ']. destruct b, r0; cbn in HR; try contradiction; cbn [res]; auto.
  exists l. split; auto. rewrite !trim_valid; auto.
Qed.

Lemma says_m_sk p inp r : plain_sk T p = true -> Forall (tok T) inp -> says_upto ws env (skipped p) inp r ->
  exists r', m ws (One p) inp r' /\
  match r, r' with
  | Some s, Some s' => Forall (tok T) s' /\ trim ws s = trim ws s'
  | None, None => True
  | _, _ => False
  end.
Proof.
  intros Hp Ti (t & v & n & w & H). destruct r as [s|].
  - destruct H as [H E]. destruct (run_m_sk _ _ _ _ _ _ _ Hp Ti H) as [_ (s' & Hm & E')]. exists (Some s'). split; auto.
    split; [|congruence]. destruct (m_ext _ _ _ _ Hm ws) as [_ HT']; auto.
  - destruct (run_m_sk _ _ _ _ _ _ _ Hp Ti H). exists None. auto.
Qed.

Lemma m_live_sk p inp r t v : plain_sk T p = true -> Forall (tok T) inp ->
  m ws (One p) inp r -> live (fun n => parse env n t v (skipped p) inp).
Proof.
  intros Hp Ti H. apply m_ext with (ws' := passes skp) in H; auto using ws_valid. destruct H as [H _].
  pose proof (plain_sk_mok _ Hp) as Hm. unfold plain_sk in Hp. apply andb_prop in Hp. destruct Hp as [Hp1 Hp2].
  apply (live_all env T HT Henv Hmok) in H. cbn [LG] in H.
  eapply live_ext; [intros n; symmetry; apply parse_mk; now apply mok_skips in Hm|].
  destruct (mk _ _ _ _ _) as [[st cs1]|e] eqn:Ek.
  - unfold mk in Ek. rewrite mk_in_eq in Ek. unfold mk_adapt in Ek. cbn in Ek.
    unfold mk_cln_of, mk_atm_of in Ek. cbn in Ek. apply mk_map_inv in Ek. destruct Ek as (a & -> & Ek).
    pose proof (skips_passes T HT skp (top_dst t) Hcs) as HSk. pose proof (skipper_ok T skp Hcs) as HSo.
    assert (live (fun n => consume sf_ops env n (Ctx skp (top_dst t)) default_req (top_dst t) p a
              (W inp (repeat inp (owed a) ++ []) cs1 []))) as [n0 L].
    { apply (H false true (Ctx skp (top_dst t)) default_req (top_dst t) inp inp [] [v] cs1 [] a);
        cbn; auto with eqt; try discriminate; try (split; auto; discriminate).
    }
    exists (S n0). intros [|n] Hn; [lia|]. specialize (L n ltac:(lia)). rewrite app_nil_r in L.
    cbn [owed consume consume_step]. unfold forward_consume, bind. cbn [top_ctx c_bound].
    destruct (consume _ _ _ _ _ _ _ _ _) as [[[? ?] ?]|]; [discriminate|congruence].
  - apply live_const. pose proof (nfm_in (skipped p) (sk_of (c_skip (top_ctx t))) default_req (top_dst t) [v]) as HN.
    unfold mk in Ek. rewrite Ek in HN. unfold nf in HN. congruence.
Qed.

Theorem m_obeys_sk p inp r : plain_sk T p = true -> Forall (tok T) inp -> m ws (One p) inp r ->
  obeys_upto ws env (skipped p) inp r.
Proof.
  intros Hp Ti H t v. destruct (live_reaches env t v (skipped p) inp (m_live_sk _ _ _ t v Hp Ti H)) as [o Ho].
  exists o. split; auto. destruct Ho as [Hf [n Ho]]. specialize (Ho n (le_n n)). destruct o as [[a w]|e].
  - destruct (run_m_sk _ _ _ _ _ _ _ Hp Ti Ho) as [_ Hm].
    destruct a; try contradiction; [destruct Hm as (s' & Hm & E)|]; apply (m_det _ _ _ _ _ H) in Hm; subst; auto.
  - eapply parse_dst_error; eauto. congruence.
Qed.

End Skipper.

End Grammar.
