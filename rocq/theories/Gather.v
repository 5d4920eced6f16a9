(** Repetitions, lists and optionals: what they append, and that an element that fails
    leaves nothing behind. *)
From Coq Require Import List ZArith Bool Arith Lia.
From Verif Require Import Base CharSet Source Dst Pattern Parser Session SpecSession SpecRun SpecValue SpecCollect.
From Verif Require Import Big BigLeaf Local LocalThms EvDoes EvReq Shape Fill Frame Atomic Collect Element Quiet.
Import ListNotations.

(** An operand whose value is one object that is stored once, when it is complete. *)
Definition storable (R : nat -> bool) (t : ty) (q : pat) : Prop :=
  unbound q = true /\ (t = TNil \/ (elem_ty t <> TNil /\ sized (elem_ty t) = true /\ single R (elem_ty t) q = true)).

Lemma storable_fits R t q : storable R t q -> fits R (top_dst t) q.
Proof.
  intros (A & B). split; auto. destruct B as [->|(B & C & D)]; [exact I|].
  rewrite value_ty_top. destruct t; cbn in *; auto.
Qed.

Section Gather.
Context (env : nat -> option pat).
Hypothesis Hmok : forall id q, env id = Some q -> mok true recur_req q = true.
Hypothesis Hplain : forall id q, env id = Some q -> plain q = true.
Context (R : nat -> bool).
Hypothesis Hfills : forall id q, env id = Some q -> R id = true -> fills R q = true.
Let Hub : all_unbound env := env_unbound env Hplain.

(** ** An element that fails *)
Theorem once_untouched sk p t v s s' v' k : mok false default_req (under sk (once p)) = true ->
  storable R t p \/ (plain p = true /\ careful true p = true) ->
  parses env (under sk (once p)) t FAILURE s v s' v' k -> v' = v.
Proof.
  intros Hm [Hs|[Hp Hc]] H.
  - apply (once_no env Hmok Hub Hplain R Hfills sk t) in H; [|exact Hm|now apply storable_fits]. destruct H as (x & _ & E). exact E.
  - eapply careful_once; eauto.
Qed.

Lemma one_opt sk q : mok false default_req (under sk (Opt q)) = true -> mok false default_req (under sk (once q)) = true.
Proof.
  cbn [under mok once]. intros H. apply andb_prop in H. destruct H as [H1 H]. apply andb_prop in H. destruct H as [H2 H3].
  rewrite H1. cbn [andb]. eapply mok_less; [| | | |exact H3]; auto; try discriminate.
Qed.
Lemma one_list sk q sep : mok false default_req (under sk (PList q sep)) = true -> mok false default_req (under sk (once q)) = true.
Proof.
  cbn [under mok once]. intros H. apply andb_prop in H. destruct H as [H1 H]. apply andb_prop in H. destruct H as [H2 H3].
  rewrite H1. cbn [andb]. eapply mok_less; [| | | |exact H2]; auto; try discriminate.
Qed.

Notation untouched q sk t := (fun s v s' v' k => parses env (under sk (once q)) t FAILURE s v s' v' k /\ v' = v).

Theorem repeat_untouched sk lo hi q t v s r v' k : mok false default_req (under sk (Repeat lo hi q)) = true ->
  storable R t q \/ (plain q = true /\ careful true q = true) ->
  ((exists s', does env (under sk (Repeat lo hi q)) t v s (res r) s' v' k) <->
   exists s', repeated (parses env (under sk (once q)) t SUCCESS) (untouched q sk t) lo hi anywhere v s (res r) s' v' k).
Proof.
  intros Hm Hc. rewrite (repeat_outcome env Hmok) by auto. pose proof (one_rep _ _ _ _ Hm) as Ho.
  split; intros (s' & H); exists s'; revert H; apply repeated_iff; intros; try tauto; (split; [intros HH; split; [exact HH|eapply once_untouched; eauto]|intros HH; apply HH]) ||
   (split; [intros HH; apply HH|intros HH; split; [exact HH|eapply once_untouched; eauto]]).
Qed.

Theorem list_untouched sk q sep t v s r s' v' k : mok false default_req (under sk (PList q sep)) = true ->
  unbound sep = true -> storable R t q \/ (plain q = true /\ careful true q = true) ->
  (does env (under sk (PList q sep)) t v s (res r) s' v' k <->
   r = true /\ items (parses env (under sk (once q)) t SUCCESS) (untouched q sk t) (checks env (under sk sep)) s v s s' v' k).
Proof.
  intros Hm Hu Hc. rewrite (list_law env Hmok) by auto. pose proof (one_list _ _ _ Hm) as Ho.
  split; (intros (E & H); split; [exact E|]); revert H; apply items_iff; intros; try tauto; (split; [intros HH; split; [exact HH|eapply once_untouched; eauto]|intros HH; apply HH]) ||
   (split; [intros HH; apply HH|intros HH; split; [exact HH|eapply once_untouched; eauto]]).
Qed.

Theorem opt_untouched sk q t v s r s' v' k : mok false default_req (under sk (Opt q)) = true ->
  storable R t q \/ (plain q = true /\ careful true q = true) ->
  (does env (under sk (Opt q)) t v s (res r) s' v' k <->
   r = true /\ (parses env (under sk (once q)) t SUCCESS s v s' v' k \/
                (s' = s /\ v' = v /\ exists s2, parses env (under sk (once q)) t FAILURE s v s2 v k))).
Proof.
  intros Hm Hc. rewrite (opt_law env Hmok) by auto. pose proof (one_opt _ _ Hm) as Ho.
  split; intros (E & [H|H]); (split; [exact E|]); auto; right.
  - destruct H as (E1 & s2 & H). assert (v' = v) as -> by (eapply once_untouched; eauto). eauto.
  - destruct H as (E1 & -> & s2 & H). eauto.
Qed.

(** ** Elements, appended *)
Lemma app_cons_inv {A} (l : list A) y ys : (l ++ [y]) ++ ys = l ++ y :: ys.
Proof. now rewrite <- app_assoc. Qed.

Lemma matches_elements q e : forall v s n s' v' k, matches (appends env q (TColl e)) v s n s' v' k -> forall l, v = VColl l ->
  exists ys, v' = VColl (l ++ ys) /\ length ys = n /\ elements env q e s ys s' k.
Proof.
  induction 1; intros l ->.
  - exists []. rewrite app_nil_r. repeat split. constructor.
  - destruct H as (x & Hx & Hs). inversion Hs; subst; [|congruence]. cbn [elem_ty] in *.
    edestruct IHmatches as (ys & A & B & C); [reflexivity|]. exists (y :: ys). rewrite <- app_cons_inv. repeat split; auto; [cbn; auto|].
    eapply els_one; eauto.
Qed.
Lemma elements_matches q e : forall s ys s' k, elements env q e s ys s' k -> forall l,
  matches (appends env q (TColl e)) (VColl l) s (length ys) s' (VColl (l ++ ys)) k.
Proof.
  induction 1; intros l; [rewrite app_nil_r; constructor|]. cbn [length]. econstructor; [|rewrite <- app_cons_inv; apply IHelements].
  exists x. split; auto. now constructor.
Qed.

(** repeat<lo, hi>(q) into a collection. *)
Theorem repeat_appends sk lo hi q e l s r v' k : storable R (TColl e) q ->
  mok false default_req (under sk (Repeat lo hi q)) = true ->
  ((exists s', does env (under sk (Repeat lo hi q)) (TColl e) (VColl l) s (res r) s' v' k) <->
   exists ys s1 k1 k2, v' = VColl (l ++ ys) /\ k = k1 ++ k2 /\ elements env (under sk q) e s ys s1 k1 /\
     ((hi <> 0 /\ length ys = hi /\ r = true /\ k2 = []) \/
      ((hi = 0 \/ length ys < hi) /\ r = (lo <=? length ys) /\ no_element env (under sk q) e s1 k2))).
Proof.
  intros Hf Hm. rewrite (repeat_elems env Hmok Hub Hplain R Hfills) by (auto using storable_fits). split.
  - intros (s' & H). remember (res r) as r0 eqn:Er. remember (VColl l) as v0 eqn:Ev. destruct H as [s' v' k A B|n s1 v1 k1 s2 v' k2 s' A B C D]; subst v0.
    + destruct (matches_elements _ _ _ _ _ _ _ _ B l eq_refl) as (ys & E & F & G). exists ys, s', k, []. rewrite app_nil_r.
      repeat split; auto. left. destruct r; [auto|discriminate].
    + destruct (matches_elements _ _ _ _ _ _ _ _ B l eq_refl) as (ys & E & F & G). destruct C as (x & Hx & ->). exists ys, s1, k1, k2.
      repeat split; auto. right. subst n. split; auto. split; [destruct r, (lo <=? length ys); auto; discriminate|]. exists s2, x. exact Hx.
  - intros (ys & s1 & k1 & k2 & -> & -> & H & [(A & B & -> & ->)|(A & -> & s2 & x & Hx)]).
    + exists s1. rewrite app_nil_r. apply rpt_full; auto. rewrite <- B. apply elements_matches; auto.
    + exists s1. replace (res (lo <=? length ys)) with (if lo <=? length ys then SUCCESS else FAILURE) by (destruct (lo <=? length ys); reflexivity).
      eapply rpt_stop; eauto; [apply elements_matches; eauto| |exact I]. exists x. split; [exact Hx|reflexivity].
Qed.

(** q % sep into a collection. *)
Theorem list_appends sk q sep e l s r s' v' k : storable R (TColl e) q -> unbound sep = true ->
  mok false default_req (under sk (PList q sep)) = true ->
  (does env (under sk (PList q sep)) (TColl e) (VColl l) s (res r) s' v' k <->
   r = true /\ exists ys, v' = VColl (l ++ ys) /\ separated env (under sk q) (under sk sep) e s s ys s' k).
Proof.
  intros Hf Hu Hm. rewrite (list_elems env Hmok Hub Hplain R Hfills) by (auto using storable_fits).
  assert (forall m v s s' v' k, items (appends env (under sk q) (TColl e)) (refuses env (under sk q) (TColl e)) (checks env (under sk sep)) m v s s' v' k ->
    forall l, v = VColl l -> exists ys, v' = VColl (l ++ ys) /\ separated env (under sk q) (under sk sep) e m s ys s' k) as HF.
  { clear. induction 1; intros l ->.
    - destruct H as (x & Hx & ->). exists []. rewrite app_nil_r. split; auto. apply spt_stop. exists s2, x. exact Hx.
    - destruct H as (x & Hx & Hs). inversion Hs; subst; [|congruence]. exists [y]. split; auto. eapply spt_last; eauto.
    - destruct H as (x & Hx & Hs). inversion Hs; subst; [|congruence]. edestruct IHitems as (ys & A & B); [reflexivity|].
      exists (y :: ys). rewrite <- app_cons_inv. split; auto. eapply spt_next; eauto. }
  assert (forall m s ys s' k, separated env (under sk q) (under sk sep) e m s ys s' k -> forall l,
    items (appends env (under sk q) (TColl e)) (refuses env (under sk q) (TColl e)) (checks env (under sk sep)) m (VColl l) s s' (VColl (l ++ ys)) k) as HB.
  { clear. induction 1; intros l.
    - rewrite app_nil_r. destruct H as (s2 & x & Hx). eapply itm_stop. exists x. split; [exact Hx|reflexivity].
    - eapply itm_last; eauto. exists x. split; auto. now constructor.
    - eapply itm_next; eauto; [|rewrite <- app_cons_inv; apply IHseparated]. exists x. split; auto. now constructor. }
  split; intros (E & H); (split; [exact E|]).
  - destruct (HF _ _ _ _ _ _ H l eq_refl) as (ys & A & B). eauto.
  - destruct H as (ys & -> & H). auto.
Qed.

(** -q into a collection. *)
Theorem opt_appends sk q e l s r s' v' k : storable R (TColl e) q ->
  mok false default_req (under sk (Opt q)) = true ->
  (does env (under sk (Opt q)) (TColl e) (VColl l) s (res r) s' v' k <->
   r = true /\ ((exists y, v' = VColl (l ++ [y]) /\ elements env (under sk q) e s [y] s' k) \/
                (v' = VColl l /\ s' = s /\ no_element env (under sk q) e s k))).
Proof.
  intros Hf Hm. rewrite (opt_elems env Hmok Hub Hplain R Hfills) by (auto using storable_fits).
  split; intros (E & H); (split; [exact E|]).
  - destruct H as [(x & Hx & Hs)|(-> & s2 & x & Hx & ->)].
    + left. inversion Hs; subst; [|congruence]. exists y. split; auto. rewrite <- (app_nil_r k). eapply els_one; eauto. constructor.
    + right. repeat split; auto. exists s2, x. exact Hx.
  - destruct H as [(y & -> & Hy)|(-> & -> & s2 & x & Hx)].
    + left. inversion Hy; subst. match goal with H : elements _ _ _ _ [] _ _ |- _ => inversion H; subst end. rewrite app_nil_r. exists x. split; auto. now constructor.
    + right. split; auto. exists s2, x. split; [exact Hx|reflexivity].
Qed.

(** ** Not *)
Theorem not_untouched sk q t v s r s' v' k : mok false default_req (under sk (Not q)) = true -> plain q = true -> quiet false q = true ->
  does env (under sk (Not q)) t v s (res r) s' v' k -> v' = v.
Proof.
  intros Hm Hp Hq H. eapply (quiet_does env Hmok Hplain) in H; eauto.
Qed.
End Gather.
