(** Patterns that leave the destination alone, always or when they fail. *)
From Coq Require Import List ZArith Bool Arith Lia.
From Verif Require Import Base CharSet Source Dst Pattern Parser Session Rel Safety Limit SpecSession SessionThms.
From Verif Require Import Big BigMk BigLeaf BigSound BigComplete SpecRun Run Blind BlindThms Local SpecValue LocalThms Unary.
From Verif Require Import EvDoes EvReq Frame Fill Shape Atomic SpecCollect Collect.
Import ListNotations.

Lemma plain_unbound p : plain p = true -> unbound p = true.
Proof.
  induction p using pat_ind'; cbn; auto; try (intros E; apply andb_prop in E; destruct E as [E1 E2]; rewrite ?E1; cbn; auto; rewrite IHp1, IHp2; auto; fail).
  all: rewrite !forallb_forall; rewrite Forall_forall in H; auto.
Qed.

Section Quiet.
Context (env : nat -> option pat).
Hypothesis Hub : all_unbound env.
Notation ev := (ev env).

Lemma own_rest g c rq t p x w i r s cs v tr : plain p = true -> length cs = length (q_c w) ->
  ev g c rq (dst_cell (length (q_c w)) t) p x (with_c (q_c w ++ [i]) w) r (SW s (cs ++ [v]) tr) -> cs = q_c w.
Proof.
  intros Hp HL H. apply (own_cell env Hub) in H; [|now apply plain_unbound]. destruct H as (v' & E & _). apply app_inj_tail in E. tauto.
Qed.
Lemma nil_rest g c rq p x w r w' : plain p = true -> ev g c rq DNil p x w r w' -> q_c w' = q_c w.
Proof. intros Hp H. apply (nil_cell env Hub) in H; [tauto|now apply plain_unbound]. Qed.

Lemma seq_quiet l i q d di : nth_error l i = Some q -> seq_dst l i d = Done di -> ignores q = true -> di = DNil.
Proof. unfold seq_dst. intros E. intros H Hi. destruct d; [congruence|]. rewrite E, Hi in H. congruence. Qed.

Lemma quiet_wants rq p : quiet (r_atomic rq) p = true -> wants_atomic rq p = false.
Proof. unfold wants_atomic. destruct p, (r_atomic rq); cbn; auto; try discriminate; destruct (f_atomic _); auto; discriminate. Qed.

Definition body_quiet (a : bool) (p : pat) : bool :=
  match p with
  | Eoi | Pass | Fail | Lit _ | Discard _ => true
  | Seq l => forallb (fun q => ignores q || quiet false q) l
  | Alt l => forallb (quiet a) l
  | Repeat _ _ q | Opt q | PList q _ => quiet true q
  | Lexeme q | WithSkipper q _ | Except q _ => quiet a q
  | Not q | BindDst q => quiet false q
  | Act b _ => ac_void b
  | _ => false
  end.
Lemma quiet_body a p : quiet a p = true -> body_quiet a p = true.
Proof. destruct p; cbn; intros H; auto; apply andb_prop in H; tauto. Qed.

Theorem ev_quiet g c rq d p x w r w' : ev g c rq d p x w r w' -> plain p = true ->
  match g with GRun | GSkip | GCln | GAtm => quiet (r_atomic rq) p | _ => body_quiet (r_atomic rq) p end = true -> q_c w' = q_c w.
Proof.
  induction 1; intros Hp Hq; cbn in Hp; auto; try (cbn in Hq; discriminate).
  all: try (apply IHev; auto; fail).
  all: try (apply quiet_wants in Hq; congruence).
  - apply IHev; auto. now apply quiet_body.
  - apply IHev; auto. now apply quiet_body.
  (* sequences *)
  - cbn [body_quiet] in Hq. rewrite forallb_forall in Hp, Hq. pose proof (nth_error_In _ _ H) as Hin. specialize (Hq _ Hin).
    destruct (ignores q) eqn:Ei; [|apply IHev; auto].
    rewrite (seq_quiet _ _ _ _ _ H H0 Ei) in H1. eapply nil_rest; eauto.
  - cbn [body_quiet] in Hq. rewrite forallb_forall in Hp, Hq. pose proof (nth_error_In _ _ H) as Hin. specialize (Hq _ Hin).
    destruct (ignores q) eqn:Ei; [|apply IHev; auto].
    rewrite (seq_quiet _ _ _ _ _ H H1 Ei) in H2. eapply nil_rest; eauto.
  - rewrite IHev2; auto. cbn [body_quiet] in Hq. rewrite forallb_forall in Hp, Hq. pose proof (nth_error_In _ _ H) as Hin. specialize (Hq _ Hin).
    destruct (ignores q) eqn:Ei; [|apply IHev1; auto].
    rewrite (seq_quiet _ _ _ _ _ H H1 Ei) in H2. eapply nil_rest; eauto.
  (* alternatives *)
  - cbn [body_quiet] in Hq. rewrite forallb_forall in Hp, Hq. pose proof (nth_error_In _ _ H) as Hin. apply IHev; auto.
  - cbn [body_quiet] in Hq. rewrite forallb_forall in Hp, Hq. pose proof (nth_error_In _ _ H) as Hin. apply IHev; auto.
  - rewrite IHev2; auto. cbn [body_quiet] in Hq. rewrite forallb_forall in Hp, Hq. pose proof (nth_error_In _ _ H) as Hin. apply IHev1; auto.
  (* repetitions *)
  - rewrite IHev2; auto.
  - eapply nil_rest; eauto.
  - apply andb_prop in Hp. destruct Hp as [Hp1 Hp2]. cbn [body_quiet] in Hq.
    assert (cs = q_c w) as -> by (eapply own_rest; eauto).
    revert H1. unfold act_run, act_dispatch. apply negb_true_iff in Hp1. rewrite Hp1, Hq. destruct (conv _ _) as [az|]; [|discriminate].
    cbn [w_cells q_c]. destruct (ac_fun a az VNil). intros E. injection E as <-. reflexivity.
  - apply andb_prop in Hp. destruct Hp as [Hp1 Hp2]. eapply own_rest; eauto.
  - apply andb_prop in Hp. destruct Hp as [Hp1 Hp2]. eapply nil_rest; eauto.
  - apply andb_prop in Hp. destruct Hp as [Hp1 Hp2]. rewrite IHev2; auto. eapply nil_rest; eauto.
  - apply andb_prop in Hp. destruct Hp as [Hp1 Hp2]. cbn. apply IHev; auto.
  - rewrite IHev2; auto. apply IHev1; auto. apply andb_prop in Hp. tauto.
  - cbn. apply andb_prop in Hp. destruct Hp as [Hp1 Hp2]. eapply nil_rest; eauto.
  - rewrite IHev2; auto. apply andb_prop in Hp. destruct Hp as [Hp1 Hp2]. eapply nil_rest; eauto.
Qed.

Definition body_careful (a : bool) (p : pat) : bool :=
  match p with
  | Char _ | CharSymbol _ | Symbol _ | Eoi | Pass | Fail | Lit _ | Discard _ | Opt _ | PList _ _ | Act _ _ | Construct _ _ => true
  | Alt l => forallb (careful a) l
  | Lexeme q | WithSkipper q _ | Except q _ => careful a q
  | BindDst q => careful false q
  | Not q => quiet false q
  | Seq l => forallb (fun q => ignores q || quiet false q) l
  | Repeat _ _ q => quiet true q
  | _ => false
  end.
Lemma careful_body rq p : careful (r_atomic rq) p = true -> wants_atomic rq p = false -> body_careful (r_atomic rq) p = true.
Proof. unfold wants_atomic. destruct p; cbn; intros H E; rewrite ?E in H; cbn in H; auto. Qed.

Lemma careful_raw p : careful false p = body_careful false p.
Proof. destruct p; reflexivity. Qed.
Lemma careful_unatomic rq p : r_atomic rq = false -> careful (r_atomic rq) p = true -> body_careful (r_atomic rq) p = true.
Proof. intros ->. now rewrite careful_raw. Qed.

Lemma list_never env' g c rq d p x w r w' : Big.ev env' g c rq d p x w r w' ->
  (exists m, g = GElem m \/ g = GSep m) -> r = true.
Proof. induction 1; intros (m0 & [E|E]); try discriminate; eauto. Qed.

Theorem ev_careful g c rq d p x w r w' : ev g c rq d p x w r w' -> plain p = true -> r = false ->
  (r_recur rq = true -> r_atomic rq = false) ->
  match g with
  | GRun | GSkip | GCln | GAtm => careful (r_atomic rq) p = true
  | GRaw | GAlt _ => body_careful (r_atomic rq) p = true
  | _ => False
  end -> q_c w' = q_c w.
Proof.
  induction 1; intros Hp Hr Ha Hq; try discriminate Hr; cbn in Hp; auto; try contradiction; try (cbn in Hq; discriminate).
  all: try (apply IHev; auto; fail).
  - apply IHev; auto. apply careful_unatomic; auto.
  - apply IHev; auto. cbn. discriminate.
  - apply IHev; auto. now apply careful_body.
  - eapply own_rest; eauto.
  - subst r. rewrite sym_pick in H. unfold put in H. destruct (pick _ _ _ _) as [[[z|] sz]|]; cbn in H; try discriminate.
    + destruct (assign _ _ _); discriminate.
    + cbn. congruence.
  - eapply ev_quiet; [exact H|exact Hp|exact Hq].
  - cbn [body_careful] in Hq. rewrite forallb_forall in Hp, Hq. pose proof (nth_error_In _ _ H) as Hin. apply IHev; auto. cbn. discriminate.
  - subst r. rewrite IHev2; auto. cbn [body_careful] in Hq. rewrite forallb_forall in Hp, Hq. pose proof (nth_error_In _ _ H) as Hin. apply IHev1; auto. cbn. discriminate.
  - eapply ev_quiet; [exact H0|exact Hp|exact Hq].
  - eapply ev_quiet in H; [exact H|exact Hp|exact Hq].
  - eapply nil_rest; eauto.
  - eapply own_rest; eauto.
  - apply andb_prop in Hp. destruct Hp as [_ Hp]. eapply own_rest; eauto.
  - apply andb_prop in Hp. destruct Hp as [Hp1 Hp2]. eapply nil_rest; eauto.
  - apply andb_prop in Hp. destruct Hp as [Hp1 Hp2]. rewrite IHev2; auto; [eapply nil_rest; eauto|]. cbn. discriminate.
  - apply list_never in H; [congruence|eauto].
Qed.
End Quiet.

(** ** parse() *)
Section Does.
Context (env : nat -> option pat).
Hypothesis Hmok : forall id q, env id = Some q -> mok true recur_req q = true.
Hypothesis Hplain : forall id q, env id = Some q -> plain q = true.

Lemma env_unbound : all_unbound env.
Proof. intros id q H. eapply plain_unbound, Hplain, H. Qed.

Theorem quiet_does p t v s r s' v' k : mok false default_req p = true -> plain p = true -> quiet false p = true ->
  does env p t v s (res r) s' v' k -> v' = v.
Proof.
  intros Hm Hp Hq H. apply ev_does_top in H; auto. eapply ev_quiet in H; [|apply env_unbound|exact Hp|exact Hq]. cbn in H. congruence.
Qed.

Theorem careful_does p t v s s' v' k : mok false default_req p = true -> plain p = true -> careful false p = true ->
  does env p t v s FAILURE s' v' k -> v' = v.
Proof.
  intros Hm Hp Hq H. apply (ev_does_top env Hmok p t v s false) in H; auto.
  eapply ev_careful in H; [|apply env_unbound|exact Hp|reflexivity|discriminate|exact Hq]. cbn in H. congruence.
Qed.

Theorem careful_once sk p t v s s' v' k : mok false default_req (under sk (once p)) = true -> plain p = true -> careful true p = true ->
  parses env (under sk (once p)) t FAILURE s v s' v' k -> v' = v.
Proof.
  intros Hm Hp Hq H.
  assert (ev env GRun (Ctx sk (top_dst t)) list_req (top_dst t) p s (SW s [v] []) false (SW s' [v'] (rev k ++ []))) as HE.
  { apply (once_ev env Hmok); auto. exists v', k. auto. }
  eapply ev_careful in HE; [|apply env_unbound|exact Hp|reflexivity|discriminate|exact Hq]. cbn in HE. congruence.
Qed.

(** What was in a scalar object before makes no difference to the run, nor to what is in it
    after a match that fills it. *)
Context (R : nat -> bool).
Hypothesis Hfills : forall id q, env id = Some q -> R id = true -> fills R q = true.

Theorem does_any p t v s r s' v' k : mok false default_req p = true -> plain p = true -> scalar t = true ->
  does env p t v s (res r) s' v' k -> forall v2, exists v3, does env p t v2 s (res r) s' v3 k /\
    (r = true -> fills R p = true -> v3 = v').
Proof.
  intros Hm Hp Ht H v2. apply ev_does_top in H; auto.
  destruct (any_buffer env Hplain R Hfills GRun (top_ctx t) default_req t p s (SW s [] []) r s' v' v v2 (rev k) []) as (v3 & A & B); auto.
  exists v3. split; [apply ev_does_top; auto|]. intros E F. apply B; auto.
Qed.

(** ** Alternatives *)

Theorem alt_filling l t v s s' v' k : forallb steady l = true -> mok false default_req (Alt l) = true ->
  scalar t = true -> forallb plain l = true -> forallb (fills R) l = true ->
  does env (Alt l) t v s SUCCESS s' v' k -> first_alone env t l v s s' v' k.
Proof.
  intros Hs Hm Ht Hp Hf H. destruct l as [|p0 l0] eqn:El.
  { apply (ev_does_top env Hmok _ _ _ _ true) in H; auto. apply (default_run env) in H. destruct H as (s0 & _ & H). inversion H; subst.
    match goal with H : ev _ (GAlt 0) _ _ _ _ _ _ _ _ |- _ => inversion H; subst; discriminate end. }
  rewrite <- El in *. assert (l <> []) as Hl by congruence. clear El.
  apply (alt_law env Hmok t l v s true) in H; auto.
  assert (forall q, In q l -> mok false default_req q = true /\ plain q = true /\ fills R q = true) as HQ.
  { intros q Hq. rewrite forallb_forall in Hp, Hf. repeat split; auto. cbn [mok] in Hm. rewrite forallb_forall in Hm.
    eapply mok_less; [| | | |apply Hm, Hq]; auto; try discriminate. }
  clear Hs Hm Hp Hf Hl p0 l0.
  assert (forall v0, exists l1 p l2 k1 k2, l = l1 ++ p :: l2 /\ k = k1 ++ k2 /\ does env p t v0 s SUCCESS s' v' k2 /\
    forall q, In q l1 -> exists s1 v1 kq, does env q t v0 s FAILURE s1 v1 kq) as HH; [|exact (HH v)].
  intros v0. cbn [res] in H. remember SUCCESS as r0 eqn:Er. induction H; try discriminate.
  - subst. destruct (HQ p (or_introl eq_refl)) as (Q1 & Q2 & Q3).
    destruct (does_any p t v s true s' v' k Q1 Q2 Ht H v0) as (v3 & A & B). rewrite (B eq_refl Q3) in A.
    exists [], p, l, [], k. repeat split; auto. intros q [].
  - destruct (HQ p (or_introl eq_refl)) as (Q1 & Q2 & Q3).
    destruct (IHtried Er (fun q Hq => HQ q (or_intror Hq))) as (l1 & p' & l2 & ka & kb & E1 & E2 & E3 & E4).
    exists (p :: l1), p', l2, (k1 ++ ka), kb. subst. rewrite <- app_assoc. repeat split; auto.
    intros q [<-|Hq]; auto. destruct (does_any p t v s false _ _ _ Q1 Q2 Ht H v0) as (v3 & A & _). eauto.
Qed.

Theorem alt_careful l t v s s' v' k : forallb steady l = true -> mok false default_req (Alt l) = true ->
  forallb plain l = true -> forallb (careful false) l = true ->
  does env (Alt l) t v s SUCCESS s' v' k -> first_alone env t l v s s' v' k.
Proof.
  intros Hs Hm Hp Hf H. destruct l as [|p0 l0] eqn:El.
  { apply (ev_does_top env Hmok _ _ _ _ true) in H; auto. apply (default_run env) in H. destruct H as (s0 & _ & H). inversion H; subst.
    match goal with H : ev _ (GAlt 0) _ _ _ _ _ _ _ _ |- _ => inversion H; subst; discriminate end. }
  rewrite <- El in *. assert (l <> []) as Hl by congruence. clear El.
  apply (alt_law env Hmok t l v s true) in H; auto.
  assert (forall q, In q l -> mok false default_req q = true /\ plain q = true /\ careful false q = true) as HQ.
  { intros q Hq. rewrite forallb_forall in Hp, Hf. repeat split; auto. cbn [mok] in Hm. rewrite forallb_forall in Hm.
    eapply mok_less; [| | | |apply Hm, Hq]; auto; try discriminate. }
  clear Hs Hm Hp Hf Hl p0 l0. unfold first_alone.
  cbn [res] in H. remember SUCCESS as r0 eqn:Er. induction H; try discriminate.
  - subst. exists [], p, l, [], k. repeat split; auto. intros q [].
  - destruct (HQ p (or_introl eq_refl)) as (Q1 & Q2 & Q3). pose proof (careful_does p t v s _ _ _ Q1 Q2 Q3 H) as E. subst v1.
    destruct (IHtried Er (fun q Hq => HQ q (or_intror Hq))) as (l1 & p' & l2 & ka & kb & E1 & E2 & E3 & E4).
    exists (p :: l1), p', l2, (k1 ++ ka), kb. subst. rewrite <- app_assoc. repeat split; auto.
    intros q [<-|Hq]; eauto.
Qed.
End Does.
