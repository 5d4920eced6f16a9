(** A run uses the memory its destinations refer to and nothing below it: the same run
    takes place on top of any other memory. *)
From Coq Require Import List ZArith Bool Arith Lia.
From Verif Require Import Base CharSet Source Dst Pattern Parser Big Local EvReq SpecValue.
Import ListNotations.

(** [d], counted from level [n]. *)
Definition rel (n : nat) (d : dst) : dst :=
  match d with DNil => DNil | DRef l p t => DRef (n + l) p t end.

Definition on (C : list val) (o : outcome (list val)) : outcome (list val) := obind o (fun B => Done (C ++ B)).
Definition on3 {A} (C : list val) (o : outcome (A * list val)) : outcome (A * list val) :=
  obind o (fun '(a, B) => Done (a, C ++ B)).

Lemma nth_on {A} (C B : list A) l : nth_error (C ++ B) (length C + l) = nth_error B l.
Proof. rewrite nth_error_app2 by lia. f_equal. lia. Qed.

Lemma load_on C B d : load (C ++ B) (rel (length C) d) = load B d.
Proof. destruct d; cbn; auto. now rewrite nth_on. Qed.
Lemma store_on C B d x : store (C ++ B) (rel (length C) d) x = on C (store B d x).
Proof.
  destruct d; cbn; auto. rewrite nth_on. destruct (nth_error B lvl); cbn; auto. destruct (set_path v path x); cbn; auto.
  f_equal. apply upd_app_r.
Qed.
Lemma assign_on C B d x : assign (C ++ B) (rel (length C) d) x = on C (assign B d x).
Proof.
  destruct d as [|l p t]; auto. cbn [rel assign]. change (DRef (length C + l) p t) with (rel (length C) (DRef l p t)).
  rewrite load_on.
  destruct t; match goal with |- context [conv ?t x] => destruct (conv t x); cbn [obind on]; auto end; try apply store_on.
  destruct (load B _) as [[]|]; cbn [obind on]; auto. apply store_on.
Qed.
Lemma zero_on C B d : num_zero (C ++ B) (rel (length C) d) = on C (num_zero B d).
Proof. destruct d as [|l p []]; auto. apply store_on. Qed.
Lemma op_on f C B d : num_op f (C ++ B) (rel (length C) d) = on C (num_op f B d).
Proof.
  destruct d as [|l p t]; auto. destruct t; auto. cbn [rel num_op].
  change (DRef (length C + l) p (TNum signed bits)) with (rel (length C) (DRef l p (TNum signed bits))). rewrite load_on.
  destruct (load B _) as [[]|]; cbn [obind on]; auto. destruct (arith _ _ _); cbn [obind]; auto. apply store_on.
Qed.
Lemma uint_on C b lo hi d : forall s cnt B,
  uint_run b lo hi (rel (length C) d) cnt (C ++ B) s = on3 C (uint_run b lo hi d cnt B s).
Proof.
  induction s as [|x t IH]; intros cnt B; cbn [uint_run]; auto.
  destruct (digit_valid b x); auto. rewrite op_on. destruct (num_op _ B d) as [B1|]; cbn [on obind]; auto.
  rewrite op_on. destruct (num_op _ B1 d) as [B2|]; cbn [on obind]; auto. destruct (_ =? _)%Z; auto.
Qed.
Lemma int_on C b lo hi d s B :
  int_run b lo hi (rel (length C) d) (C ++ B) s = on3 C (int_run b lo hi d B s).
Proof.
  unfold int_run. destruct (match s with x :: t => _ | [] => _ end) as [neg s1].
  rewrite uint_on. destruct (uint_run _ _ _ _ _ _ _) as [[[r s2] c2]|]; cbn [on3 obind]; auto.
  unfold neg_cells. destruct neg; auto. rewrite op_on. destruct (num_op _ c2 d); auto.
Qed.
Lemma sym_end_on C d v m s B : sym_end (rel (length C) d) v m (C ++ B) s = on3 C (sym_end d v m B s).
Proof.
  unfold sym_end. destruct v; auto. destruct (sym_value t); cbn [obind on3]; auto.
  rewrite assign_on. destruct (assign B d a); auto.
Qed.
Lemma sym_on C d : forall s nx v m B, sym_run (rel (length C) d) nx v m (C ++ B) s = on3 C (sym_run d nx v m B s).
Proof.
  induction s as [|x t IH]; intros nx v m B; cbn [sym_run]; [apply sym_end_on|].
  destruct (assoc x _); [|apply sym_end_on]. destruct (trie_val t0); auto. destruct (trie_child t0); auto.
  rewrite assign_on. destruct (assign B d v0); auto.
Qed.
Lemma value_on n d : dst_value_ty (rel n d) = dst_value_ty d. Proof. now destruct d. Qed.
Lemma ty_on n d : dst_ty (rel n d) = dst_ty d. Proof. now destruct d. Qed.
Lemma cell_on (C B : list val) t : dst_cell (length (C ++ B)) t = rel (length C) (dst_cell (length B) t).
Proof. rewrite app_length. destruct t; reflexivity. Qed.
Lemma seq_on n l i d d' : seq_dst l i (rel n d) = Done d' -> exists d0, seq_dst l i d = Done d0 /\ d' = rel n d0.
Proof.
  destruct d as [|lv p t]; cbn.
  - intros [= <-]. exists DNil. auto.
  - destruct (nth_error l i); [|discriminate]. destruct (ignores p0); [intros [= <-]; exists DNil; auto|].
    destruct t; try (intros [= <-]; eexists; split; reflexivity).
    destruct (nth_error l0 _); [|discriminate]. destruct t; intros [= <-]; eexists; split; reflexivity.
Qed.
Lemma seq_off n l i d d' : seq_dst l i d = Done d' -> seq_dst l i (rel n d) = Done (rel n d').
Proof.
  destruct d as [|lv p t]; cbn.
  - intros [= <-]. auto.
  - destruct (nth_error l i); [|discriminate]. destruct (ignores p0); [intros [= <-]; auto|].
    destruct t; try (intros [= <-]; reflexivity).
    destruct (nth_error l0 _); [|discriminate]. destruct t; intros [= <-]; reflexivity.
Qed.

(** What the two contexts have in common. *)
Definition ties (n1 n2 : nat) (c c2 : ctx) (p : pat) (env : nat -> option pat) : Prop :=
  c_skip c2 = c_skip c /\
  ((exists b, c_bound c = rel n1 b /\ c_bound c2 = rel n2 b) \/ (unbound p = true /\ all_unbound env)).

Lemma act_on C1 C2 a v d c c2 s B tr w' env : ties (length C1) (length C2) c c2 (Act a Pass) env ->
  act_run a v (rel (length C1) d) c (SW s (C1 ++ B) tr) = Done w' ->
  exists B', q_c w' = C1 ++ B' /\
    act_run a v (rel (length C2) d) c2 (SW s (C2 ++ B) tr) = Done (with_c (C2 ++ B') w').
Proof.
  intros (_ & Hb). unfold act_run, act_dispatch. destruct (conv (ac_land a) v) as [z|]; [|discriminate].
  cbn [q_s q_c q_t w_cells w_src w_trace].
  assert (forall BB r w1,
    (if ac_void a then Done (tt, World tt (C1 ++ BB) (Event (ac_id a) z :: tr))
     else m_assign (rel (length C1) d) r (World tt (C1 ++ BB) (Event (ac_id a) z :: tr))) = Done w1 ->
    exists B', w_cells (snd w1) = C1 ++ B' /\
    (if ac_void a then Done (tt, World tt (C2 ++ BB) (Event (ac_id a) z :: tr))
     else m_assign (rel (length C2) d) r (World tt (C2 ++ BB) (Event (ac_id a) z :: tr))) =
      Done (fst w1, World tt (C2 ++ B') (w_trace (snd w1)))) as HA.
  { intros BB r [u w1]. destruct (ac_void a).
    - intros [= <- <-]. eexists. split; reflexivity.
    - unfold m_assign, on_cells. cbn [w_cells]. rewrite !assign_on. destruct (assign BB d r); cbn [on obind]; [|discriminate].
      intros [= <- <-]. eexists. split; reflexivity. }
  destruct (ac_param a) eqn:Ep.
  - destruct Hb as [(b & E1 & E2)|(E & _)]; [|cbn in E; rewrite Ep in E; discriminate]. rewrite E1, E2, !load_on.
    destruct (load B b) as [bv|]; [|discriminate]. destruct (ac_fun a z bv) as [r b'].
    destruct b as [|lb pb tb]; cbn [rel].
    + match goal with |- match ?o with _ => _ end = _ -> _ => destruct o as [[u w1]|] eqn:E; [|discriminate] end.
      intros [= <-]. apply HA in E. destruct E as (B' & A1 & A2). cbn [fst snd] in *. exists B'. split; [exact A1|]. rewrite A2. reflexivity.
    + destruct (has_ty tb b'); [|discriminate].
      change (DRef (length C1 + lb) pb tb) with (rel (length C1) (DRef lb pb tb)).
      change (DRef (length C2 + lb) pb tb) with (rel (length C2) (DRef lb pb tb)). rewrite !store_on.
      destruct (store B (DRef lb pb tb) b') as [B1|]; cbn [on obind]; [|discriminate].
      match goal with |- match ?o with _ => _ end = _ -> _ => destruct o as [[u w1]|] eqn:E; [|discriminate] end.
      intros [= <-]. apply HA in E. destruct E as (B' & A1 & A2). cbn [fst snd] in *. exists B'. split; [exact A1|]. rewrite A2. reflexivity.
  - destruct (ac_fun a z VNil) as [r b'].
    match goal with |- match ?o with _ => _ end = _ -> _ => destruct o as [[u w1]|] eqn:E; [|discriminate] end.
    intros [= <-]. apply HA in E. destruct E as (B' & A1 & A2). cbn [fst snd] in *. exists B'. split; [exact A1|]. rewrite A2. reflexivity.
Qed.

Section Ev.
Context (env : nat -> option pat).
Notation ev := (ev env).

Lemma ties_nth n1 n2 c c2 l i q : ties n1 n2 c c2 (Seq l) env -> nth_error l i = Some q -> ties n1 n2 c c2 q env.
Proof.
  intros (A & [B|(B & D)]) E; split; auto. right. split; auto. cbn in B. rewrite forallb_forall in B. apply B.
  eapply nth_error_In; eauto.
Qed.
Lemma ties_less n1 n2 c c2 p q : ties n1 n2 c c2 p env -> (unbound p = true -> unbound q = true) -> ties n1 n2 c c2 q env.
Proof. intros (A & [B|(B & D)]) E; split; auto. Qed.

Section Two.
Context (C1 C2 : list val).
Notation n1 := (length C1).
Notation n2 := (length C2).

Definition framed (g : stage) (c : ctx) (rq : req) (d : dst) (p : pat) (x : list Z) (w : sw) (r : bool) (w' : sw) : Prop :=
  forall d0 B c2, d = rel n1 d0 -> q_c w = C1 ++ B -> ties n1 n2 c c2 p env ->
  exists B', q_c w' = C1 ++ B' /\
    ev g c2 rq (rel n2 d0) p x (with_c (C2 ++ B) w) r (with_c (C2 ++ B') w').

Lemma on_done o c : on C1 o = Done c -> exists B, o = Done B /\ c = C1 ++ B.
Proof. destruct o; cbn; [|discriminate]. intros [= <-]. eauto. Qed.
Lemma on3_done {A} (o : outcome (A * list val)) a c : on3 C1 o = Done (a, c) -> exists B, o = Done (a, B) /\ c = C1 ++ B.
Proof. destruct o as [[]|]; cbn; [|discriminate]. intros [= <- <-]. eauto. Qed.

Ltac go IH d0 B c2 := destruct (IH d0 B c2) as (?B' & ?A1 & ?A2); auto.

Lemma buffered_framed g c rq q x w r s cs v tr t i B c2 :
  framed g c rq (dst_cell (length (q_c w)) t) q x (with_c (q_c w ++ [i]) w) r (SW s (cs ++ [v]) tr) ->
  q_c w = C1 ++ B -> length cs = length (q_c w) -> ties n1 n2 c c2 q env ->
  exists B', cs = C1 ++ B' /\ length B' = length B /\
    ev g c2 rq (dst_cell (length (q_c (with_c (C2 ++ B) w))) t) q x
       (with_c (q_c (with_c (C2 ++ B) w) ++ [i]) (with_c (C2 ++ B) w)) r (SW s ((C2 ++ B') ++ [v]) tr).
Proof.
  intros HG Hw Hn Ht. destruct (HG (dst_cell (length B) t) (B ++ [i]) c2) as (B' & A1 & A2); auto.
  - rewrite Hw. apply cell_on.
  - cbn. now rewrite Hw, <- app_assoc.
  - cbn in A1, A2. rewrite Hw, app_length in Hn.
    assert (exists B0, B' = B0 ++ [v] /\ cs = C1 ++ B0) as (B0 & -> & ->).
    { destruct B' as [|b B'] using rev_ind.
      - rewrite app_nil_r in A1. apply (f_equal (@length _)) in A1. rewrite app_length in A1. cbn in A1. lia.
      - rewrite app_assoc in A1. apply app_inj_tail in A1. destruct A1 as [-> ->]. eauto. }
    exists B0. split; auto. rewrite app_length in Hn. split; [lia|].
    cbn [q_c with_c]. rewrite <- !app_assoc, cell_on. exact A2.
Qed.

Theorem ev_framed g c rq d p x w r w' : ev g c rq d p x w r w' -> framed g c rq d p x w r w'.
Proof.
  induction 1; intros d0 B0 c2 Hd Hw Ht; subst; pose proof Ht as (Hsk & Hbd).
  - go IHev d0 B0 c2. exists B'. split; auto. now apply ev_recur.
  - go IHev d0 B0 c2. exists B'. split; auto. apply ev_noskip; auto. now rewrite Hsk.
  - go IHev d0 B0 c2. exists B'. split; auto. apply ev_skip; auto. now rewrite Hsk.
  - go IHev d0 B0 c2. exists B'. split; auto. eapply ev_skip_more; eauto. rewrite Hsk. exact H.
  - go IHev d0 B0 c2. exists B'. split; auto. apply ev_skip_end; auto. rewrite Hsk. exact H.
  - go IHev d0 B0 c2. exists B'. split; auto. now apply ev_cln_no.
  - go IHev d0 B0 c2. exists B'. split; auto. now apply ev_cln_ok.
  - go IHev d0 B0 c2. exists B'. split; auto. now apply (ev_cln_ko _ _ _ _ _ _ _ (with_c (C2 ++ B') w')).
  - go IHev d0 B0 c2. exists B'. split; auto. now apply ev_atm_no.
  - rewrite value_on in *. destruct (buffered_framed _ _ _ _ _ _ _ _ _ _ _ _ _ B0 c2 IHev Hw H1 Ht) as (B' & -> & Hn & A).
    rewrite assign_on in H2. apply on_done in H2. destruct H2 as (B2 & E & ->). exists B2. split; auto.
    apply (ev_atm_ok env c2 rq (rel n2 d0) p x (with_c (C2 ++ B0) w) s (C2 ++ B') v tr (C2 ++ B2)); rewrite ?value_on; auto.
    + cbn [q_c with_c]. rewrite !app_length, Hn. reflexivity.
    + rewrite assign_on, E. reflexivity.
  - rewrite value_on in *. destruct (buffered_framed _ _ _ _ _ _ _ _ _ _ _ _ _ B0 c2 IHev Hw H1 Ht) as (B' & -> & Hn & A).
    exists B'. split; auto. apply (ev_atm_ko env c2 rq (rel n2 d0) p x (with_c (C2 ++ B0) w) s (C2 ++ B') v tr); rewrite ?value_on; auto.
    cbn [q_c with_c]; rewrite !app_length, Hn; reflexivity.
  - cbn in Hw. subst. rewrite assign_on in H0. apply on_done in H0. destruct H0 as (B2 & E & ->). exists B2. split; auto.
    apply ev_char_ok; auto. rewrite assign_on, E. reflexivity.
  - exists B0. split; auto. now apply ev_char_ko.
  - cbn in Hw. subst. rewrite assign_on in H0. apply on_done in H0. destruct H0 as (B2 & E & ->). exists B2. split; auto.
    eapply ev_csym_ok; eauto. rewrite assign_on, E. reflexivity.
  - exists B0. split; auto. now apply ev_csym_ko.
  - exists B0. split; auto. exact (ev_eoi _ _ _ _ _ (with_c (C2 ++ B0) w)).
  - exists B0. split; auto. now apply ev_pass.
  - exists B0. split; auto. now apply ev_fail.
  - exists B0. split; auto. now apply (ev_lit _ _ _ _ _ _ (with_c (C2 ++ B0) w)).
  - rewrite Hw, sym_on in H. apply on3_done in H. destruct H as (B2 & E & ->). exists B2. split; auto.
    apply (ev_sym _ _ _ _ _ _ (with_c (C2 ++ B0) w)). cbn [q_c q_s with_c]. rewrite sym_on, E. reflexivity.
  - rewrite Hw, zero_on in H. apply on_done in H. destruct H as (B1 & E & ->).
    rewrite uint_on in H0. apply on3_done in H0. destruct H0 as (B2 & E2 & ->). exists B2. split; auto.
    apply (ev_uint _ _ _ _ _ _ _ _ (with_c (C2 ++ B0) w) (C2 ++ B1)); cbn [q_c q_s with_c].
    + rewrite zero_on, E. reflexivity.
    + rewrite uint_on, E2. reflexivity.
  - rewrite Hw, zero_on in H. apply on_done in H. destruct H as (B1 & E & ->).
    rewrite int_on in H0. apply on3_done in H0. destruct H0 as (B2 & E2 & ->). exists B2. split; auto.
    apply (ev_int _ _ _ _ _ _ _ _ (with_c (C2 ++ B0) w) (C2 ++ B1)); cbn [q_c q_s with_c].
    + rewrite zero_on, E. reflexivity.
    + rewrite int_on, E2. reflexivity.
  - go IHev d0 B0 c2. exists B'. split; auto. now apply ev_seq.
  - apply seq_on in H0. destruct H0 as (dd & E & ->). go IHev dd B0 c2; eauto using ties_nth.
    exists B'. split; auto. eapply ev_seq_ko; eauto using seq_off.
  - apply seq_on in H1. destruct H1 as (dd & E & ->). go IHev dd B0 c2; eauto using ties_nth.
    exists B'. split; auto. eapply ev_seq_end; eauto using seq_off.
  - apply seq_on in H1. destruct H1 as (dd & E & ->). go IHev1 dd B0 c2; eauto using ties_nth.
    go IHev2 d0 B' c2. exists B'0. split; auto. eapply ev_seq_next; eauto using seq_off.
  - go IHev d0 B0 c2. exists B'. split; auto. now apply ev_alt.
  - go IHev d0 B0 c2; [eapply (ties_nth n1 n2 c c2 l); eauto|]. exists B'. split; auto. eapply ev_alt_ok; eauto.
  - go IHev d0 B0 c2; [eapply (ties_nth n1 n2 c c2 l); eauto|]. exists B'. split; auto. eapply ev_alt_ko; eauto.
  - go IHev1 d0 B0 c2; [eapply (ties_nth n1 n2 c c2 l); eauto|].
    go IHev2 d0 B' c2. exists B'0. split; auto. eapply ev_alt_next; eauto.
  - go IHev d0 B0 c2. exists B'. split; auto. now apply ev_rep.
  - go IHev d0 B0 c2. exists B'. split; auto. now apply ev_rep_stop.
  - go IHev d0 B0 c2. exists B'. split; auto. now apply ev_rep_full.
  - go IHev1 d0 B0 c2. go IHev2 d0 B' c2. exists B'0. split; auto. eapply ev_rep_more; eauto.
  - go IHev d0 B0 c2. exists B'. split; auto. now apply (ev_not _ _ _ _ _ _ _ _ (with_c (C2 ++ B') w')).
  - go IHev d0 B0 c2. exists B'. split; auto. now apply ev_opt_ok.
  - go IHev d0 B0 c2. exists B'. split; auto. now apply (ev_opt_ko _ _ _ _ _ _ _ (with_c (C2 ++ B') w')).
  - go IHev DNil B0 c2. exists B'. split; auto. now apply ev_discard.
  - go IHev d0 B0 (Ctx Fail (c_bound c2)); [split; auto|]. exists B'. split; auto. now apply ev_lexeme.
  - go IHev d0 B0 (Ctx s (c_bound c2)); [split; auto|]. exists B'. split; auto. now apply ev_skipper.
  - go IHev d0 B0 (Ctx (c_skip c) (rel n2 d0)); [split; auto; left; exists d0; auto|]. exists B'. split; auto.
    apply ev_bind. now rewrite Hsk.
  - destruct (buffered_framed _ _ _ _ _ _ _ _ _ _ _ (TTuple args) _ B0 c2 IHev Hw H0 Ht) as (B' & -> & Hn & A).
    rewrite assign_on in H2. apply on_done in H2. destruct H2 as (B2 & E & ->). exists B2. split; auto. rewrite ty_on in *.
    apply (ev_construct_ok env c2 rq (rel n2 d0) args q x (with_c (C2 ++ B0) w) s (C2 ++ B') v tr y (C2 ++ B2)); rewrite ?ty_on; auto.
    + cbn [q_c with_c]. rewrite !app_length, Hn. reflexivity.
    + rewrite assign_on, E. reflexivity.
  - destruct (buffered_framed _ _ _ _ _ _ _ _ _ _ _ (TTuple args) _ B0 c2 IHev Hw H0 Ht) as (B' & -> & Hn & A).
    exists B'. split; auto. apply (ev_construct_ko env c2 rq (rel n2 d0) args q x (with_c (C2 ++ B0) w) s (C2 ++ B') v tr); auto.
    cbn [q_c with_c]; rewrite !app_length, Hn; reflexivity.
  - assert (ties n1 n2 c c2 q env) as Ht' by (apply (ties_less _ _ _ _ _ _ Ht); cbn; intros E; apply andb_prop in E; tauto).
    destruct (buffered_framed _ _ _ _ _ _ _ _ _ _ _ _ _ B0 c2 IHev Hw H0 Ht') as (B' & -> & Hn & A).
    destruct (act_on C1 C2 a v d0 c c2 s B' tr w' env) as (B2 & E1 & E2); auto.
    { apply (ties_less _ _ _ _ _ _ Ht). cbn. intros E. apply andb_prop in E. destruct E as [-> _]. auto. }
    exists B2. split; auto. apply (ev_act_ok env c2 rq (rel n2 d0) a q x (with_c (C2 ++ B0) w) s (C2 ++ B') v tr); auto. cbn [q_c with_c]; rewrite !app_length, Hn; reflexivity.
  - assert (ties n1 n2 c c2 q env) as Ht' by (apply (ties_less _ _ _ _ _ _ Ht); cbn; intros E; apply andb_prop in E; tauto).
    destruct (buffered_framed _ _ _ _ _ _ _ _ _ _ _ _ _ B0 c2 IHev Hw H0 Ht') as (B' & -> & Hn & A).
    exists B'. split; auto. apply (ev_act_ko env c2 rq (rel n2 d0) a q x (with_c (C2 ++ B0) w) s (C2 ++ B') v tr); auto.
    cbn [q_c with_c]; rewrite !app_length, Hn; reflexivity.
  - go IHev DNil B0 c2; [apply (ties_less _ _ _ _ _ _ Ht); cbn; intros E; apply andb_prop in E; tauto|].
    exists B'. split; auto. now apply ev_exc_hit.
  - go IHev1 DNil B0 c2; [apply (ties_less _ _ _ _ _ _ Ht); cbn; intros E; apply andb_prop in E; tauto|].
    go IHev2 d0 B' c2; [apply (ties_less _ _ _ _ _ _ Ht); cbn; intros E; apply andb_prop in E; tauto|].
    exists B'0. split; auto. eapply ev_exc_go; eauto.
  - go IHev d0 B0 c2. exists B'. split; auto. now apply ev_list.
  - go IHev d0 B0 c2; [apply (ties_less _ _ _ _ _ _ Ht); cbn; intros E; apply andb_prop in E; tauto|].
    exists B'. split; auto. now apply (ev_elem_end _ _ _ _ _ _ _ _ _ (with_c (C2 ++ B') w')).
  - go IHev1 d0 B0 c2; [apply (ties_less _ _ _ _ _ _ Ht); cbn; intros E; apply andb_prop in E; tauto|].
    go IHev2 d0 B' c2. exists B'0. split; auto. eapply ev_elem_next; eauto.
  - go IHev DNil B0 c2; [apply (ties_less _ _ _ _ _ _ Ht); cbn; intros E; apply andb_prop in E; tauto|].
    exists B'. split; auto. now apply (ev_sep_end _ _ _ _ _ _ _ _ _ (with_c (C2 ++ B') w')).
  - go IHev1 DNil B0 c2; [apply (ties_less _ _ _ _ _ _ Ht); cbn; intros E; apply andb_prop in E; tauto|].
    go IHev2 d0 B' c2. exists B'0. split; auto. eapply ev_sep_next; eauto.
  - go IHev d0 B0 c2; [split; auto; destruct Hbd as [Hbd|(U & V)]; auto; right; split; eauto|].
    exists B'. split; auto. eapply ev_rec; eauto.
Qed.

End Two.
End Ev.
