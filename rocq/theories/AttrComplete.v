(** What the reading of a pattern with values says is what runs do (for C58). *)
From Coq Require Import List ZArith Bool Arith Lia.
From Verif Require Import Base CharSet Source Dst Pattern Parser Session Rel Big SpecPeg SpecLeaf SpecValue SpecType SpecAttr.
From Verif Require Import Leaf Local LocalThms Unary LeafThms PegSound PegTerm AttrMem AttrSound.
Import ListNotations.

(** ** Symbols *)
Lemma simple_keys e : simple (Symbol e) = true -> NoDup (map fst e).
Proof.
  cbn. induction e as [|kv e IH]; cbn; [constructor|]. intros H. apply andb_prop in H as [H1 H2]. constructor; auto.
  intros Hin. apply negb_true_iff in H1. apply in_map_iff in Hin as (kv' & E & Hin).
  assert (existsb (fun kv' => if list_eq_dec Z.eq_dec (fst kv) (fst kv') then true else false) e = true) as N; [|congruence].
  apply existsb_exists. exists kv'. split; auto. destruct (list_eq_dec Z.eq_dec (fst kv) (fst kv')); congruence.
Qed.

Lemma sym_hit d e key x s s' c c' : NoDup (map fst e) -> keys_ok e -> s = key ++ s' -> In (key, x) e ->
  (forall key' x' s'', s = key' ++ s'' -> In (key', x') e -> length key' <= length key) ->
  assign c d x = Done c' -> sym_run d (trie_build e) None [] c s = Done (true, s', c').
Proof.
  intros HN KO Es Hin HM Ha. destruct (sym_run_longest d c s (trie_build e) None []) as (k0 & f & E0 & HR); [discriminate|].
  rewrite HR. pose proof (longest_ok s (trie_build e)) as L. destruct (longest (trie_build e) s) as [[x2 s2]|].
  - destruct L as (key2 & Es2 & Nk & Hf & HL). apply trie_build_find in Hf.
    assert (length key = length key2) as HLen.
    { apply Nat.le_antisymm; [|eapply HM; eauto]. eapply HL; eauto. intros N. now apply trie_build_none with (v := x) in N. }
    destruct (app_cut key s' key2 s2) as [<- <-]; [congruence|auto|].
    rewrite (nodup_key e key x2 x) by auto. unfold sym_done. now rewrite Ha.
  - exfalso. unfold keys_ok in KO. rewrite Forall_forall in KO. apply (trie_build_none e key) with (v := x); auto. eapply L; eauto. now apply (KO _ Hin).
Qed.
Lemma sym_miss d e s c : keys_ok e -> (forall key x s', s = key ++ s' -> ~ In (key, x) e) ->
  exists s', sym_run d (trie_build e) None [] c s = Done (false, s', c).
Proof.
  intros KO HN. destruct (sym_run_longest d c s (trie_build e) None []) as (k0 & f & E0 & HR); [discriminate|].
  rewrite HR. pose proof (longest_ok s (trie_build e)) as L. destruct (longest (trie_build e) s) as [[x2 s2]|]; [|eauto].
  destruct L as (key2 & Es2 & Nk & Hf & HL). apply trie_build_find in Hf. destruct (HN _ _ _ Es2 Hf).
Qed.

Section Attr.
Context (env : nat -> option pat) (T : char_ty).
Hypothesis HT : ct_ok T.
Hypothesis Henv : forall id q, env id = Some q -> peg_ok T true recur_req q = true.
Hypothesis Hsimple : all_simple env.
Notation mv := (mv env).

(** There is a run. *)
Definition out (g : stage) (c : ctx) (rq : req) (d : dst) (p : pat) (x : list Z) (w : sw) (ws : gap)
           (r0 : option (list Z)) (v' : val) (k : list event) : Prop :=
  exists r w', ev env g c rq d p x w r w' /\ related ws r0 r (q_s w') /\
    store (q_c w) d v' = Done (q_c w') /\ q_t w' = rev k ++ q_t w.

Definition PC (g : stage) (o : bool) (p : pat) (ws : gap) (t : ty) (v : val) (s : list Z) (r0 : option (list Z)) (v' : val) (k : list event) : Prop :=
  forall c sk rq d x w,
  r_atomic rq = o -> r_consumes rq = false -> simple p = true ->
  skips T c ws -> (sk = false -> ws = nows) -> spok T sk g rq p ->
  Forall (tok T) x -> Forall (tok T) (q_s w) ->
  (smk0 g rq p = true \/ eqt ws x (q_s w)) -> strimmed ws g rq p (q_s w) ->
  eqt ws s (q_s w) -> place (q_c w) d t v -> out g c rq d p x w ws r0 v' k.

(** The parser itself, or with an object of its own. *)
Definition CG (g : vgoal) (ws : gap) (t : ty) (v : val) (s : list Z) (r0 : option (list Z)) (v' : val) (k : list event) : Prop :=
  match g with
  | VOne o p => if o && negb (atom p) then PC GAtm o p ws t v s r0 v' k else PC GRaw o p ws t v s r0 v' k
  | VAll i l => l <> [] -> forall L j, skipn j L = l -> i = louds_in (firstn j L) -> forall o, PC (GSeq j) o (Seq L) ws t v s r0 v' k
  | VAny o l => l <> [] -> forall L j, skipn j L = l -> PC (GAlt j) o (Alt L) ws t v s r0 v' k
  | VTimes lo hi n p => forall o, PC (GRep n) o (Repeat lo hi p) ws t v s r0 v' k
  | VMore p sep => forall o mm, Forall (tok T) mm -> PC (GSep mm) o (PList p sep) ws t v s r0 v' k
  end.

Ltac gin := try rename x into x0; intros c sk rq d x w Hat Hco Hsi Hsk Hnw Hok Tx Tw Hx Ht Hs HP; cbn [spok smk0 strimmed q_s q_c q_t] in *.
Ltac fin r w := exists r, w; split; [|split; [|split]]; cbn [related negb q_s q_c q_t at_ with_c]; auto with eqt.

Lemma raw_atm o p ws t v s r0 v' k : o && negb (atom p) = false -> PC GRaw o p ws t v s r0 v' k -> PC GAtm o p ws t v s r0 v' k.
Proof.
  intros Ho H. gin. destruct Hok as [Hok Hr]. unfold areq in *. assert (wants_atomic rq p = false) as Hw.
  { unfold wants_atomic. rewrite Hat. rewrite (atom_eq p) in Ho. exact Ho. }
  rewrite Hw in *. destruct (H c sk rq d x w) as (r & w' & HE & HR & HS & HK); cbn; auto; [split; auto; congruence|].
  fin r w'. now apply ev_atm_no.
Qed.

Lemma atm_run o p ws t v s r0 v' k : PC GAtm o p ws t v s r0 v' k ->
  forall c sk rq d x w,
  r_recur rq = false -> r_atomic rq = o -> r_consumes rq = false -> simple p = true ->
  skips T c ws -> (sk = false -> ws = nows) -> peg_ok T sk rq p = true ->
  Forall (tok T) x -> Forall (tok T) (q_s w) ->
  (mk0 rq p = true \/ eqt ws x (q_s w)) ->
  eqt ws s (q_s w) -> place (q_c w) d t v -> out GRun c rq d p x w ws r0 v' k.
Proof.
  intros HA c sk rq d x w Hr Hat Hco Hsi Hsk Hnw Hok Tx Tw Hx Hs HP.
  assert (Hx' : smk0 GCln rq p = true \/ eqt ws x (q_s w)).
  { destruct Hx as [Hx|]; auto. left. rewrite mk0_eq, Hr in Hx. cbn in Hx |- *.
    destruct (wants_clean rq p) eqn:E; [discriminate|]. rewrite (raw_noclean _ _ Hr E) in Hx. exact Hx. }
  assert (HC : forall w, Forall (tok T) (q_s w) -> (smk0 GCln rq p = true \/ eqt ws x (q_s w)) -> trim ws (q_s w) = q_s w ->
    eqt ws s (q_s w) -> place (q_c w) d t v -> out GCln c rq d p x w ws r0 v' k).
  { clear w Tw Hx Hx' Hs HP. intros w Tw Hx Ht Hs HP. cbn in Hx. rewrite peg_ok_eq in Hok. destruct (wants_clean rq p) eqn:Ew.
    - rewrite (raw_clean _ _ Hr Ew) in Hok. destruct Hx as [Hx|Hx]; [discriminate|].
      destruct (HA c sk (unclean_req rq) d x w) as (r & w' & HE & HR & HS & HK); cbn; auto. destruct r.
      + fin true w'. now apply ev_cln_ok.
      + fin false (at_ x w'). now apply ev_cln_ko.
    - rewrite (raw_noclean _ _ Hr Ew) in Hok. cbn in Hx.
      destruct (HA c sk rq d x w) as (r & w' & HE & HR & HS & HK); cbn; auto. fin r w'. now apply ev_cln_no. }
  destruct (is_fail (c_skip c)) eqn:Ef.
  - assert (ws = nows) as -> by (unfold skips in Hsk; now rewrite Ef in Hsk).
    destruct (HC w) as (r & w' & HE & HR & HS & HK); auto using trim_nows. fin r w'. now apply ev_noskip.
  - assert (out GSkip c rq d p x w ws r0 v' k) as (r & w' & HE & HR & HS & HK).
    { destruct w as [z cs tr]. clear Hx. cbn [q_s q_c] in *. revert Tw Hx' Hs. induction z as [z IH] using (induction_ltof1 _ (@length Z)).
      unfold ltof in IH. intros Tw Hx' Hs. destruct (skip1 (c_skip c) z) as [y|] eqn:Ey.
      - pose proof (skips_more _ _ _ _ _ Hsk Tw Ey) as E. pose proof (skips_less _ _ _ _ _ Hsk Tw Ey) as El.
        destruct (IH y El) as (r & w' & HE & HR & HS & HK).
        { apply skip1_suffix in Ey. destruct Ey as [k0 ->]. eapply suffix_of; eauto. } { destruct Hx'; eauto with eqt. } { eauto with eqt. }
        fin r w'. eapply ev_skip_more; [exact Ey|exact HE].
      - destruct (HC (SW z cs tr)) as (r & w' & HE & HR & HS & HK); auto. { eapply skips_end; eauto. }
        fin r w'. apply ev_skip_end; auto. }
    fin r w'. now apply ev_skip.
Qed.

Lemma cg_run o p ws t v s r0 v' k : CG (VOne o p) ws t v s r0 v' k ->
  forall c sk rq d x w,
  r_recur rq = false -> r_atomic rq = o -> r_consumes rq = false -> simple p = true ->
  skips T c ws -> (sk = false -> ws = nows) -> peg_ok T sk rq p = true ->
  Forall (tok T) x -> Forall (tok T) (q_s w) ->
  (mk0 rq p = true \/ eqt ws x (q_s w)) ->
  eqt ws s (q_s w) -> place (q_c w) d t v -> out GRun c rq d p x w ws r0 v' k.
Proof.
  intros H. apply atm_run. cbn in H. destruct (o && negb (atom p)) eqn:E; auto. now apply raw_atm.
Qed.

Ltac call IH c sk rq d x w := destruct (cg_run _ _ _ _ _ _ _ _ _ IH c sk rq d x w) as (r9 & w1 & HE & HR & HSt & HK); cbn; auto with eqt; try discriminate.
Ltac rel r := destruct r; cbn [related] in *; try contradiction.
Ltac leaf := unfold CG; match goal with |- context [?o && negb (atom ?p)] => replace (o && negb (atom p)) with false by (cbn; now rewrite andb_false_r) end; gin.
Ltac comb := unfold CG; cbn [andb atom negb]; gin.

Lemma trimmed ws s z : eqt ws s z -> trim ws z = z -> trim ws s = z.
Proof. unfold eqt. congruence. Qed.
Lemma keys_of e : forallb (fun kv : list Z * val => match fst kv with [] => false | _ => true end) e = true -> keys_ok e.
Proof. unfold keys_ok. rewrite Forall_forall, forallb_forall. intros H kv Hin N. specialize (H _ Hin). rewrite N in H. discriminate. Qed.

Lemma nth_skipn {A} (L : list A) j q l : skipn j L = q :: l -> nth_error L j = Some q /\ skipn (S j) L = l.
Proof.
  revert L. induction j as [|j IH]; intros [|y L] H; cbn in *; try discriminate; [injection H as -> ->; auto|]. apply IH in H as [H1 H2]. auto.
Qed.
Lemma nth_end_iff {A} (L : list A) j : skipn j L = [] -> nth_error L j = None.
Proof. revert L. induction j as [|j IH]; intros [|y L] H; cbn in *; try discriminate; auto. Qed.

Lemma ev_unclean {g c rq d p x w r w'} : ev env g c rq d p x w r w' -> forall ws sk u,
  skips T c ws -> (sk = false -> ws = nows) -> spok T sk g rq p ->
  Forall (tok T) x -> Forall (tok T) (q_s w) -> Forall (tok T) (gmark g x) ->
  (smk0 g rq p = true \/ eqt ws x (q_s w)) -> strimmed ws g rq p (q_s w) -> eqt ws u (q_s w) ->
  r = false -> sclean g rq p = true -> eqt ws (q_s w') (q_s w).
Proof.
  intros H ws sk u H1 H2 H3 H4 H5 H6 H7 H8 H9. destruct (sound_all env T HT Henv _ _ _ _ _ _ _ _ _ H ws sk u (gmark g x)) as [_ HC]; auto with eqt.
Qed.

Theorem complete_all_v ws g t v s r0 v' k : mv ws g t v s r0 v' k -> CG g ws t v s r0 v' k.
Proof.
  induction 1.
  - (* as one value *)
    unfold CG. rewrite H. cbn [andb negb]. gin. destruct Hok as [Hok Hr]. unfold areq in *. assert (wants_atomic rq p = true) as Hw.
    { unfold wants_atomic. rewrite Hat, <- (atom_eq p), H. reflexivity. }
    rewrite Hw in *. cbn in IHmv.
    assert (HPn := place_new (q_c w) (value_ty t) (default_init (value_ty t))).
    destruct (IHmv c sk (unatomic_req rq) (dst_cell (length (q_c w)) (value_ty t)) x (with_c (q_c w ++ [default_init (value_ty t)]) w))
      as (r & w' & HE & HR & HS & HK); cbn; auto. { split; auto. discriminate. }
    cbn [q_c with_c q_t] in *. rel r. destruct w' as [s2 cs2 tr2]. cbn [q_s q_c q_t] in *.
    assert (exists y, cs2 = q_c w ++ [y] /\ (value_ty t <> TNil -> y = x0)) as (y & -> & Ey).
    { assert (value_ty t = TNil \/ value_ty t <> TNil) as [E|E] by (destruct (value_ty t); auto; right; discriminate).
      - rewrite E in HS |- *. cbn in HS. injection HS as <-. eexists. split; [reflexivity|]. congruence.
      - rewrite store_new in HS by auto. injection HS as <-. eauto. }
    assert (stored t v y v') as HSd.
    { assert (value_ty t = TNil \/ value_ty t <> TNil) as [E|E] by (destruct (value_ty t); auto; right; discriminate).
      - eapply stored_any; eauto.
      - now rewrite (Ey E). }
    destruct (store_total _ _ _ _ v' HP) as [c' Hc]. fin true (SW s2 c' tr2).
    rewrite <- (place_value_ty _ _ _ _ HP) in HE. eapply ev_atm_ok; eauto. apply (assign_stored _ _ _ _ _ _ HP). eauto.
  - unfold CG. rewrite H. cbn [andb negb]. gin. destruct Hok as [Hok Hr]. unfold areq in *. assert (wants_atomic rq p = true) as Hw.
    { unfold wants_atomic. rewrite Hat, <- (atom_eq p), H. reflexivity. }
    rewrite Hw in *. cbn in IHmv.
    assert (HPn := place_new (q_c w) (value_ty t) (default_init (value_ty t))).
    destruct (IHmv c sk (unatomic_req rq) (dst_cell (length (q_c w)) (value_ty t)) x (with_c (q_c w ++ [default_init (value_ty t)]) w))
      as (r & w' & HE & HR & HS & HK); cbn; auto. { split; auto. discriminate. }
    cbn [q_c with_c q_t] in *. rel r. destruct w' as [s2 cs2 tr2]. cbn [q_s q_c q_t] in *.
    assert (exists y, cs2 = q_c w ++ [y]) as (y & ->).
    { assert (value_ty t = TNil \/ value_ty t <> TNil) as [E|E] by (destruct (value_ty t); auto; right; discriminate).
      - rewrite E in HS. cbn in HS. injection HS as <-. eexists. reflexivity.
      - rewrite store_new in HS by auto. injection HS as <-. eauto. }
    fin false (SW s2 (q_c w) tr2); [|eapply store_keep; eauto].
    rewrite <- (place_value_ty _ _ _ _ HP) in HE. eapply ev_atm_ko; eauto.
  - (* Char *)
    leaf. rewrite (trimmed _ _ _ Hs Ht) in H. destruct w as [z cc tr]. cbn [q_s q_c q_t] in *. subst z.
    destruct Hok as [Hok _]. apply cs_fits_ok in Hok. inversion Tw; subst. destruct (store_total _ _ _ _ v' HP) as [c' Hc].
    fin true (SW s' c' tr). apply ev_char_ok; [now apply (valid_in_set T)|]. apply (assign_stored _ _ _ _ _ _ HP). eauto.
  - leaf. fin false w; [|eapply store_keep; eauto]. apply ev_char_ko. destruct Hok as [Hok _]. apply cs_fits_ok in Hok.
    rewrite (trimmed _ _ _ Hs Ht) in H. destruct (q_s w) as [|y z] eqn:Ew; auto. inversion Tw; subst.
    destruct (is_valid cs y) eqn:Ev; auto. apply (valid_in_set T) in Ev; auto. destruct (H y z eq_refl Ev).
  - (* Eoi *)
    leaf. rewrite (trimmed _ _ _ Hs Ht) in H. exists true, w. split; [|split; [|split]]; auto.
    + replace true with (match q_s w with [] => true | _ => false end) by now rewrite H. constructor.
    + rewrite H. cbn. auto with eqt.
    + eapply store_keep; eauto.
  - leaf. rewrite (trimmed _ _ _ Hs Ht) in H. exists false, w. split; [|split; [|split]]; cbn; auto.
    + replace false with (match q_s w with [] => true | _ => false end) by (destruct (q_s w); congruence). constructor.
    + eapply store_keep; eauto.
  - (* Pass *)
    leaf. fin true w; [now apply ev_pass|]. eapply store_keep; eauto.
  - leaf. fin false w; [now apply ev_fail|]. eapply store_keep; eauto.
  - (* Lit *)
    leaf. rewrite (trimmed _ _ _ Hs Ht) in H. destruct (lit_run l (q_s w)) as [b z] eqn:E. pose proof (lit_run_ok l (q_s w)) as L. rewrite E in L.
    destruct b; [|destruct (L s' H)]. rewrite H in L. apply app_inv_head in L. subst z.
    fin true (at_ s' w); [now apply ev_lit|]. eapply store_keep; eauto.
  - leaf. rewrite (trimmed _ _ _ Hs Ht) in H. destruct (lit_run l (q_s w)) as [b z] eqn:E. pose proof (lit_run_ok l (q_s w)) as L. rewrite E in L.
    destruct b; [destruct (H z L)|]. fin false (at_ z w); [now apply ev_lit|]. eapply store_keep; eauto.
  - (* Symbol *)
    leaf. rewrite (trimmed _ _ _ Hs Ht) in *. destruct (store_total _ _ _ _ v' HP) as [c' Hc]. destruct Hok as [Hok _].
    fin true (SW s' c' (q_t w)). apply ev_sym. eapply sym_hit; eauto using simple_keys, keys_of. apply (assign_stored _ _ _ _ _ _ HP). eauto.
  - leaf. rewrite (trimmed _ _ _ Hs Ht) in *. destruct Hok as [Hok _]. destruct (sym_miss d e (q_s w) (q_c w) (keys_of _ Hok) H) as [z Hz].
    fin false (SW z (q_c w) (q_t w)); [now apply ev_sym|]. eapply store_keep; eauto.
  - (* UInt *)
    comb. rewrite (trimmed _ _ _ Hs Ht) in *. destruct Hok as [Hok _]. apply num_fits_ok in Hok. destruct Hok as (HTc & Hb & Hlh).
    assert (Forall (tok ct_char) (q_s w)) as Tw' by (rewrite <- HTc; exact Tw).
    destruct (counted_uint b lo hi Hb Hlh _ _ _ _ _ _ Tw' HP H) as (c0 & r & s' & c' & H0 & H1 & H2).
    pose proof (uint_number b lo hi Hb Hlh _ _ _ _ _ _ Tw' H1) as HN.
    fin r (SW s' c' (q_t w)); [eapply ev_uint; eauto|]. rewrite HN. destruct r; cbn; auto with eqt.
  - comb. rewrite (trimmed _ _ _ Hs Ht) in *. destruct Hok as [Hok _]. cbn [pokr] in Hok. apply andb_prop in Hok. destruct Hok as [Hok _].
    apply num_fits_ok in Hok. destruct Hok as (HTc & Hb & Hlh).
    assert (Forall (tok ct_char) (q_s w)) as Tw' by (rewrite <- HTc; exact Tw).
    destruct (counted_int b lo hi Hb Hlh _ _ _ _ _ _ Tw' HP H) as (c0 & r & s' & c' & H0 & H1 & H2).
    pose proof (int_number b lo hi Hb Hlh _ _ _ _ _ _ Tw' H1) as HN.
    fin r (SW s' c' (q_t w)); [eapply ev_int; eauto|]. rewrite HN. destruct r; cbn; auto with eqt.
  - (* Seq *)
    comb. assert (l <> []) as Nl by (intros ->; discriminate).
    destruct (IHmv Nl l 0 eq_refl eq_refl false c sk rq d x w) as (r9 & w1 & HE & HR & HSt & HK); cbn; auto.
    { destruct Hx as [Hx|Hx]; auto. left. cbn in Hx. destruct l; auto. }
    fin r9 w1. now apply ev_seq.
  - intros N. congruence.
  - (* Seq: failure *)
    intros _ L j HL -> o. gin. destruct (nth_skipn _ _ _ _ HL) as [Hn _].
    destruct (place_part _ _ _ _ _ _ _ _ _ _ _ Hn HP H) as (di & Hd & HPq & HSq). rewrite Hn in Hx.
    call IHmv c sk seq_req di x w.
    { eapply simple_in; eauto using nth_error_In. }
    { destruct Hok as [Hok _]. cbn in Hok. rewrite forallb_forall in Hok. apply nth_error_In in Hn. auto. }
    rel r9. fin false w1. eapply ev_seq_ko; eauto.
  - (* Seq *)
    intros _ L j HL -> o. gin. destruct (nth_skipn _ _ _ _ HL) as [Hn HL'].
    destruct (place_part _ _ _ _ _ _ _ _ _ _ _ Hn HP H) as (di & Hd & HPq & HSq). rewrite Hn in Hx.
    call IHmv1 c sk seq_req di x w.
    { eapply simple_in; eauto using nth_error_In. }
    { destruct Hok as [Hok _]. cbn in Hok. rewrite forallb_forall in Hok. apply nth_error_In in Hn. auto. }
    rel r9. specialize (HSq _ HSt). destruct l as [|q' l].
    + inversion H1; subst. rewrite app_nil_r. fin true w1. eapply ev_seq_end; eauto. now apply nth_end_iff.
    + destruct (nth_skipn _ _ _ _ HL') as [Hn' _]. pose proof (toks_ev env T _ _ _ _ _ _ _ _ _ HE Tx Tw Tx) as Tw1.
      destruct (IHmv2 ltac:(discriminate) L (S j) HL' ltac:(symmetry; now apply louds_next) o c sk rq d (q_s w1) w1)
        as (r2 & w2 & HE2 & HR2 & HSt2 & HK2); cbn; auto with eqt. { eapply store_place; eauto. }
      fin r2 w2; [eapply ev_seq_next; eauto|rewrite <- HSt2; symmetry; eapply store_again; eauto|eapply trace_app; eauto].
  - (* Alt *)
    leaf. assert (l <> []) as Nl by (intros ->; discriminate).
    destruct (IHmv Nl l 0 eq_refl c sk rq d x w) as (r9 & w1 & HE & HR & HSt & HK); cbn; auto.
    { destruct Hx as [Hx|Hx]; auto. left. cbn in Hx. destruct l; auto. }
    fin r9 w1. now apply ev_alt.
  - intros N. congruence.
  - (* Alt: match *)
    intros _ L j HL. gin. destruct (nth_skipn _ _ _ _ HL) as [Hn _]. rewrite Hn in Hx.
    call IHmv c sk (alt_req rq) d x w.
    { eapply simple_in; eauto using nth_error_In. }
    { destruct Hok as [Hok _]. cbn in Hok. rewrite forallb_forall in Hok. apply nth_error_In in Hn. auto. }
    rel r9. fin true w1. eapply ev_alt_ok; eauto.
  - (* Alt: next *)
    intros _ L j HL. gin. destruct (nth_skipn _ _ _ _ HL) as [Hn HL']. rewrite Hn in Hx.
    assert (spok T sk GRun (alt_req rq) p) as Hokp.
    { destruct Hok as [Hok _]. cbn in Hok. rewrite forallb_forall in Hok. apply nth_error_In in Hn. split; auto. discriminate. }
    call IHmv1 c sk (alt_req rq) d x w.
    { eapply simple_in; eauto using nth_error_In. } { apply Hokp. }
    rel r9. destruct l as [|q' l].
    + inversion H0; subst. rewrite app_nil_r. fin false w1. eapply ev_alt_ko; eauto. now apply nth_end_iff.
    + destruct (nth_skipn _ _ _ _ HL') as [Hn' _]. pose proof (toks_ev env T _ _ _ _ _ _ _ _ _ HE Tx Tw Tx) as Tw1.
      assert (eqt ws (q_s w1) (q_s w)) as HC by (eapply (ev_unclean HE ws sk s); cbn; auto; discriminate).
      destruct (IHmv2 ltac:(discriminate) L (S j) HL' c sk rq d (q_s w1) w1)
        as (r2 & w2 & HE2 & HR2 & HSt2 & HK2); cbn; auto with eqt. { eauto with eqt. } { eapply store_place; eauto. }
      fin r2 w2; [eapply ev_alt_next; eauto|rewrite <- HSt2; symmetry; eapply store_again; eauto|eapply trace_app; eauto].
  - (* Repeat *)
    comb. destruct (IHmv false c sk rq d x w) as (r9 & w1 & HE & HR & HSt & HK); cbn; auto. { lia. }
    fin r9 w1. apply ev_rep; auto. now rewrite Hco.
  - (* Repeat: stop *)
    intros o. gin. destruct Hok as [Hok _]. cbn [pokr] in Hok. apply andb_prop in Hok. destruct Hok as [Hlh Hok].
    call IHmv c sk (repeat_req lo hi rq) d x w. rel r9.
    fin (lo <=? n) w1; [now apply ev_rep_stop|]. destruct (Nat.leb_spec lo n); auto.
    apply (eqt_trans _ _ _ _ Hs). apply eqt_sym. eapply (ev_unclean HE ws sk s); cbn; auto; try discriminate. { split; auto. discriminate. }
    destruct (Nat.eqb_spec lo hi); cbn; auto. apply Nat.eqb_eq. lia.
  - (* Repeat: full *)
    intros o. gin. destruct Hok as [Hok _]. cbn [pokr] in Hok. apply andb_prop in Hok. destruct Hok as [Hlh Hok].
    call IHmv c sk (repeat_req lo hi rq) d x w. rel r9.
    fin true w1. apply ev_rep_full; auto. subst hi. rewrite Nat.eqb_refl. reflexivity.
  - (* Repeat: more *)
    intros o. gin. assert (Hok' := Hok). destruct Hok as [Hok _]. cbn [pokr] in Hok. apply andb_prop in Hok. destruct Hok as [Hlh Hok].
    call IHmv1 c sk (repeat_req lo hi rq) d x w. rel r9.
    pose proof (toks_ev env T _ _ _ _ _ _ _ _ _ HE Tx Tw Tx) as Tw1.
    destruct (IHmv2 o c sk rq d (q_s w1) w1) as (r2 & w2 & HE2 & HR2 & HSt2 & HK2); cbn; auto with eqt. { lia. } { eapply store_place; eauto. }
    fin r2 w2; [eapply ev_rep_more; eauto|rewrite <- HSt2; symmetry; eapply store_again; eauto|eapply trace_app; eauto].
    destruct (Nat.eqb_spec (S n) hi); [congruence|]. apply andb_false_r.
  - (* Not *)
    leaf. destruct Hok as [Hok _]. destruct Hx as [Hx|Hx]; [discriminate|]. call IHmv c sk (not_req rq) d x w. rel r9.
    fin false (at_ x w1). now apply (ev_not env c rq d p x w true).
  - leaf. destruct Hok as [Hok _]. destruct Hx as [Hx|Hx]; [discriminate|]. call IHmv c sk (not_req rq) d x w. rel r9.
    fin true (at_ x w1); [now apply (ev_not env c rq d p x w false)|eauto with eqt].
  - (* Opt *)
    leaf. destruct Hok as [Hok _]. destruct Hx as [Hx|Hx]; [discriminate|]. call IHmv c sk (opt_req rq) d x w. rel r9.
    fin true w1. now apply ev_opt_ok.
  - leaf. destruct Hok as [Hok _]. destruct Hx as [Hx|Hx]; [discriminate|]. call IHmv c sk (opt_req rq) d x w. rel r9.
    fin true (at_ x w1); [now apply ev_opt_ko|eauto with eqt].
  - (* Except: hit *)
    leaf. destruct Hok as [Hok _]. cbn [pokr] in Hok. apply andb_prop in Hok. destruct Hok as [Hok1 Hok2].
    cbn [simple] in Hsi. apply andb_prop in Hsi as [Hs1 Hs2]. call IHmv c sk neg_req DNil x w. rel r9.
    cbn in HSt. injection HSt as E. fin false w1; [now apply ev_exc_hit|]. rewrite <- E. eapply store_keep; eauto.
  - (* Except: go *)
    leaf. destruct Hok as [Hok _]. cbn [pokr] in Hok. apply andb_prop in Hok. destruct Hok as [Hok1 Hok2].
    cbn [simple] in Hsi. apply andb_prop in Hsi as [Hs1 Hs2]. call IHmv1 c sk neg_req DNil x w. rel r9.
    cbn in HSt. injection HSt as E. pose proof (toks_ev env T _ _ _ _ _ _ _ _ _ HE Tx Tw Tx) as Tw1.
    assert (eqt ws (q_s w1) (q_s w)) as HC. { eapply (ev_unclean HE ws sk s); cbn; auto; try discriminate. split; auto. discriminate. }
    destruct (cg_run _ _ _ _ _ _ _ _ _ IHmv2 c sk (except_req rq) d (q_s w1) w1) as (r2 & w2 & HE2 & HR2 & HSt2 & HK2); cbn; auto with eqt.
    { eauto with eqt. } { rewrite <- E. exact HP. }
    fin r2 w2; [eapply ev_exc_go; eauto|rewrite E; exact HSt2|eapply trace_app; eauto].
  - (* PList: no element *)
    comb. destruct Hok as [Hok _]. cbn [pokr] in Hok. apply andb_prop in Hok. destruct Hok as [Hok1 Hok2].
    cbn [simple] in Hsi. apply andb_prop in Hsi as [Hs1 Hs2]. destruct Hx as [Hx|Hx]; [discriminate|].
    call IHmv c sk list_req d x w. rel r9. fin true (at_ x w1); [apply ev_list; now apply ev_elem_end|eauto with eqt].
  - (* PList *)
    comb. assert (Hok' := Hok). destruct Hok as [Hok _]. cbn [pokr] in Hok. apply andb_prop in Hok. destruct Hok as [Hok1 Hok2].
    assert (Hsi' := Hsi). cbn [simple] in Hsi. apply andb_prop in Hsi as [Hs1 Hs2]. destruct Hx as [Hx|Hx]; [discriminate|].
    call IHmv1 c sk list_req d x w. rel r9. pose proof (toks_ev env T _ _ _ _ _ _ _ _ _ HE Tx Tw Tx) as Tw1.
    destruct (IHmv2 false (q_s w1) Tw1 c sk rq d (q_s w1) w1) as (r2 & w2 & HE2 & HR2 & HSt2 & HK2); cbn; auto with eqt. { eapply store_place; eauto. }
    fin r2 w2; [apply ev_list; eapply ev_elem_next; eauto|rewrite <- HSt2; symmetry; eapply store_again; eauto|eapply trace_app; eauto].
  - (* list: no separator *)
    intros o mm Tm. gin. destruct Hok as [Hok _]. cbn [pokr] in Hok. apply andb_prop in Hok. destruct Hok as [Hok1 Hok2].
    cbn [simple] in Hsi. apply andb_prop in Hsi as [Hs1 Hs2].
    call IHmv c sk sep_req DNil x w. rel r9. cbn in HSt. injection HSt as E.
    fin true (at_ mm w1); [now apply ev_sep_end|eauto with eqt|]. rewrite <- E. eapply store_keep; eauto.
  - (* list: trailing separator *)
    intros o mm Tm. gin. destruct Hok as [Hok _]. cbn [pokr] in Hok. apply andb_prop in Hok. destruct Hok as [Hok1 Hok2].
    cbn [simple] in Hsi. apply andb_prop in Hsi as [Hs1 Hs2].
    call IHmv1 c sk sep_req DNil x w. rel r9. cbn in HSt. injection HSt as E. pose proof (toks_ev env T _ _ _ _ _ _ _ _ _ HE Tx Tw Tx) as Tw1.
    destruct (cg_run _ _ _ _ _ _ _ _ _ IHmv2 c sk list_req d (q_s w1) w1) as (r2 & w2 & HE2 & HR2 & HSt2 & HK2); cbn; auto with eqt.
    { rewrite <- E. exact HP. }
    rel r2. fin true (at_ mm w2); [eapply ev_sep_next; eauto; now apply ev_elem_end|eauto with eqt|rewrite E; exact HSt2|eapply trace_app; eauto].
  - (* list: more *)
    intros o mm Tm. gin. assert (Hok' := Hok). destruct Hok as [Hok _]. cbn [pokr] in Hok. apply andb_prop in Hok. destruct Hok as [Hok1 Hok2].
    assert (Hsi' := Hsi). cbn [simple] in Hsi. apply andb_prop in Hsi as [Hs1 Hs2].
    call IHmv1 c sk sep_req DNil x w. rel r9. cbn in HSt. injection HSt as E. pose proof (toks_ev env T _ _ _ _ _ _ _ _ _ HE Tx Tw Tx) as Tw1.
    destruct (cg_run _ _ _ _ _ _ _ _ _ IHmv2 c sk list_req d (q_s w1) w1) as (r2 & w2 & HE2 & HR2 & HSt2 & HK2); cbn; auto with eqt.
    { rewrite <- E. exact HP. }
    rel r2. pose proof (toks_ev env T _ _ _ _ _ _ _ _ _ HE2 Tw1 Tw1 Tw1) as Tw2.
    destruct (IHmv3 o (q_s w2) Tw2 c sk rq d (q_s w2) w2) as (r3 & w3 & HE3 & HR3 & HSt3 & HK3); cbn; auto with eqt.
    { eapply store_place; [|exact HSt2]. rewrite <- E. exact HP. }
    fin r3 w3; [eapply ev_sep_next; eauto; eapply ev_elem_next; eauto| |].
    + rewrite <- HSt3, E. symmetry. eapply store_again; eauto.
    + eapply trace_app; eauto. eapply trace_app; eauto.
  - (* Lexeme *)
    cbn [CG atom negb] in *. rewrite andb_false_r. gin. destruct Hok as [Hok Hr]. cbn [pokr] in Hok. apply andb_prop in Hok. destruct Hok as [Hl Hok].
    pose proof (trimmed _ _ _ Hs Ht) as Eu. destruct (r_recur rq) eqn:Er.
    + rewrite (Hr eq_refl) in *. cbn in Hat. subst o. cbn [andb negb] in IHmv.
      destruct (IHmv (Ctx Fail (c_bound c)) false recur_req d x w) as (r9 & w1 & HE & HR & HSt & HK); cbn; auto with eqt.
      { rewrite peg_ok_eq in Hok. split; auto. }
      { destruct sk; cbn in Hl; [left; rewrite mk0_eq in Hl; exact Hl|]. rewrite (Hnw eq_refl) in Hx. destruct Hx as [Hx|Hx]; auto. left. cbn [mk0r] in Hx. rewrite mk0_eq in Hx. exact Hx. }
      { apply trim_nows. } { rewrite Eu. auto with eqt. }
      fin r9 w1; [apply ev_lexeme; now apply ev_recur|]. destruct r9; rel r; auto. apply eqt_nows in HR. subst. auto with eqt.
    + call IHmv (Ctx Fail (c_bound c)) false rq d x w.
      { destruct sk; cbn in Hl; auto. rewrite (Hnw eq_refl) in Hx. exact Hx. } { rewrite Eu. auto with eqt. }
      fin r9 w1; [now apply ev_lexeme|]. destruct r9; rel r; auto. apply eqt_nows in HR. subst. auto with eqt.
  - (* WithSkipper *)
    cbn [CG atom] in *. assert (Ho : o && negb (atom p) = false) by (destruct o; auto; now rewrite H). rewrite Ho in *.
    gin. destruct Hok as [Hok Hr]. cbn [pokr] in Hok. cbn [andb] in Hok.
    rewrite !andb_true_iff, !negb_true_iff in Hok. destruct Hok as (Hf & (((Hcl & Hrc) & He) & Hl) & Hok).
    pose proof (trimmed _ _ _ Hs Ht) as Eu.
    assert (Hx' : mk0 rq p = true \/ eqt (passes skp) x (q_s w)).
    { destruct sk; cbn in Hl; auto. rewrite (Hnw eq_refl) in Hx. destruct Hx as [Hx|Hx]; [auto|]. apply eqt_nows in Hx. rewrite Hx. auto with eqt. }
    pose proof (skips_passes T HT skp (c_bound c) Hf) as HSk.
    assert (CG (VOne o p) (passes skp) t v (trim ws s) r v' k) as HG by (cbn [CG]; now rewrite Ho).
    call HG (Ctx skp (c_bound c)) true rq d x w.
    { rewrite Eu. auto with eqt. }
    destruct (sound_exact env T HT Henv _ _ _ _ _ _ _ _ _ HE (passes skp) true (trim ws s) x) as [(r2 & HJ2 & HR2) _]; cbn; auto with eqt; try discriminate.
    all: try (rewrite Eu; auto with eqt; fail). all: try congruence.
    cbn [J] in HJ2. match goal with HM : SpecAttr.mv _ (passes skp) _ _ _ _ _ _ _ |- _ => pose proof (m_det _ _ _ _ _ (mv_m _ _ _ _ _ _ _ _ _ HM) _ HJ2) end. subst r2.
    fin r9 w1; [now apply ev_skipper|]. destruct r, r9; cbn in *; auto. destruct HR2 as [_ HR2]. rewrite (HR2 He). auto with eqt.
  - (* Discard *)
    cbn [CG atom negb] in *. rewrite andb_false_r. gin. destruct Hok as [Hok Hr]. destruct (r_recur rq) eqn:Er.
    + rewrite (Hr eq_refl) in *. cbn in Hat. subst o. cbn [andb negb] in IHmv. cbn [pokr] in Hok. rewrite peg_ok_eq in Hok.
      destruct (IHmv c sk recur_req DNil x w) as (r9 & w1 & HE & HR & HSt & HK); cbn; auto with eqt.
      { destruct Hx as [Hx|Hx]; auto. left. cbn [mk0r] in Hx. rewrite mk0_eq in Hx. exact Hx. }
      cbn in HSt. injection HSt as E. fin r9 w1; [apply ev_discard; now apply ev_recur|]. rewrite <- E. eapply store_keep; eauto.
    + call IHmv c sk rq DNil x w. cbn in HSt. injection HSt as E.
      fin r9 w1; [now apply ev_discard|]. rewrite <- E. eapply store_keep; eauto.
  - (* BindDst *)
    comb. destruct Hok as [Hok _]. call IHmv (Ctx (c_skip c) d) sk (unatomic_req rq) d x w. fin r9 w1. now apply ev_bind.
  - (* Construct *)
    leaf. destruct Hok as [Hok _]. 
    call IHmv c sk (unatomic_req rq) (dst_cell (length (q_c w)) (TTuple args)) x (with_c (q_c w ++ [value_init (TTuple args)]) w).
    { apply (place_new _ (TTuple args)). }
    rel r9. destruct w1 as [s2 cs2 tr2]. cbn [q_s q_c q_t with_c] in *. rewrite (store_new _ (TTuple args)) in HSt by discriminate. injection HSt as <-.
    destruct (store_total _ _ _ _ v' HP) as [c' Hc]. fin true (SW s2 c' tr2). eapply ev_construct_ok; eauto.
    + rewrite (place_ty _ _ _ _ HP). apply made_from; eassumption.
    + apply (assign_stored _ _ _ _ _ _ HP). eauto.
  - leaf. destruct Hok as [Hok _]. 
    call IHmv c sk (unatomic_req rq) (dst_cell (length (q_c w)) (TTuple args)) x (with_c (q_c w ++ [value_init (TTuple args)]) w).
    { apply (place_new _ (TTuple args)). }
    rel r9. destruct w1 as [s2 cs2 tr2]. cbn [q_s q_c q_t with_c] in *. rewrite (store_new _ (TTuple args)) in HSt by discriminate. injection HSt as <-.
    fin false (SW s2 (q_c w) tr2); [|eapply store_keep; eauto]. eapply ev_construct_ko; eauto.
  - (* Act *)
    leaf. destruct Hok as [Hok _]. cbn [simple] in Hsi. apply andb_prop in Hsi as [Hpa Hsi].
    call IHmv c sk (action_req rq) (dst_cell (length (q_c w)) (ac_land a)) x (with_c (q_c w ++ [default_init (ac_land a)]) w).
    { apply place_new. }
    rel r9. destruct w1 as [s2 cs2 tr2]. cbn [q_s q_c q_t with_c] in *.
    assert (exists z, cs2 = q_c w ++ [z] /\ conv (ac_land a) z = Done y) as (z & -> & Ez).
    { assert (ac_land a = TNil \/ ac_land a <> TNil) as [E|E] by (destruct (ac_land a); auto; right; discriminate).
      - rewrite E in *. cbn in HSt. injection HSt as <-. eexists. split; [reflexivity|]. assumption.
      - rewrite store_new in HSt by auto. injection HSt as <-. eauto. }
    destruct (store_total _ _ _ _ v' HP) as [c' Hc]. fin true (SW s2 c' (Event (ac_id a) y :: tr2)).
    + eapply ev_act_ok; eauto. apply (act_called _ _ _ _ _ _ _ _ _ _ H1 HP). exists y, v', c'. auto.
    + rewrite rev_app_distr. cbn. now f_equal.
  - leaf. destruct Hok as [Hok _]. cbn [simple] in Hsi. apply andb_prop in Hsi as [Hpa Hsi].
    call IHmv c sk (action_req rq) (dst_cell (length (q_c w)) (ac_land a)) x (with_c (q_c w ++ [default_init (ac_land a)]) w).
    { apply place_new. }
    rel r9. destruct w1 as [s2 cs2 tr2]. cbn [q_s q_c q_t with_c] in *.
    assert (exists z, cs2 = q_c w ++ [z]) as (z & ->).
    { assert (ac_land a = TNil \/ ac_land a <> TNil) as [E|E] by (destruct (ac_land a); auto; right; discriminate).
      - rewrite E in *. cbn in HSt. injection HSt as <-. eexists. reflexivity.
      - rewrite store_new in HSt by auto. injection HSt as <-. eauto. }
    fin false (SW s2 (q_c w) tr2); [|eapply store_keep; eauto]. eapply ev_act_ko; eauto.
  - (* Recur *)
    comb. cbn [CG andb] in IHmv.
    destruct (IHmv c sk recur_req d (q_s w) w) as (r9 & w1 & HE & HR & HSt & HK); cbn; auto with eqt.
    { eapply Hsimple; eauto. }
    { split; [|auto]. assert (peg_ok T sk recur_req q = true) as E by (destruct sk; [|apply peg_ok_mono]; now apply (Henv id)). rewrite peg_ok_eq in E. exact E. }
    fin r9 w1. eapply ev_rec; eauto. now apply ev_recur.
Qed.
End Attr.
