(** An element that has to be atomic: it is parsed into an object of its own, which is
    stored when it matches; nothing happens to the destination when it does not. *)
From Coq Require Import List ZArith Bool Arith Lia.
From Verif Require Import Base CharSet Source Dst Pattern Parser Rel Safety Limit Big Local Leaf EvReq SpecValue Frame Fill Shape.
Import ListNotations.

(** Integral types have a width. *)
Fixpoint sized (t : ty) : bool :=
  match t with
  | TNum _ b => (1 <=? b)%Z
  | TColl e => sized e
  | TTuple l => forallb sized l
  | _ => true
  end.
Definition coll (t : ty) : bool := match t with TColl _ => true | _ => false end.

(** Patterns that store one value, and store it in one go. *)
Fixpoint single (R : nat -> bool) (e : ty) (p : pat) : bool :=
  negb (f_atomic p) ||
  match p with
  | Char _ | CharSymbol _ | Symbol _ => negb (coll e)
  | Act a _ => negb (ac_void a) && negb (coll e)
  | Except q _ | Lexeme q | WithSkipper q _ => single R e q
  | Alt l => scalar e && forallb (fills R) l && forallb plain l && forallb (single R e) l
  | _ => false
  end.

Lemma zero_in s b : (1 <= b)%Z -> in_range s b 0 = true.
Proof.
  intros H. apply in_range_iff. unfold ty_min, ty_max.
  assert (0 < 2 ^ (b - 1))%Z by (apply Z.pow_pos_nonneg; lia). assert (0 < 2 ^ b)%Z by (apply Z.pow_pos_nonneg; lia).
  destruct s; lia.
Qed.

Lemma has_init t : sized t = true -> has_ty t (value_init t) = true.
Proof.
  induction t using ty_ind'; cbn; intros Hs; auto.
  - apply zero_in. lia.
  - induction H; cbn in *; auto. apply andb_prop in Hs. destruct Hs. rewrite H; auto.
  - apply Nat.eqb_refl.
Qed.

Lemma conv_twice e z v : sized e = true -> conv e z = Done v -> conv e v = Done v.
Proof.
  intros Hs.
  assert (forall t, t = e -> match t with TNil | TNum _ _ => True | _ =>
    conv e z = Done v -> has_ty e v = true /\ v <> VNil end) as HH.
  { intros t ->. pose proof (has_init e Hs) as HI. destruct e; auto; cbn [conv]; destruct z; try discriminate;
      try (intros [= <-]; split; [exact HI|discriminate]);
      match goal with |- context [if ?b then _ else _] => destruct b eqn:E; [|discriminate] end; intros [= <-]; split; auto; discriminate. }
  specialize (HH e eq_refl). destruct e; cbn [conv]; auto.
  - cbn in Hs. apply Z.leb_le in Hs. destruct z; try discriminate; intros [= <-]; f_equal; f_equal.
    + apply wrap_id; auto. now apply zero_in.
    + apply wrap_id; auto. now apply wrap_range.
  - intros H. destruct (HH H) as [A B]. destruct v; try congruence; now rewrite A.
  - intros H. destruct (HH H) as [A B]. destruct v; try congruence; now rewrite A.
  - intros H. destruct (HH H) as [A B]. destruct v; try congruence; now rewrite A.
Qed.

Lemma upd_last {A} (C : list A) v y : upd (C ++ [v]) (length C) y = C ++ [y].
Proof. rewrite <- (Nat.add_0_r (length C)), upd_app_r. reflexivity. Qed.

(** Storing through a buffer. *)
Lemma assign_cell C i e z : e <> TNil -> coll e = false ->
  assign (C ++ [i]) (dst_cell (length C) e) z = obind (conv e z) (fun v => Done (C ++ [v])).
Proof.
  intros Hn Hc.
  assert (forall v, store (C ++ [i]) (DRef (length C) [] e) v = Done (C ++ [v])) as HS.
  { intros v. cbn. rewrite nth_error_app2, Nat.sub_diag by lia. cbn. f_equal.
    rewrite <- (Nat.add_0_r (length C)). now rewrite upd_app_r. }
  destruct e; try congruence; try discriminate; cbn [dst_cell assign]; destruct (conv _ z); cbn [obind]; auto.
Qed.

Lemma assign_twice C i d z c' : d <> DNil -> dst_value_ty d <> TNil -> coll (dst_value_ty d) = false -> sized (dst_value_ty d) = true ->
  (assign C d z = Done c' <->
   exists v, assign (C ++ [i]) (dst_cell (length C) (dst_value_ty d)) z = Done (C ++ [v]) /\ assign C d v = Done c').
Proof.
  intros Hd Hn Hc Hs. rewrite assign_cell by auto. set (e := dst_value_ty d) in *.
  assert (forall x, assign C d x = obind (conv e x) (fun y => match d with
     | DRef _ _ (TColl _) => obind (load C d) (fun c => match c with VColl l => store C d (VColl (l ++ [y])) | _ => Err EType end)
     | _ => store C d y end)) as HA.
  { intros x. unfold e. destruct d as [|l p t]; [congruence|]. destruct t; reflexivity. }
  split.
  - intros H. rewrite HA in H. destruct (conv e z) as [v|] eqn:E; cbn [obind] in *; [|discriminate]. exists v. split; auto.
    rewrite HA. rewrite (conv_twice _ _ _ Hs E). exact H.
  - intros (v & E & H). destruct (conv e z) as [v'|] eqn:E'; cbn [obind] in *; [|discriminate].
    injection E as E. apply app_inj_tail in E. destruct E as [_ ->]. rewrite HA, E'. rewrite HA, (conv_twice _ _ _ Hs E') in H. exact H.
Qed.

(** What Symbol finds. *)
Definition pick_end (valid : option trie) (m s : list Z) : outcome (option val * list Z) :=
  match valid with None => Done (None, s) | Some n => obind (sym_value n) (fun v => Done (Some v, m)) end.
Fixpoint pick (nx : trie) (valid : option trie) (m s : list Z) : outcome (option val * list Z) :=
  match s with
  | [] => pick_end valid m []
  | x :: t =>
    match assoc x (trie_child nx) with
    | None => pick_end valid m s
    | Some n' =>
      match trie_val n' with
      | None => pick n' valid m t
      | Some v => match trie_child n' with [] => Done (Some v, t) | _ :: _ => pick n' (Some n') t t end
      end
    end
  end.
Definition put (d : dst) (cs : list val) (o : outcome (option val * list Z)) : outcome (bool * list Z * list val) :=
  obind o (fun '(v, s) => match v with None => Done (false, s, cs) | Some z => obind (assign cs d z) (fun c => Done (true, s, c)) end).
Lemma sym_pick d cs : forall s nx valid m, sym_run d nx valid m cs s = put d cs (pick nx valid m s).
Proof.
  assert (forall v m s, sym_end d v m cs s = put d cs (pick_end v m s)) as HE.
  { intros v m s. unfold sym_end, pick_end. destruct v; auto. destruct (sym_value t); reflexivity. }
  induction s as [|x t IH]; intros nx valid m; cbn [sym_run pick]; auto.
  destruct (assoc x _); auto. destruct (trie_val t0); auto. destruct (trie_child t0); auto.
Qed.

Section Ev.
Context (env : nat -> option pat).
Hypothesis Hub : all_unbound env.
Hypothesis Hplain : forall id q, env id = Some q -> plain q = true.
Context (R : nat -> bool).
Hypothesis Hfills : forall id q, env id = Some q -> R id = true -> fills R q = true.
Context (e : ty).
Hypothesis He : e <> TNil.
Hypothesis Hsz : sized e = true.
Notation ev := (ev env).

(** Parsed into an object of its own first. *)
Definition buffered (g : stage) (c : ctx) (rq : req) (d : dst) (p : pat) (x : list Z) (w : sw) (r : bool) (w' : sw) : Prop :=
  exists v, ev g c (unatomic_req rq) (dst_cell (length (q_c w)) (dst_value_ty d)) p x
       (with_c (q_c w ++ [default_init (dst_value_ty d)]) w) r (SW (q_s w') (q_c w ++ [v]) (q_t w')) /\
    if r then assign (q_c w) d v = Done (q_c w') else q_c w' = q_c w.

Definition okd (d : dst) : Prop := d <> DNil /\ dst_value_ty d = e.

Lemma own_cell g c rq t p x w i r s cs tr : unbound p = true ->
  ev g c rq (dst_cell (length (q_c w)) t) p x (with_c (q_c w ++ [i]) w) r (SW s cs tr) ->
  exists v, cs = q_c w ++ [v] /\
    forall C2 c2, c_skip c2 = c_skip c ->
    ev g c2 rq (dst_cell (length C2) t) p x (SW (q_s w) (C2 ++ [i]) (q_t w)) r (SW s (C2 ++ [v]) tr).
Proof.
  intros Hu H. pose proof (ev_len _ _ _ _ _ _ _ _ _ _ H) as HL. cbn [q_c with_c] in HL.
  assert (dst_cell (length (q_c w)) t = rel (length (q_c w)) (dst_cell 0 t)) as E0 by (destruct t; cbn; rewrite ?Nat.add_0_r; auto).
  assert (forall C2 : list val, rel (length C2) (dst_cell 0 t) = dst_cell (length C2) t) as E2 by (intros; destruct t; cbn; rewrite ?Nat.add_0_r; auto).
  destruct (ev_framed env (q_c w) (q_c w) _ _ _ _ _ _ _ _ _ H (dst_cell 0 t) [i] c E0 eq_refl) as (B & EB & _).
  { split; auto. }
  cbn in EB. subst cs. rewrite !app_length in HL. destruct B as [|v [|]]; cbn in HL; try lia. exists v. split; auto.
  intros C2 c2 Hc. destruct (ev_framed env (q_c w) C2 _ _ _ _ _ _ _ _ _ H (dst_cell 0 t) [i] c2 E0 eq_refl) as (B & EB & HB).
  { split; auto. }
  cbn in EB. apply app_inv_head in EB. subst B. rewrite E2 in HB. exact HB.
Qed.

(** Runs into nothing leave the memory alone. *)
Lemma nil_cell g c rq p x w r w' : unbound p = true -> ev g c rq DNil p x w r w' ->
  q_c w' = q_c w /\ forall C2, ev g c rq DNil p x (with_c C2 w) r (with_c C2 w').
Proof.
  intros Hu H. pose proof (ev_len _ _ _ _ _ _ _ _ _ _ H) as HL.
  assert (forall C2, exists B', q_c w' = q_c w ++ B' /\ ev g c rq DNil p x (with_c (C2 ++ []) w) r (with_c (C2 ++ B') w')) as HF.
  { intros C2. apply (ev_framed env (q_c w) C2 _ _ _ _ _ _ _ _ _ H DNil [] c eq_refl); [now rewrite app_nil_r|]. split; auto. }
  destruct (HF []) as (B & EB & _). rewrite EB, app_length in HL. destruct B; cbn in HL; [|lia]. rewrite app_nil_r in EB. split; auto.
  intros C2. destruct (HF C2) as (B & EB' & HB). rewrite EB in EB'. rewrite <- (app_nil_r (q_c w)) in EB' at 1.
  apply app_inv_head in EB'. subst B. now rewrite app_nil_r in HB.
Qed.

Lemma un_un rq : unatomic_req (unclean_req rq) = unclean_req (unatomic_req rq). Proof. reflexivity. Qed.
Lemma wc_un rq p : wants_clean (unatomic_req rq) p = wants_clean rq p. Proof. reflexivity. Qed.
Lemma wa_un rq p : wants_atomic (unatomic_req rq) p = false. Proof. reflexivity. Qed.

(** From the parser itself to the parser with its adapters. *)
Lemma adapters p : 
  (forall c rq d x w r w', r_atomic rq = true -> r_recur rq = false -> okd d ->
     (ev GAtm c rq d p x w r w' <-> buffered GAtm c rq d p x w r w')) ->
  forall c rq d x w r w', r_atomic rq = true -> r_recur rq = false -> okd d ->
  (ev GRun c rq d p x w r w' <-> buffered GRun c rq d p x w r w').
Proof.
  intros HA c rq d x w r w' Ha Hr Hd. unfold buffered in *.
  assert (r_recur (unatomic_req rq) = false) as Hr2 by reflexivity.
  split.
  - intros H. apply run_cln in H; auto. destruct H as (s & Hs & H). apply cln_atm in H.
    assert (exists w1, ev GAtm c (if wants_clean rq p then unclean_req rq else rq) d p x (at_ s w) r w1 /\
            w' = if wants_clean rq p then (if r then w1 else at_ x w1) else w1) as (w1 & H1 & Ew).
    { destruct (wants_clean rq p); eauto. } clear H.
    apply HA in H1; auto; try (destruct (wants_clean rq p); auto; fail). destruct H1 as (v & H1 & Hv). exists v. split.
    + apply run_cln; auto. exists s. split; auto. apply cln_atm. rewrite wc_un.
      destruct (wants_clean rq p).
      * eexists. split; [exact H1|]. subst w'. destruct r; reflexivity.
      * subst w'. exact H1.
    + subst w'. destruct (wants_clean rq p), r; cbn in *; auto.
  - intros (v & H & Hv). apply run_cln in H; auto. destruct H as (s & Hs & H). apply cln_atm in H. rewrite wc_un in H.
    apply run_cln; auto. exists s. split; auto. apply cln_atm. destruct (wants_clean rq p).
    + destruct H as ([s1 cs1 t1] & H & E). assert (cs1 = q_c w ++ [v] /\ t1 = q_t w') as [-> ->] by (destruct r; injection E; auto).
      exists (SW s1 (q_c w') (q_t w')). split.
      * apply HA; auto. exists v. split; [exact H|]. destruct r; auto.
      * destruct w', r; cbn in *; injection E as ->; auto.
    + apply HA; auto. exists v. auto.
Qed.

Lemma atomic_own p c rq d x w r w' : unbound p = true -> wants_atomic rq p = true ->
  (ev GAtm c rq d p x w r w' <-> buffered GAtm c rq d p x w r w').
Proof.
  intros Hu Hw. unfold buffered. split.
  - intros H. apply atm_raw in H. rewrite Hw in H. destruct H as (s & cs & v & tr & H & HL & Hr).
    destruct (own_cell _ _ _ _ _ _ _ _ _ _ _ _ Hu H) as (v' & E & _). apply app_inj_tail in E. destruct E as [-> ->].
    exists v'. destruct r.
    + destruct Hr as (cs' & Ha & ->). split; auto. apply atm_raw. rewrite wa_un. exact H.
    + subst. split; auto. apply atm_raw. rewrite wa_un. exact H.
  - intros (v & H & Hv). apply atm_raw in H. rewrite wa_un in H. apply atm_raw. rewrite Hw.
    exists (q_s w'), (q_c w), v, (q_t w'). split; auto. split; auto. destruct r.
    + exists (q_c w'). split; auto. now destruct w'.
    + rewrite <- Hv. now destruct w'.
Qed.

Lemma atomic_raw p : f_atomic p = true ->
  (forall c rq d x w r w', r_atomic rq = true -> r_recur rq = false -> okd d ->
     (ev GRaw c rq d p x w r w' <-> buffered GRaw c rq d p x w r w')) ->
  (forall c rq d x w r w', r_atomic rq = true -> r_recur rq = false -> okd d ->
     (ev GAtm c rq d p x w r w' <-> buffered GAtm c rq d p x w r w')).
Proof.
  intros Hf HR c rq d x w r w' Ha Hr Hd. unfold buffered in *.
  rewrite atm_raw. unfold wants_atomic at 1. rewrite Hf, andb_false_r.
  rewrite HR by auto. split; intros (v & H & Hv); exists v; (split; [|exact Hv]).
  - apply atm_raw. now rewrite wa_un.
  - apply atm_raw in H. now rewrite wa_un in H.
Qed.

(** The buffer may hold anything if the pattern fills it. *)
Lemma any_buffer g c rq t p x w r s v i i2 tr C : scalar t = true -> plain p = true -> C = q_c w ->
  ev g c rq (dst_cell (length C) t) p x (with_c (C ++ [i]) w) r (SW s (C ++ [v]) tr) ->
  exists v2, ev g c rq (dst_cell (length C) t) p x (with_c (C ++ [i2]) w) r (SW s (C ++ [v2]) tr) /\
    (r = true -> fillg R g rq p = true -> v2 = v).
Proof.
  intros Ht Hp -> H. set (C := q_c w) in *. destruct (ev_good env Hplain R Hfills _ _ _ _ _ _ _ _ _ H (length C) i2) as (c2 & A & B & D).
  - cbn. rewrite app_length. cbn. lia.
  - right. exists t. split; auto. destruct t; try discriminate; reflexivity.
  - exact Hp.
  - cbn [q_c with_c] in *. rewrite upd_last in A. destruct B as [-> | ->].
    + exists v. split; auto.
    + rewrite upd_last in *. exists i2. split; [exact A|].
      intros -> Hg. assert (hole (dst_cell (length C) t) (length C)) as HH by (destruct t; try discriminate; reflexivity).
      specialize (D eq_refl HH Hg). apply app_inv_head in D. congruence.
Qed.

Lemma store_direct d C i z c' : okd d -> coll e = false ->
  (assign C d z = Done c' <->
   exists v, assign (C ++ [i]) (dst_cell (length C) (dst_value_ty d)) z = Done (C ++ [v]) /\ assign C d v = Done c').
Proof. intros [Hd <-] Hc. now apply assign_twice. Qed.

Definition AT (p : pat) : Prop := forall c rq d x w r w', r_atomic rq = true -> r_recur rq = false -> okd d ->
  (ev GRun c rq d p x w r w' <-> buffered GRun c rq d p x w r w').

Lemma AT_own p : unbound p = true -> f_atomic p = false -> AT p.
Proof.
  intros Hu Hf c rq d x w r w' Ha Hr Hd. apply adapters; auto. intros. apply atomic_own; auto.
  unfold wants_atomic. now rewrite H, Hf.
Qed.
Lemma AT_raw p : f_atomic p = true ->
  (forall c rq d x w r w', r_atomic rq = true -> r_recur rq = false -> okd d ->
     (ev GRaw c rq d p x w r w' <-> buffered GRaw c rq d p x w r w')) -> AT p.
Proof. intros Hf HR c rq d x w r w' Ha Hr Hd. apply adapters; auto. now apply atomic_raw. Qed.

Lemma AT_char cs : coll e = false -> AT (Char cs).
Proof.
  intros Hc. apply AT_raw; auto. intros c rq d x w r w' Ha Hr Hd. unfold buffered. split.
  - intros H. inversion H; subst; cbn [q_c q_s q_t with_c] in *.
    + match goal with H : assign ?ce d _ = _ |- _ => apply (store_direct d ce (default_init (dst_value_ty d))) in H; auto; destruct H as (v & K1 & K2) end.
      exists v. split; auto. now apply ev_char_ok.
    + exists (default_init (dst_value_ty d)). split; auto. now apply ev_char_ko.
  - intros (v & H & Hv). destruct w as [s0 c0 t0], w' as [s1 c1 t1]. cbn [q_c q_s q_t with_c] in *.
    inversion H; subst; cbn [q_c q_s q_t with_c] in *.
    + apply ev_char_ok; auto. apply (store_direct d c0 (default_init (dst_value_ty d))); auto. eauto.
    + rewrite Hv. now apply ev_char_ko.
Qed.

Lemma AT_csym m : coll e = false -> AT (CharSymbol m).
Proof.
  intros Hc. apply AT_raw; auto. intros c rq d x w r w' Ha Hr Hd. unfold buffered. split.
  - intros H. inversion H; subst; cbn [q_c q_s q_t with_c] in *.
    + match goal with H : assign ?ce d _ = _ |- _ => apply (store_direct d ce (default_init (dst_value_ty d))) in H; auto; destruct H as (z & K1 & K2) end.
      exists z. split; auto. eapply ev_csym_ok; eauto.
    + exists (default_init (dst_value_ty d)). split; auto. now apply ev_csym_ko.
  - intros (v & H & Hv). destruct w as [s0 c0 t0], w' as [s1 c1 t1]. cbn [q_c q_s q_t with_c] in *.
    inversion H; subst; cbn [q_c q_s q_t with_c] in *.
    + eapply ev_csym_ok; eauto. apply (store_direct d c0 (default_init (dst_value_ty d))); auto. eauto.
    + rewrite Hv. now apply ev_csym_ko.
Qed.

Lemma AT_sym m : coll e = false -> AT (Symbol m).
Proof.
  intros Hc. apply AT_raw; auto. intros c rq d x w r w' Ha Hr Hd. unfold buffered.
  destruct w as [s0 c0 t0]. cbn [q_c q_s q_t with_c]. split.
  - intros H. inversion H; subst; cbn [q_c q_s q_t with_c] in *.
    match goal with H : sym_run _ _ _ _ _ _ = _ |- _ => rewrite sym_pick in H; rename H into HS end. unfold put in HS.
    destruct (pick _ _ _ _) as [[o s']|] eqn:EP; cbn [obind] in HS; [|discriminate].
    destruct o as [z|].
    + destruct (assign c0 d z) as [c1|] eqn:EA; cbn [obind] in HS; [|discriminate]. injection HS as <- <- <-.
      apply (store_direct d c0 (default_init (dst_value_ty d))) in EA; auto. destruct EA as (v & K1 & K2). exists v. split; auto.
      eapply (ev_sym env _ _ _ _ _ (SW s0 (c0 ++ [default_init (dst_value_ty d)]) t0)); eauto. cbn [q_c q_s]. rewrite sym_pick, EP. unfold put. cbn [obind]. rewrite K1. reflexivity.
    + injection HS as <- <- <-. exists (default_init (dst_value_ty d)). split; auto.
      eapply (ev_sym env _ _ _ _ _ (SW s0 (c0 ++ [default_init (dst_value_ty d)]) t0)); eauto. cbn [q_c q_s]. rewrite sym_pick, EP. reflexivity.
  - intros (v & H & Hv). destruct w' as [s1 c1 t1]. cbn [q_c q_s q_t with_c] in *. inversion H; subst; cbn [q_c q_s q_t with_c] in *.
    match goal with H : sym_run _ _ _ _ _ _ = _ |- _ => rewrite sym_pick in H; rename H into HS end. unfold put in HS.
    destruct (pick _ _ _ _) as [[o s']|] eqn:EP; cbn [obind] in HS; [|discriminate].
    destruct o as [z|].
    + destruct (assign _ _ z) as [c3|] eqn:EA; cbn [obind] in HS; [|discriminate]. injection HS as <- <- ->.
      assert (assign c0 d z = Done c1) as EB by (apply (store_direct d c0 (default_init (dst_value_ty d))); auto; eauto).
      apply (ev_sym env _ _ _ _ _ (SW s0 c0 t1)). cbn [q_c q_s]. rewrite sym_pick, EP. unfold put. cbn [obind]. rewrite EB. reflexivity.
    + injection HS as <- <- E. subst c1. apply (ev_sym env _ _ _ _ _ (SW s0 c0 t1)). cbn [q_c q_s]. rewrite sym_pick, EP. reflexivity.
Qed.


(** Children that are asked for the same. *)
Lemma AT_lexeme q : AT q -> AT (Lexeme q).
Proof.
  intros HQ. apply AT_raw; auto. intros c rq d x w r w' Ha Hr Hd. unfold buffered. split.
  - intros H. inversion H; subst. match goal with H : ev GRun _ _ _ _ _ _ _ _ |- _ => apply HQ in H; auto; destruct H as (v & K1 & K2) end.
    exists v. split; auto. now apply ev_lexeme.
  - intros (v & H & Hv). inversion H; subst. apply ev_lexeme. apply HQ; auto. exists v. auto.
Qed.
Lemma AT_skipper q s : f_atomic q = true -> AT q -> AT (WithSkipper q s).
Proof.
  intros Hf HQ. apply AT_raw; auto. intros c rq d x w r w' Ha Hr Hd. unfold buffered. split.
  - intros H. inversion H; subst. match goal with H : ev GRun _ _ _ _ _ _ _ _ |- _ => apply HQ in H; auto; destruct H as (v & K1 & K2) end.
    exists v. split; auto. now apply ev_skipper.
  - intros (v & H & Hv). inversion H; subst. apply ev_skipper. apply HQ; auto. exists v. auto.
Qed.

Lemma AT_except q neg : unbound neg = true -> unbound q = true -> AT q -> AT (Except q neg).
Proof.
  intros Hn Hq HQ. apply AT_raw; auto. intros c rq d x w r w' Ha Hr Hd. unfold buffered. split.
  - intros H. inversion H; subst.
    + match goal with H : ev GRun _ _ _ _ _ _ _ _ |- _ => destruct (nil_cell _ _ _ _ _ _ _ _ Hn H) as [E1 E2] end.
      exists (default_init (dst_value_ty d)). split; auto.
      apply ev_exc_hit. exact (E2 (q_c w ++ [default_init (dst_value_ty d)])).
    + match goal with H : ev GRun _ neg_req _ _ _ _ _ _ |- _ => destruct (nil_cell _ _ _ _ _ _ _ _ Hn H) as [E1 E2] end.
      match goal with H : ev GRun _ (except_req _) _ _ _ _ _ _ |- _ => apply HQ in H; auto; destruct H as (v & K1 & K2) end.
      rewrite E1 in *. exists v. split; auto. eapply ev_exc_go; [exact (E2 (q_c w ++ [default_init (dst_value_ty d)]))|]. exact K1.
  - intros (v & H & Hv). inversion H; subst.
    + match goal with H : ev GRun _ _ _ _ _ _ _ _ |- _ => destruct (nil_cell _ _ _ _ _ _ _ _ Hn H) as [E1 E2] end.
      apply ev_exc_hit. specialize (E2 (q_c w)). destruct w, w'. cbn in *. subst. exact E2.
    + match goal with H : ev GRun _ neg_req _ _ _ _ _ _ |- _ => destruct (nil_cell _ _ _ _ _ _ _ _ Hn H) as [E1 E2] end.
      cbn [q_c with_c] in E1. eapply ev_exc_go.
      * specialize (E2 (q_c w)). replace (with_c (q_c w) (with_c (q_c w ++ [default_init (dst_value_ty d)]) w)) with w in E2 by (now destruct w). exact E2.
      * apply HQ; auto. exists v. destruct w1 as [s1 c1 t1]. cbn [q_c q_s q_t with_c] in *. subst c1. split; auto.
Qed.

Lemma AT_act a q : unbound q = true -> ac_param a = false -> ac_void a = false -> coll e = false -> AT (Act a q).
Proof.
  intros Hq Hpa Hv Hc. apply AT_raw; auto. intros c rq d x w r w' Ha Hr Hd. unfold buffered.
  assert (forall v s C tr (w1 : sw) D, act_run a v D c (SW s C tr) = Done w1 <->
    exists z y b, conv (ac_land a) v = Done z /\ ac_fun a z VNil = (y, b) /\
      exists C', assign C D y = Done C' /\ w1 = SW s C' (Event (ac_id a) z :: tr)) as HR.
  { intros v s C tr w1 D. unfold act_run, act_dispatch. rewrite Hpa, Hv. destruct (conv (ac_land a) v) as [z|].
    - destruct (ac_fun a z VNil) as [y b] eqn:EF. unfold m_assign, on_cells. cbn [w_cells w_src w_trace q_s q_c q_t].
      destruct (assign C D y) as [C'|] eqn:EA.
      + split; [intros [= <-]; exists z, y, b; eauto|]. intros (z' & y' & b' & [= <-] & E2 & C2 & E3 & ->).
        rewrite EF in E2. injection E2 as <- <-. rewrite EA in E3. injection E3 as <-. reflexivity.
      + split; [discriminate|]. intros (z' & y' & b' & [= <-] & E2 & C2 & E3 & ->).
        rewrite EF in E2. injection E2 as <- <-. congruence.
    - split; [discriminate|]. intros (z' & y' & b' & E & _). discriminate. }
  split.
  - intros H. inversion H; subst.
    + match goal with H : ev GRun _ _ _ _ _ _ _ _ |- _ => rename H into HE end.
      destruct (own_cell _ _ _ _ _ _ _ _ _ _ _ _ Hq HE) as (v' & E & HX). apply app_inj_tail in E. destruct E as [-> ->].
      match goal with H : act_run _ _ _ _ _ = _ |- _ => apply HR in H; destruct H as (z & y & b & E1 & E2 & C' & E3 & ->) end.
      apply (store_direct d (q_c w) (default_init (dst_value_ty d))) in E3; auto. destruct E3 as (u & F1 & F2). exists u. split; auto. cbn [q_c q_s q_t].
      eapply (ev_act_ok env) with (cs := q_c w ++ [default_init (dst_value_ty d)]); [apply (HX _ c eq_refl)|auto|].
      apply HR. exists z, y, b. split; auto. split; auto. exists (q_c w ++ [u]). auto.
    + match goal with H : ev GRun _ _ _ _ _ _ _ _ |- _ => rename H into HE end.
      destruct (own_cell _ _ _ _ _ _ _ _ _ _ _ _ Hq HE) as (v' & E & HX). apply app_inj_tail in E. destruct E as [-> ->].
      exists (default_init (dst_value_ty d)). split; auto. cbn [q_c q_s q_t].
      eapply (ev_act_ko env) with (cs := q_c w ++ [default_init (dst_value_ty d)]); [apply (HX _ c eq_refl)|auto].
  - intros (u & H & Hu). inversion H; subst.
    + match goal with H : ev GRun _ _ _ _ _ _ _ _ |- _ => rename H into HE end.
      destruct (own_cell _ _ _ _ _ _ _ _ _ _ _ _ Hq HE) as (v' & E & HX). apply app_inj_tail in E. destruct E as [-> ->].
      match goal with H : act_run _ _ _ _ _ = _ |- _ => apply HR in H; destruct H as (z & y & b & E1 & E2 & C' & E3 & E5) end. injection E5 as EA EB EC. subst C'.
      cbn [q_c with_c] in E3. 
      assert (assign (q_c w) d y = Done (q_c w')) as F by (apply (store_direct d (q_c w) (default_init (dst_value_ty d))); auto; exists u; auto).
      eapply (ev_act_ok env) with (cs := q_c w); [specialize (HX (q_c w) c eq_refl); destruct w; exact HX|auto|].
      apply HR. exists z, y, b. split; auto. split; auto. exists (q_c w'). split; auto. rewrite <- EA, <- EC. now destruct w'.
    + match goal with H : ev GRun _ _ _ _ _ _ _ _ |- _ => rename H into HE end.
      destruct (own_cell _ _ _ _ _ _ _ _ _ _ _ _ Hq HE) as (v' & E & HX). apply app_inj_tail in E. destruct E as [_ ->].
      replace w' with (SW (q_s w') (q_c w) (q_t w')) by (rewrite <- Hu; now destruct w').
      eapply (ev_act_ko env) with (cs := q_c w); [specialize (HX (q_c w) c eq_refl); destruct w; exact HX|auto].
Qed.

(** Alternatives: every alternative has a buffer of its own in one case, they share one in
    the other; what the ones that fail leave there is overwritten. *)
Lemma AT_alt l : scalar e = true -> forallb unbound l = true -> forallb (fills R) l = true -> forallb plain l = true ->
  (forall q, In q l -> AT q) -> AT (Alt l).
Proof.
  intros Hsc Hu Hf Hp HQ. apply AT_raw; auto. intros c rq d x w r w' Ha Hr Hd.
  rewrite forallb_forall in Hu, Hf, Hp. destruct Hd as [Hd1 Hd2]. unfold buffered. rewrite Hd2.
  assert (forall i q, nth_error l i = Some q -> AT q /\ unbound q = true /\ plain q = true /\ fills R q = true) as HN.
  { intros i q E. apply nth_error_In in E. auto. }
  assert (forall i c rq x w r w', ev (GAlt i) c rq d (Alt l) x w r w' -> r_atomic rq = true -> forall u,
    exists v, ev (GAlt i) c (unatomic_req rq) (dst_cell (length (q_c w)) e) (Alt l) x (with_c (q_c w ++ [u]) w) r
                 (SW (q_s w') (q_c w ++ [v]) (q_t w')) /\
      if r then assign (q_c w) d v = Done (q_c w') else q_c w' = q_c w) as HF.
  { clear c rq x w r w' Ha Hr. intros i c rq x w r w' H. remember (GAlt i) as g eqn:Eg. remember (Alt l) as p eqn:Ep. remember d as d' eqn:Ed.
    revert i Eg. induction H; intros j Eg Ha u; try discriminate Eg; injection Ep as ->; injection Eg as ->; subst d0.
    - destruct (HN _ _ H) as (HA & HU & HP & HFI). apply HA in H0; auto; [|split; auto]. destruct H0 as (v & K & Kv). rewrite Hd2 in K.
      destruct (any_buffer _ _ _ _ _ _ _ _ _ _ _ u _ (q_c w) Hsc HP eq_refl K) as (v2 & K2 & Ev).
      rewrite Ev in K2 by (auto; cbn; now rewrite HFI). exists v. split; auto. eapply ev_alt_ok; eauto.
    - destruct (HN _ _ H) as (HA & HU & HP & HFI). apply HA in H1; auto; [|split; auto]. destruct H1 as (v & K & Kv). rewrite Hd2 in K.
      destruct (any_buffer _ _ _ _ _ _ _ _ _ _ _ u _ (q_c w) Hsc HP eq_refl K) as (v2 & K2 & Ev).
      exists v2. split; auto. eapply ev_alt_ko; eauto.
    - destruct (HN _ _ H) as (HA & HU & HP & HFI). apply HA in H1; auto; [|split; auto]. destruct H1 as (v & K & Kv). rewrite Hd2 in K.
      destruct (any_buffer _ _ _ _ _ _ _ _ _ _ _ u _ (q_c w) Hsc HP eq_refl K) as (v2 & K2 & Ev).
      destruct (IHev2 eq_refl Hd1 Hd2 eq_refl (S j) eq_refl Ha v2) as (v3 & K3 & Kv3). rewrite Kv in *. exists v3. split; auto.
      eapply ev_alt_next; eauto. }
  assert (forall i c rq x ws r ws', ev (GAlt i) c (unatomic_req rq) (dst_cell (length (q_c w)) e) (Alt l) x ws r ws' ->
    forall w0 u v w', length (q_c w0) = length (q_c w) -> ws = with_c (q_c w0 ++ [u]) w0 -> ws' = SW (q_s w') (q_c w0 ++ [v]) (q_t w') ->
    r_atomic rq = true ->
    (if r then assign (q_c w0) d v = Done (q_c w') else q_c w' = q_c w0) ->
    ev (GAlt i) c rq d (Alt l) x w0 r w') as HB.
  { clear c rq x r w' Ha Hr. intros i c rq x ws r ws' H. remember (GAlt i) as g eqn:Eg. remember (Alt l) as p eqn:Ep.
    remember (unatomic_req rq) as rq2 eqn:Er. remember (dst_cell (length (q_c w)) e) as dd eqn:Edd.
    revert i Eg. induction H; intros j Eg wz uz vz ww HL Ew Ew' Ha Hv; try discriminate Eg; injection Ep as ->; injection Eg as ->; subst.
    - destruct (HN _ _ H) as (HA & HU & HP & HFI). rewrite <- HL in H0.
      destruct (any_buffer _ _ _ _ _ _ _ _ _ _ _ (default_init e) _ (q_c wz) Hsc HP eq_refl H0) as (v2 & K2 & Ev).
      rewrite Ev in K2 by (auto; cbn; now rewrite HFI). eapply ev_alt_ok; eauto. apply HA; auto; [split; auto|]. exists vz. rewrite Hd2. split; auto.
    - destruct (HN _ _ H) as (HA & HU & HP & HFI). rewrite <- HL in H1.
      destruct (any_buffer _ _ _ _ _ _ _ _ _ _ _ (default_init e) _ (q_c wz) Hsc HP eq_refl H1) as (v2 & K2 & Ev).
      eapply ev_alt_ko; eauto. apply HA; auto; [split; auto|]. exists v2. rewrite Hd2. split; auto.
    - destruct (HN _ _ H) as (HA & HU & HP & HFI). rewrite <- HL in H1. destruct w1 as [s1 c1 t1].
      destruct (own_cell _ _ _ _ _ _ _ _ _ _ _ _ HU H1) as (v1 & -> & _).
      destruct (any_buffer _ _ _ _ _ _ _ _ _ _ _ (default_init e) _ (q_c wz) Hsc HP eq_refl H1) as (v2 & K2 & Ev).
      eapply ev_alt_next; [exact H|exact H0| |].
      + apply HA with (w' := SW s1 (q_c wz) t1); auto; [split; auto|]. exists v2. rewrite Hd2. split; auto.
      + cbn [q_s]. eapply (IHev2 eq_refl HF eq_refl eq_refl (S j) eq_refl (SW s1 (q_c wz) t1) v1 vz); auto. }
  split.
  - intros H. inversion H; subst. match goal with H : ev (GAlt 0) _ _ _ _ _ _ _ _ |- _ => destruct (HF _ _ _ _ _ _ _ H Ha (default_init e)) as (v & K & Kv) end.
    exists v. split; auto. now apply ev_alt.
  - intros (v & H & Hv). inversion H; subst. apply ev_alt.
    match goal with H : ev (GAlt 0) _ _ _ _ _ _ _ _ |- _ => eapply (HB _ _ _ _ _ _ _ H); eauto end.
Qed.

Theorem atomically p : unbound p = true -> single R e p = true -> AT p.
Proof.
  induction p using pat_ind'; intros Hu Hs;
    match goal with |- AT ?p => destruct (f_atomic p) eqn:Hf; [|now apply AT_own] end;
    try discriminate Hf; cbn in Hs; try discriminate Hs; cbn in Hu.
  - apply AT_char. now apply negb_true_iff.
  - apply AT_csym. now apply negb_true_iff.
  - apply AT_sym. now apply negb_true_iff.
  - apply andb_prop in Hs. destruct Hs as [Hs H4]. apply andb_prop in Hs. destruct Hs as [Hs H3]. apply andb_prop in Hs. destruct Hs as [H1 H2].
    apply AT_alt; auto. rewrite Forall_forall in H. rewrite forallb_forall in H4, Hu. intros q Hq. apply H; auto.
  - apply AT_lexeme; auto.
  - cbn in Hf. rewrite Hf in Hs. apply AT_skipper; auto.
  - apply andb_prop in Hs. destruct Hs as [H1 H2]. apply andb_prop in Hu. destruct Hu as [H3 H4].
    apply AT_act; auto; now apply negb_true_iff.
  - apply andb_prop in Hu. destruct Hu as [H3 H4]. apply AT_except; auto.
Qed.
End Ev.
