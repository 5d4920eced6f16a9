(** Everything the machine does on a complete input is in the big-step relation. *)
From Coq Require Import List ZArith Bool Arith Lia.
From Verif Require Import Base CharSet Source Dst Pattern Parser Rel Safety Keep Limit Big BigMk BigLeaf.
Import ListNotations.

(** Constructors keep the number of cells. *)
Definition lenp (f : mk_ty) : Prop := forall cs a cs', f cs = Done (a, cs') -> length cs' = length cs.

Lemma lenp_ret a : lenp (mk_ret a).
Proof. intros cs b cs' [= _ <-]. reflexivity. Qed.
Lemma lenp_map k f : lenp f -> lenp (mk_map k f).
Proof.
  intros H cs a cs' E. unfold mk_map in E. destruct (f cs) as [[b c]|] eqn:F; [|discriminate].
  injection E as _ <-. eauto.
Qed.
Lemma lenp_cell v k f : (forall l, lenp (f l)) -> lenp (mk_cell v k f).
Proof.
  intros H cs a cs' E. unfold mk_cell in E. destruct (f (length cs) (cs ++ [v])) as [[b c]|] eqn:F; [|discriminate].
  destruct (nth_error c (length cs)); [|discriminate]. injection E as _ <-.
  apply H in F. rewrite app_length in F. cbn in F. rewrite firstn_length. lia.
Qed.
Lemma lenp_adapt sk rq d p raw : (forall rq d, lenp (raw rq d)) -> lenp (mk_adapt sk rq d p raw).
Proof.
  intros H. unfold mk_adapt. destruct (r_recur rq); auto.
  assert (forall rq, lenp (mk_atm_of rq d p raw)) as HA.
  { intros rq'. unfold mk_atm_of. destruct (wants_atomic rq' p); auto. apply lenp_cell. auto. }
  assert (lenp (mk_cln_of rq d p raw)) as HC.
  { unfold mk_cln_of. destruct (wants_clean rq p); auto. apply lenp_map. auto. }
  destruct sk; auto. now apply lenp_map.
Qed.
Lemma lenp_zero d a : lenp (fun cs => match num_zero cs d with Done c => Done (a, c) | Err e => Err e end).
Proof.
  intros cs b cs' E. destruct (num_zero cs d) eqn:F; [|discriminate]. injection E as _ <-.
  now apply num_zero_length in F.
Qed.
Lemma lenp_err e : lenp (fun _ => Err e).
Proof. intros cs a cs' E. discriminate. Qed.

Lemma lenp_in p : forall sk rq d, lenp (mk_in sk rq d p).
Proof.
  induction p using pat_ind'; intros sk rq d; cbn [mk_in]; apply lenp_adapt; intros rq' d';
    auto using lenp_ret, lenp_map, lenp_cell, lenp_zero.
  - intros cs a cs' E. destruct (r_consumes rq'); [discriminate|]. injection E as _ <-. reflexivity.
  - destruct l as [|q l]; [apply lenp_err|]. destruct (seq_dst _ _ _); [|apply lenp_err].
    inversion H; subst. apply lenp_map; auto.
  - destruct l as [|q l]; [apply lenp_err|]. inversion H; subst. apply lenp_map; auto.
  - intros cs a cs' E. destruct (r_consumes rq' && (lo =? 0)); [discriminate|].
    eapply lenp_map; eauto.
Qed.

Lemma lenp_raw p sk rq d : lenp (mk_raw sk rq d p).
Proof.
  destruct p; cbn [mk_raw]; auto using lenp_ret, lenp_map, lenp_cell, lenp_zero, lenp_in.
  - intros cs a cs' E. destruct (r_consumes rq); [discriminate|]. injection E as _ <-. reflexivity.
  - destruct l as [|q l]; [apply lenp_err|]. destruct (seq_dst _ _ _); [|apply lenp_err].
    apply lenp_map, lenp_in.
  - destruct l as [|q l]; [apply lenp_err|]. apply lenp_map, lenp_in.
  - intros cs a cs' E. destruct (r_consumes rq && (rmin =? 0)); [discriminate|].
    eapply lenp_map; eauto. apply lenp_in.
Qed.

Lemma split_last {A} (l : list A) n x :
  length l = S n -> nth_error l n = Some x -> l = firstn n l ++ [x].
Proof.
  revert l. induction n as [|n IH]; intros [|a l]; cbn; try discriminate; intros H Hn.
  - injection Hn as ->. destruct l; [reflexivity|discriminate].
  - f_equal. apply IH; auto.
Qed.

Lemma mk_cell_inv v k f cs st cs1 :
  (forall l, lenp (f l)) -> mk_cell v k f cs = Done (st, cs1) ->
  exists a v1, st = k v1 a /\ f (length cs) (cs ++ [v]) = Done (a, cs1 ++ [v1]) /\ length cs1 = length cs.
Proof.
  intros H E. unfold mk_cell in E. destruct (f (length cs) (cs ++ [v])) as [[b c]|] eqn:F; [|discriminate].
  destruct (nth_error c (length cs)) as [v1|] eqn:N; [|discriminate]. injection E as <- <-.
  pose proof (H _ _ _ _ F) as L. rewrite app_length in L. cbn in L.
  exists b, v1. split; [reflexivity|]. split.
  - rewrite <- (split_last c (length cs) v1); auto. lia.
  - rewrite firstn_length. lia.
Qed.

Lemma mk_map_inv k f cs st cs1 :
  mk_map k f cs = Done (st, cs1) -> exists a, st = k a /\ f cs = Done (a, cs1).
Proof.
  unfold mk_map. destruct (f cs) as [[b c]|]; [|discriminate]. intros [= <- <-]. eauto.
Qed.

Lemma bind_inv {S A B} (m : M S A) (f : A -> M S B) w y :
  bind m f w = Done y -> exists a w1, m w = Done (a, w1) /\ f a w1 = Done y.
Proof. unfold bind. destruct (m w) as [[a w1]|]; [|discriminate]. eauto. Qed.

Lemma repeat_mid {A} (x : A) n l : x :: repeat x n ++ l = repeat x n ++ x :: l.
Proof. induction n; cbn; auto. now rewrite IHn at 1. Qed.

Lemma skipn_nth {A} (l : list A) j y ys : skipn j l = y :: ys -> nth_error l j = Some y.
Proof.
  revert l. induction j as [|j IHj]; intros [|a l] E; try discriminate.
  - now injection E as -> _.
  - cbn in *. eauto.
Qed.

(** Layers of the constructors. *)
Definition mk_atm c rq d p := mk_atm_of rq d p (fun rq d => mk_raw (sk_of (c_skip c)) rq d p).
Definition mk_cln c rq d p := mk_cln_of rq d p (fun rq d => mk_raw (sk_of (c_skip c)) rq d p).

Definition mkg (g : stage) (c : ctx) (rq : req) (d : dst) (p : pat) : mk_ty :=
  match g with
  | GRun => mk c rq d p
  | GSkip => mk_map (PSkip false (skip_st (c_skip c))) (mk_cln c rq d p)
  | GCln => mk_cln c rq d p
  | GAtm => mk_atm c rq d p
  | GRaw => mk_raw (sk_of (c_skip c)) rq d p
  | GSeq i =>
    match p with
    | Seq l => match nth_error l i, seq_dst l i d with
               | Some q, Done di => mk_map (PNary i) (mk c seq_req di q)
               | _, _ => fun _ => Err EType
               end
    | _ => fun _ => Err EType
    end
  | GAlt i =>
    match p with
    | Alt l => match nth_error l i with
               | Some q => mk_map (PNary i) (mk c (alt_req rq) d q)
               | _ => fun _ => Err EType
               end
    | _ => fun _ => Err EType
    end
  | GRep n =>
    match p with
    | Repeat lo hi q => mk_map (PRepeat n) (mk c (repeat_req lo hi rq) d q)
    | _ => fun _ => Err EType
    end
  | GElem _ =>
    match p with PList q _ => mk_map (PListSt 0) (mk c list_req d q) | _ => fun _ => Err EType end
  | GSep _ =>
    match p with PList _ s => mk_map (PListSt 1) (mk c sep_req DNil s) | _ => fun _ => Err EType end
  end.

Definition gstk (g : stage) (x : list Z) (st : pst) (base : list (list Z)) : list (list Z) :=
  match g, st with
  | GElem m, PListSt _ a | GSep m, PListSt _ a => repeat x (owed a) ++ m :: base
  | _, _ => repeat x (owed st) ++ base
  end.

(** [mok] of the parser itself. *)
Definition mokr (h : bool) (rq : req) (p : pat) : bool :=
  match p with
  | Seq l => forallb (mok h seq_req) l
  | Alt l => forallb (mok h (alt_req rq)) l
  | Repeat lo hi q => mok h (repeat_req lo hi rq) q
  | Not q => mok true (not_req rq) q
  | Opt q => negb h && mok true (opt_req rq) q
  | Discard q | Lexeme q => mok h rq q
  | WithSkipper q s => (is_fail s || sfree s) && mok h rq q
  | BindDst q | Construct _ q => mok h (unatomic_req rq) q
  | Act _ q => mok h (action_req rq) q
  | Except q neg => mok h neg_req neg && mok h (except_req rq) q
  | PList q sep => mok true list_req q && mok true sep_req sep
  | _ => true
  end.

Lemma mok_eq h rq p :
  mok h rq p = mokr (h || (negb (r_recur rq) && wants_clean rq p)) (raw_req rq p) p.
Proof. destruct p; reflexivity. Qed.

Definition atm_req (rq : req) (p : pat) : req := if wants_atomic rq p then unatomic_req rq else rq.

Definition gok (h : bool) (g : stage) (rq : req) (p : pat) : bool :=
  match g with
  | GRun => mok h rq p
  | GSkip | GCln => negb (r_recur rq) && mok h rq p
  | GAtm => mokr h (atm_req rq p) p
  | _ => mokr h rq p
  end.

Lemma mokr_skips h rq p : mokr h rq p = true -> skips_ok p = true.
Proof.
  destruct p; cbn [mokr skips_ok]; auto; intros H.
  1-2: rewrite forallb_forall in *; eauto using mok_skips.
  all: repeat match goal with H : _ && _ = true |- _ => apply andb_prop in H; destruct H end.
  all: repeat match goal with |- _ && _ = true => apply andb_true_intro; split end; eauto using mok_skips.
Qed.

Section Sound.
Context (env : nat -> option pat).
Hypothesis Henv : forall id q, env id = Some q -> mok true recur_req q = true.
Notation consume := (consume sf_ops env).
Notation ev := (ev env).

Definition gconsume (n : nat) (g : stage) c rq d p st : M sfwd (result * pst) :=
  match g with
  | GSeq i =>
    match p, st, n with
    | Seq l, PNary _ a, S m => match skipn i l with
                               | q :: rest => seq_from sf_ops (consume m) c d l i q rest a
                               | [] => raise EShape
                               end
    | _, _, _ => raise EFuel
    end
  | GAlt i =>
    match p, st, n with
    | Alt l, PNary _ a, S m => match skipn i l with
                               | q :: rest => alt_from sf_ops (consume m) c rq d i q rest a
                               | [] => raise EShape
                               end
    | _, _, _ => raise EFuel
    end
  | _ => consume n c rq d p st
  end.

Definition Concl h g c rq d p x cs0 base s tr r (w' : world sfwd) : Prop :=
  exists b s' cs' tr' lk,
    r = res b /\ w' = W s' (lk ++ base) cs' tr' /\ (h = true -> lk = []) /\
    ev g c rq d p x (SW s cs0 tr) b (SW s' cs' tr').

Definition Snd (n : nat) (g : stage) : Prop :=
  forall h c rq d p st x cs0 cs1 base s tr r st' w',
    cok c = true -> gok h g rq p = true ->
    mkg g c rq d p cs0 = Done (st, cs1) ->
    gconsume n g c rq d p st (W s (gstk g x st base) cs1 tr) = Done ((r, st'), w') ->
    Concl h g c rq d p x cs0 base s tr r w'.

Lemma cells_kept n c rq d p st w r st' w' :
  consume n c rq d p st w = Done ((r, st'), w') -> length (w_cells w') = length (w_cells w).
Proof.
  intros H. eapply (keeps_consume sf_ops (fun _ _ => True)) in H; auto. tauto.
Qed.

(** Running with a buffer. *)
Lemma cell_inv n c rq t p a v1 s stk cs1 tr r a' v' w' :
  with_cell v1 (fun lvl => consume n c rq (dst_cell lvl t) p a) (W s stk cs1 tr) = Done (((r, a'), v'), w') ->
  exists src cs' tr', w' = World src cs' tr' /\ length cs' = length cs1 /\
    consume n c rq (dst_cell (length cs1) t) p a (W s stk (cs1 ++ [v1]) tr)
      = Done ((r, a'), World src (cs' ++ [v']) tr').
Proof.
  unfold with_cell. cbn [w_cells w_src w_trace].
  destruct (consume n c rq _ p a _) as [[[r0 a0] [src cc tt]]|] eqn:E; [|discriminate].
  cbn [w_cells w_src w_trace]. destruct (nth_error cc (length cs1)) eqn:N; [|discriminate].
  intros [= -> -> -> <-]. apply cells_kept in E as L. cbn in L. rewrite app_length in L. cbn in L.
  exists src, (firstn (length cs1) cc), tt. split; [reflexivity|]. split.
  - rewrite firstn_length. lia.
  - rewrite <- (split_last cc (length cs1) v'); auto. lia.
Qed.

Lemma create_inv c rq d p s stk cs tr a w :
  cok c = true -> skips_ok p = true ->
  create sf_ops c rq d p (W s stk cs tr) = Done (a, w) ->
  exists cs1, mk c rq d p cs = Done (a, cs1) /\ w = W s (repeat s (owed a) ++ stk) cs1 tr.
Proof.
  intros Hc Hp. rewrite create_mk by auto. destruct (mk c rq d p cs) as [[a0 cs1]|]; [|discriminate].
  intros [= <- <-]. eauto.
Qed.

Ltac inv H := inversion H; subst; clear H.
Ltac bi H := let E := fresh "E" in let a := fresh "a" in let w := fresh "w" in
  apply bind_inv in H; destruct H as (a & w & E & H).

(** ** The parsers themselves *)
Section Step.
Context (n : nat).
Hypothesis IH : forall g m, m <= n -> Snd m g.

(** Running a child. *)
Lemma run_child h c rq d p a x cs0 cs1 base s tr r st' w' m : m <= n ->
  cok c = true -> mok h rq p = true -> mk c rq d p cs0 = Done (a, cs1) ->
  consume m c rq d p a (W s (repeat x (owed a) ++ base) cs1 tr) = Done ((r, st'), w') ->
  Concl h GRun c rq d p x cs0 base s tr r w'.
Proof. intros Hm Hc Hp Hk. apply (IH GRun m Hm h c rq d p a x cs0 cs1); auto. Qed.

(** Creating and running a child. *)
Lemma run_new h c rq d p a x base cs0 tr r st' w w' m : m <= n ->
  cok c = true -> mok h rq p = true ->
  create sf_ops c rq d p (W x base cs0 tr) = Done (a, w) ->
  consume m c rq d p a w = Done ((r, st'), w') ->
  Concl h GRun c rq d p x cs0 base x tr r w'.
Proof.
  intros Hm Hc Hp Hk. apply create_inv in Hk; auto; [|now apply mok_skips in Hp].
  destruct Hk as (cs1 & Hk & ->). eapply run_child; eauto.
Qed.

Lemma seq_sound h c rq d l x : forall rest i q a cs0 cs1 base s tr r st' w',
  cok c = true -> forallb (mok h seq_req) l = true ->
  skipn i l = q :: rest ->
  forall di, seq_dst l i d = Done di -> mk c seq_req di q cs0 = Done (a, cs1) ->
  seq_from sf_ops (consume n) c d l i q rest a (W s (repeat x (owed a) ++ base) cs1 tr) = Done ((r, st'), w') ->
  Concl h (GSeq i) c rq d (Seq l) x cs0 base s tr r w'.
Proof.
  intros rest. revert x. induction rest as [|q' rest IHr]; intros x i q a cs0 cs1 base s tr r st' w' Hc Hl Hi di Hd Hk H.
  - assert (nth_error l i = Some q) as Hn.
    { rewrite <- (firstn_skipn i l), Hi. rewrite nth_error_app2; rewrite firstn_length.
      - assert (length l = i + length (skipn i l)) as HL.
        { rewrite skipn_length. assert (i <= length l); [|lia]. destruct (le_lt_dec i (length l)); auto.
          rewrite skipn_all2 in Hi by lia. discriminate. }
        rewrite Hi in HL. cbn in HL. replace (i - Nat.min i (length l)) with 0 by lia. reflexivity.
      - lia. }
    assert (nth_error l (S i) = None) as Hn'.
    { apply nth_error_None. pose proof (skipn_length i l) as HL. rewrite Hi in HL. cbn in HL. lia. }
    assert (mok h seq_req q = true) as Hq.
    { rewrite forallb_forall in Hl. apply Hl. now apply nth_error_In in Hn. }
    cbn [seq_from] in H. rewrite Hd in H. bi H. destruct a0 as [r0 a'].
    eapply run_child in E; eauto. destruct E as (b & s' & cs' & tr' & lk & -> & -> & Hlk & Hev).
    cbn [fst snd] in H. destruct b; cbn [res] in H; inv H.
    + exists true, s', cs', tr', lk. repeat (split; [auto; reflexivity|]). eapply ev_seq_end; eauto.
    + exists false, s', cs', tr', lk. repeat (split; [auto; reflexivity|]). eapply ev_seq_ko; eauto.
  - assert (skipn (S i) l = q' :: rest) as Hi'.
    { clear - Hi. revert l Hi. induction i as [|i IHi]; intros [|y l] Hi; try discriminate.
      - cbn in Hi. injection Hi as _ ->. reflexivity.
      - cbn in Hi |- *. now apply IHi in Hi. }
    assert (forall j y ys, skipn j l = y :: ys -> nth_error l j = Some y) as HN.
    { clear. intros j. revert l. induction j as [|j IHj]; intros [|y l] z zs E; try discriminate.
      - now injection E as -> _.
      - cbn in *. eauto. }
    assert (mok h seq_req q = true) as Hq.
    { rewrite forallb_forall in Hl. apply Hl. apply HN in Hi. now apply nth_error_In in Hi. }
    assert (mok h seq_req q' = true) as Hq'.
    { rewrite forallb_forall in Hl. apply Hl. apply HN in Hi'. now apply nth_error_In in Hi'. }
    cbn [seq_from] in H. rewrite Hd in H. bi H. destruct a0 as [r0 a'].
    eapply run_child in E; eauto. destruct E as (b & s' & cs' & tr' & lk & -> & -> & Hlk & Hev).
    cbn [fst snd] in H. destruct b; cbn [res] in H.
    + destruct (seq_dst l (S i) d) as [di'|] eqn:Hd'; [|discriminate]. bi H.
      apply create_inv in E; auto; [|now apply mok_skips in Hq'].
      destruct E as (cs2 & Hk2 & ->).
      eapply IHr in H; eauto. destruct H as (b & s2 & cs3 & tr2 & lk2 & -> & -> & Hlk2 & Hev2).
      exists b, s2, cs3, tr2, (lk2 ++ lk). rewrite app_assoc. repeat (split; [auto; reflexivity|]). split.
      * intros Hh. rewrite Hlk2, Hlk by auto. reflexivity.
      * eapply ev_seq_next; eauto.
    + inv H. exists false, s', cs', tr', lk. repeat (split; [auto; reflexivity|]). eapply ev_seq_ko; eauto.
Qed.

Lemma alt_sound h c rq d l : forall rest x i q a cs0 cs1 base s tr r st' w',
  cok c = true -> forallb (mok h (alt_req rq)) l = true ->
  skipn i l = q :: rest -> mk c (alt_req rq) d q cs0 = Done (a, cs1) ->
  alt_from sf_ops (consume n) c rq d i q rest a (W s (repeat x (owed a) ++ base) cs1 tr) = Done ((r, st'), w') ->
  Concl h (GAlt i) c rq d (Alt l) x cs0 base s tr r w'.
Proof.
  assert (forall j y ys, skipn j l = y :: ys -> nth_error l j = Some y) as HN.
  { clear. intros j. revert l. induction j as [|j IHj]; intros [|y l] z zs E; try discriminate.
    - now injection E as -> _.
    - cbn in *. eauto. }
  intros rest. induction rest as [|q' rest IHr]; intros x i q a cs0 cs1 base s tr r st' w' Hc Hl Hi Hk H.
  - assert (nth_error l (S i) = None) as Hn'.
    { apply nth_error_None. pose proof (skipn_length i l) as HL. rewrite Hi in HL. cbn in HL. lia. }
    assert (mok h (alt_req rq) q = true) as Hq.
    { rewrite forallb_forall in Hl. apply Hl. apply HN in Hi. now apply nth_error_In in Hi. }
    cbn [alt_from] in H. bi H. destruct a0 as [r0 a'].
    eapply run_child in E; eauto. destruct E as (b & s' & cs' & tr' & lk & -> & -> & Hlk & Hev).
    cbn [fst snd] in H. destruct b; cbn [res] in H; inv H.
    + exists true, s', cs', tr', lk. repeat (split; [auto; reflexivity|]). eapply ev_alt_ok; eauto.
    + exists false, s', cs', tr', lk. repeat (split; [auto; reflexivity|]). eapply ev_alt_ko; eauto.
  - assert (skipn (S i) l = q' :: rest) as Hi'.
    { clear - Hi. revert l Hi. induction i as [|i IHi]; intros [|y l] Hi; try discriminate.
      - cbn in Hi. injection Hi as _ ->. reflexivity.
      - cbn in Hi |- *. now apply IHi in Hi. }
    assert (mok h (alt_req rq) q = true) as Hq.
    { rewrite forallb_forall in Hl. apply Hl. apply HN in Hi. now apply nth_error_In in Hi. }
    assert (mok h (alt_req rq) q' = true) as Hq'.
    { rewrite forallb_forall in Hl. apply Hl. apply HN in Hi'. now apply nth_error_In in Hi'. }
    cbn [alt_from] in H. bi H. destruct a0 as [r0 a'].
    eapply run_child in E; eauto. destruct E as (b & s' & cs' & tr' & lk & -> & -> & Hlk & Hev).
    cbn [fst snd] in H. destruct b; cbn [res] in H.
    + inv H. exists true, s', cs', tr', lk. repeat (split; [auto; reflexivity|]). eapply ev_alt_ok; eauto.
    + bi H.
      apply create_inv in E; auto; [|now apply mok_skips in Hq'].
      destruct E as (cs2 & Hk2 & ->).
      eapply IHr in H; eauto. destruct H as (b & s2 & cs3 & tr2 & lk2 & -> & -> & Hlk2 & Hev2).
      exists b, s2, cs3, tr2, (lk2 ++ lk). rewrite app_assoc. repeat (split; [auto; reflexivity|]). split.
      * intros Hh. rewrite Hlk2, Hlk by auto. reflexivity.
      * eapply ev_alt_next; eauto.
Qed.

Lemma rep_sound k : Snd (S n) (GRep k).
Proof.
  intros h c rq d p st x cs0 cs1 base s tr r st' w' Hc Hp Hk H.
  destruct p; try discriminate. cbn [mkg gok mokr] in Hk, Hp. apply mk_map_inv in Hk. destruct Hk as (a & -> & Hk).
  cbn [gconsume Parser.consume consume_step gstk owed] in H. unfold repeat_consume in H. bi H. destruct a0 as [r0 a'].
  eapply run_child in E; eauto. destruct E as (b & s' & cs' & tr' & lk & -> & -> & Hlk & Hev).
  cbn [fst snd] in H. destruct b; cbn [res] in H.
  - destruct (negb (rmax =? 0) && (S k =? rmax)) eqn:Ef.
    + inv H. exists true, s', cs', tr', lk. repeat (split; [auto; reflexivity|]). eapply ev_rep_full; eauto.
    + bi H. apply create_inv in E; auto; [|now apply mok_skips in Hp]. destruct E as (cs2 & Hk2 & ->).
      eapply (IH (GRep (S k)) n (le_n _) h c rq d (Repeat rmin rmax p) (PRepeat (S k) a0) s' cs' cs2) in H; auto.
      2:{ cbn [mkg]. unfold mk_map. now rewrite Hk2. }
      destruct H as (b & s2 & cs3 & tr2 & lk2 & -> & -> & Hlk2 & Hev2).
      exists b, s2, cs3, tr2, (lk2 ++ lk). rewrite app_assoc. repeat (split; [auto; reflexivity|]). split.
      * intros Hh. rewrite Hlk2, Hlk by auto. reflexivity.
      * eapply ev_rep_more; eauto.
  - inv H. exists (rmin <=? k), s', cs', tr', lk. repeat (split; [auto; reflexivity|]). now apply ev_rep_stop.
Qed.

Lemma elem_sound m : Snd (S n) (GElem m).
Proof.
  intros h c rq d p st x cs0 cs1 base s tr r st' w' Hc Hp Hk H.
  destruct p; try discriminate. cbn [mkg gok mokr] in Hk, Hp. apply mk_map_inv in Hk. destruct Hk as (a & -> & Hk).
  apply andb_prop in Hp. destruct Hp as [Hp1 Hp2].
  cbn [gconsume Parser.consume consume_step gstk] in H. unfold list_consume in H. bi H. destruct a0 as [r0 a'].
  eapply run_child in E; eauto. destruct E as (b & s' & cs' & tr' & lk & -> & -> & Hlk & Hev).
  rewrite (Hlk eq_refl) in H. cbn [fst snd app] in H. destruct b; cbn [res] in H.
  - unfold bind at 1 2 in H. cbn in H. bi H. apply create_inv in E; auto; [|now apply mok_skips in Hp2].
    destruct E as (cs2 & Hk2 & ->).
    eapply (IH (GSep s') n (le_n _) h c rq d (PList p1 p2) (PListSt 1 a0) s' cs' cs2) in H; auto.
    2:{ cbn [gok mokr]. now rewrite Hp1, Hp2. }
    2:{ cbn [mkg]. unfold mk_map. now rewrite Hk2. }
    destruct H as (b & s2 & cs3 & tr2 & lk2 & -> & -> & Hlk2 & Hev2).
    exists b, s2, cs3, tr2, lk2. repeat (split; [auto; reflexivity|]).
    eapply ev_elem_next; eauto.
  - unfold bind in H. cbn in H. inv H. exists true, m, cs', tr', []. repeat (split; [auto; reflexivity|]).
    apply (ev_elem_end env c rq d p1 p2 m x _ (SW s' cs' tr')). exact Hev.
Qed.

Lemma sep_sound m : Snd (S n) (GSep m).
Proof.
  intros h c rq d p st x cs0 cs1 base s tr r st' w' Hc Hp Hk H.
  destruct p; try discriminate. cbn [mkg gok mokr] in Hk, Hp. apply mk_map_inv in Hk. destruct Hk as (a & -> & Hk).
  apply andb_prop in Hp. destruct Hp as [Hp1 Hp2].
  cbn [gconsume Parser.consume consume_step gstk] in H. unfold list_consume in H. bi H. destruct a0 as [r0 a'].
  eapply run_child in E; eauto. destruct E as (b & s' & cs' & tr' & lk & -> & -> & Hlk & Hev).
  rewrite (Hlk eq_refl) in H. cbn [fst snd app] in H. destruct b; cbn [res] in H.
  - bi H. apply create_inv in E; auto; [|now apply mok_skips in Hp1].
    destruct E as (cs2 & Hk2 & ->).
    eapply (IH (GElem m) n (le_n _) h c rq d (PList p1 p2) (PListSt 0 a0) s' cs' cs2) in H; auto.
    2:{ cbn [gok mokr]. now rewrite Hp1, Hp2. }
    2:{ cbn [mkg]. unfold mk_map. now rewrite Hk2. }
    destruct H as (b & s2 & cs3 & tr2 & lk2 & -> & -> & Hlk2 & Hev2).
    exists b, s2, cs3, tr2, lk2. repeat (split; [auto; reflexivity|]).
    eapply ev_sep_next; eauto.
  - unfold bind in H. cbn in H. inv H. exists true, m, cs', tr', []. repeat (split; [auto; reflexivity|]).
    apply (ev_sep_end env c rq d p1 p2 m x _ (SW s' cs' tr')). exact Hev.
Qed.

Lemma leaf_done h c rq d p x cs0 base s tr r w' st st' cs1 o :
  consume (S n) c rq d p st (W s base cs1 tr) = Done ((r, st'), w') ->
  evt (fun n => strip (consume n c rq d p st (W s base cs1 tr)))
      (obind o (fun '(r, s', cs') => Done (res r, W s' base cs' tr))) ->
  (forall b s' cs', o = Done (b, s', cs') -> ev GRaw c rq d p x (SW s cs0 tr) b (SW s' cs' tr)) ->
  Concl h GRaw c rq d p x cs0 base s tr r w'.
Proof.
  intros H HE Hev. apply (evt_det env _ _ _ _ _ _ _ _ _ _ _ H) in HE.
  destruct o as [[[b s'] cs']|]; [|discriminate]. cbn in HE. injection HE as <- <-.
  exists b, s', cs', tr, []. repeat (split; [auto; reflexivity|]). auto.
Qed.

Ltac one b s' cs' tr' lk := exists b, s', cs', tr', lk; repeat (split; [auto; reflexivity|]).

Lemma raw_sound : Snd (S n) GRaw.
Proof.
  intros h c rq d p st x cs0 cs1 base s tr r st' w' Hc Hp Hk H.
  cbn [gok mkg gconsume] in *.
  assert (gstk GRaw x st base = repeat x (owed st) ++ base) as HS by reflexivity. rewrite HS in H. clear HS.
  destruct p; cbn [mokr mk_raw] in *.
  - (* Char *)
    inv Hk. cbn [owed repeat app] in H. cbn [Parser.consume consume_step] in H.
    unfold char_consume, starved, bind in H. destruct s as [|y t]; cbn in H.
    + inv H. one false (@nil Z) cs1 tr (@nil (list Z)). apply ev_char_ko. exact I.
    + destruct (is_valid s0 y) eqn:Ev; cbn in H.
      * unfold m_assign, on_cells in H. cbn in H. destruct (assign cs1 d (VNum y)) eqn:Ea; [|discriminate].
        cbn in H. inv H. one true t a tr (@nil (list Z)). now apply ev_char_ok.
      * inv H. one false (y :: t) cs1 tr (@nil (list Z)). now apply ev_char_ko.
  - (* CharSymbol *)
    inv Hk. cbn [owed repeat app] in H. cbn [Parser.consume consume_step] in H.
    unfold char_symbol_consume, starved, bind in H. destruct s as [|y t]; cbn in H.
    + inv H. one false (@nil Z) cs1 tr (@nil (list Z)). apply ev_csym_ko. exact I.
    + destruct (assoc y m) eqn:Ev; cbn in H.
      * unfold m_assign, on_cells in H. cbn in H. destruct (assign cs1 d v) eqn:Ea; [|discriminate].
        cbn in H. inv H. one true (y :: t) a tr (@nil (list Z)). eapply ev_csym_ok; eauto.
      * inv H. one false (y :: t) cs1 tr (@nil (list Z)). now apply ev_csym_ko.
  - (* Eoi *)
    inv Hk. cbn [owed repeat app] in H. cbn [Parser.consume consume_step] in H.
    unfold eoi_consume, bind in H. destruct s as [|y t]; cbn in H; inv H.
    + one true (@nil Z) cs1 tr (@nil (list Z)). apply (ev_eoi env c rq d x (SW [] cs1 tr)).
    + one false (y :: t) cs1 tr (@nil (list Z)). apply (ev_eoi env c rq d x (SW (y :: t) cs1 tr)).
  - (* Pass *)
    destruct (r_consumes rq) eqn:Er; inv Hk. inv H. one true s cs1 tr (@nil (list Z)). now apply ev_pass.
  - (* Fail *)
    inv Hk. inv H. one false s cs1 tr (@nil (list Z)). apply ev_fail.
  - (* Lit *)
    inv Hk. cbn [owed repeat app] in H.
    destruct (lit_run s0 s) as [b s'] eqn:El.
    eapply (leaf_done h c rq d (Lit s0) x cs1 base s tr r w' _ _ cs1 (Done (b, s', cs1))); eauto.
    + pose proof (lit_leaf env c rq d s0 base cs1 tr s0 s) as L. rewrite El in L. exact L.
    + intros b0 s1 c1 [= -> -> ->]. apply (ev_lit env c rq d s0 x (SW s c1 tr)). exact El.
  - (* Symbol *)
    inv Hk. cbn [owed repeat app] in H.
    eapply (leaf_done h c rq d (Symbol m) x cs1 base s tr r w'); eauto.
    + apply (sym_leaf env c rq d m base tr cs1 s (trie_build m) None []).
    + intros b0 s1 c1 E. apply (ev_sym env c rq d m x (SW s cs1 tr)). exact E.
  - (* UInt *)
    destruct (num_zero cs0 d) as [c0|] eqn:Ez; inv Hk. cbn [owed repeat app] in H.
    eapply (leaf_done h c rq d (UInt base0 dmin dmax) x cs0 base s tr r w'); eauto.
    + apply (uint_leaf env).
    + intros b0 s1 c1 E. apply (ev_uint env c rq d _ _ _ x (SW s cs0 tr) cs1); auto.
  - (* Int *)
    destruct (num_zero cs0 d) as [c0|] eqn:Ez; inv Hk. cbn [owed repeat app] in H.
    eapply (leaf_done h c rq d (Int base0 dmin dmax) x cs0 base s tr r w'); eauto.
    + apply (int_leaf env).
    + intros b0 s1 c1 E. apply (ev_int env c rq d _ _ _ x (SW s cs0 tr) cs1); auto.
  - (* Seq *)
    destruct l as [|q l]; [discriminate|]. destruct (seq_dst (q :: l) 0 d) as [di|] eqn:Ed; [|discriminate].
    apply mk_map_inv in Hk. destruct Hk as (a & -> & Hk).
    cbn [Parser.consume consume_step] in H. unfold nary_enter in H.
    cbn [so_resumable sf_ops negb Nat.eqb andb skipn owed] in H.
    eapply (seq_sound h c rq d (q :: l) x l 0 q) in H; eauto.
    destruct H as (b & s2 & cs3 & tr2 & lk2 & -> & -> & Hlk2 & Hev2).
    one b s2 cs3 tr2 lk2. now apply ev_seq.
  - (* Alt *)
    destruct l as [|q l]; [discriminate|].
    apply mk_map_inv in Hk. destruct Hk as (a & -> & Hk).
    cbn [Parser.consume consume_step] in H. unfold nary_enter in H.
    cbn [so_resumable sf_ops negb Nat.eqb andb skipn owed] in H.
    eapply (alt_sound h c rq d (q :: l) l x 0 q) in H; eauto.
    destruct H as (b & s2 & cs3 & tr2 & lk2 & -> & -> & Hlk2 & Hev2).
    one b s2 cs3 tr2 lk2. now apply ev_alt.
  - (* Repeat *)
    destruct (r_consumes rq && (rmin =? 0)) eqn:Er; [discriminate|].
    apply mk_map_inv in Hk. destruct Hk as (a & -> & Hk).
    eapply (rep_sound 0 h c rq d (Repeat rmin rmax p) (PRepeat 0 a) x cs0 cs1) in H; auto.
    2:{ cbn [mkg]. unfold mk_map, mk. now rewrite Hk. }
    destruct H as (b & s2 & cs3 & tr2 & lk2 & -> & -> & Hlk2 & Hev2).
    one b s2 cs3 tr2 lk2. now apply ev_rep.
  - (* Not *)
    apply mk_map_inv in Hk. destruct Hk as (a & -> & Hk).
    cbn [Parser.consume consume_step owed] in H. unfold not_consume in H. bi H. destruct a0 as [r0 a'].
    cbn [repeat app] in E. rewrite repeat_mid in E.
    eapply run_child in E; eauto. destruct E as (b & s' & cs' & tr' & lk & -> & -> & Hlk & Hev).
    rewrite (Hlk eq_refl) in H. cbn [fst snd app] in H.
    destruct b; cbn [res] in H; unfold bind in H; cbn in H; inv H.
    + one false x cs' tr' (@nil (list Z)).
      apply (ev_not env c rq d p x _ true (SW s' cs' tr') Hev).
    + one true x cs' tr' (@nil (list Z)).
      apply (ev_not env c rq d p x _ false (SW s' cs' tr') Hev).
  - (* Opt *)
    apply mk_map_inv in Hk. destruct Hk as (a & -> & Hk).
    apply andb_prop in Hp. destruct Hp as [Hh Hp].
    cbn [Parser.consume consume_step owed] in H. unfold opt_consume in H. bi H. destruct a0 as [r0 a'].
    cbn [repeat app] in E. rewrite repeat_mid in E.
    eapply run_child in E; eauto. destruct E as (b & s' & cs' & tr' & lk & -> & -> & Hlk & Hev).
    rewrite (Hlk eq_refl) in H. cbn [fst snd app] in H.
    destruct b; cbn [res] in H.
    + inv H. exists true, s', cs', tr', [x]. repeat (split; [auto; reflexivity|]).
      split; [intros ->; discriminate|]. now apply ev_opt_ok.
    + unfold bind in H; cbn in H; inv H. one true x cs' tr' (@nil (list Z)).
      apply (ev_opt_ko env c rq d p x _ (SW s' cs' tr') Hev).
  - (* Discard *)
    apply mk_map_inv in Hk. destruct Hk as (a & -> & Hk).
    cbn [Parser.consume consume_step owed] in H. unfold forward_consume in H. bi H. destruct a0 as [r0 a'].
    eapply run_child in E; eauto. destruct E as (b & s' & cs' & tr' & lk & -> & -> & Hlk & Hev).
    inv H. one b s' cs' tr' lk. now apply ev_discard.
  - (* Lexeme *)
    apply mk_map_inv in Hk. destruct Hk as (a & -> & Hk).
    cbn [Parser.consume consume_step owed] in H. unfold forward_consume in H. bi H. destruct a0 as [r0 a'].
    eapply run_child in E; eauto. destruct E as (b & s' & cs' & tr' & lk & -> & -> & Hlk & Hev).
    inv H. one b s' cs' tr' lk. now apply ev_lexeme.
  - (* WithSkipper *)
    apply mk_map_inv in Hk. destruct Hk as (a & -> & Hk).
    apply andb_prop in Hp. destruct Hp as [Hs Hp].
    cbn [Parser.consume consume_step owed] in H. unfold forward_consume in H. bi H. destruct a0 as [r0 a'].
    eapply run_child in E; eauto. destruct E as (b & s' & cs' & tr' & lk & -> & -> & Hlk & Hev).
    inv H. one b s' cs' tr' lk. now apply ev_skipper.
  - (* BindDst *)
    apply mk_map_inv in Hk. destruct Hk as (a & -> & Hk).
    cbn [Parser.consume consume_step owed] in H. unfold forward_consume in H. bi H. destruct a0 as [r0 a'].
    eapply run_child in E; eauto. destruct E as (b & s' & cs' & tr' & lk & -> & -> & Hlk & Hev).
    inv H. one b s' cs' tr' lk. now apply ev_bind.
  - (* Construct *)
    apply mk_cell_inv in Hk; [|intros; apply lenp_in]. destruct Hk as (a & v1 & -> & Hk & HL).
    cbn [Parser.consume consume_step owed] in H. unfold construct_consume in H. bi H. destruct a0 as [[r0 a'] v'].
    apply cell_inv in E. destruct E as (src & cs' & tr' & -> & HL' & E). rewrite HL in E.
    eapply run_child in E; eauto. destruct E as (b & s' & cs2 & tr2 & lk & -> & Ew & Hlk & Hev).
    injection Ew as -> <- <-.
    destruct b; cbn [res] in H.
    + destruct (make_from (dst_ty d) v') as [y|] eqn:Em; [|discriminate].
      unfold bind, m_assign, on_cells in H. cbn in H.
      destruct (assign cs' d y) as [cs3|] eqn:Ea; [|discriminate]. inv H.
      one true s' cs3 tr' lk. eapply ev_construct_ok; eauto. cbn. congruence.
    + inv H. one false s' cs' tr' lk. eapply ev_construct_ko; eauto. cbn. congruence.
  - (* Act *)
    apply mk_cell_inv in Hk; [|intros; apply lenp_in]. destruct Hk as (a0 & v1 & -> & Hk & HL).
    cbn [Parser.consume consume_step owed] in H. unfold action_consume in H. bi H. destruct a1 as [[r0 a'] v'].
    apply cell_inv in E. destruct E as (src & cs' & tr' & -> & HL' & E). rewrite HL in E.
    eapply run_child in E; eauto. destruct E as (b & s' & cs2 & tr2 & lk & -> & Ew & Hlk & Hev).
    injection Ew as -> <- <-.
    destruct b; cbn [res] in H.
    + bi H. destruct a1. inv H.
      assert (exists cs3 tr3, w' = W s' (lk ++ base) cs3 tr3 /\
                act_run a v' d c (SW s' cs' tr') = Done (SW s' cs3 tr3)) as (cs3 & tr3 & -> & HA).
      { clear - E. unfold act_run. cbn [q_c q_t q_s]. unfold act_dispatch in *. destruct (conv (ac_land a) v'); [|discriminate].
        cbn [w_cells w_src w_trace] in *.
        destruct (if ac_param a then load cs' (c_bound c) else Done VNil); [|discriminate].
        destruct (ac_fun a a0 a1).
        match type of E with context [match ?x with Done _ => _ | Err _ => _ end] =>
          match x with context [ac_param a] => destruct x; [|discriminate] end end.
        destruct (ac_void a).
        - inversion E; subst. eauto.
        - unfold m_assign, on_cells in *. cbn [w_cells w_src w_trace] in *.
          destruct (assign a2 d v); [|discriminate]. inversion E; subst. eauto. }
      one true s' cs3 tr3 lk. eapply ev_act_ok; eauto. cbn. congruence.
    + inv H. one false s' cs' tr' lk. eapply ev_act_ko; eauto. cbn. congruence.
  - (* Except *)
    apply mk_map_inv in Hk. destruct Hk as (a & -> & Hk).
    apply andb_prop in Hp. destruct Hp as [Hs Hp].
    cbn [Parser.consume consume_step owed] in H. unfold except_consume in H. bi H. destruct a0 as [r0 a'].
    eapply run_child in E; eauto. destruct E as (b & s' & cs' & tr' & lk & -> & -> & Hlk & Hev).
    cbn [fst snd] in H. destruct b; cbn [res] in H.
    + inv H. one false s' cs' tr' lk. eapply ev_exc_hit; eauto.
    + bi H. bi H. destruct a1 as [r1 a1]. inv H. cbn [fst].
      eapply run_new in E0; eauto. destruct E0 as (b & s2 & cs2 & tr2 & lk2 & -> & -> & Hlk2 & Hev2).
      exists b, s2, cs2, tr2, (lk2 ++ lk). rewrite app_assoc. repeat (split; [auto; reflexivity|]). split.
      * intros Hh. rewrite Hlk2, Hlk by auto. reflexivity.
      * eapply ev_exc_go; eauto.
  - (* PList *)
    apply mk_map_inv in Hk. destruct Hk as (a & -> & Hk).
    cbn [owed repeat app] in H. rewrite repeat_mid in H.
    eapply (elem_sound x h c rq d (PList p1 p2) (PListSt 0 a) x cs0 cs1) in H; auto.
    2:{ cbn [mkg]. unfold mk_map, mk. now rewrite Hk. }
    destruct H as (b & s2 & cs3 & tr2 & lk2 & -> & -> & Hlk2 & Hev2).
    one b s2 cs3 tr2 lk2. now apply ev_list.
  - (* Recur *)
    inv Hk. cbn [Parser.consume consume_step owed repeat app] in H. unfold recur_consume in H.
    destruct (env id) as [q|] eqn:Eq; [|discriminate]. bi H. bi H. destruct a0 as [r0 a'].
    eapply run_new in E; eauto. destruct E as (b & s2 & cs2 & tr2 & lk2 & -> & -> & Hlk2 & Hev2).
    inv H. exists b, s2, cs2, tr2, lk2. repeat (split; [auto; reflexivity|]). eapply ev_rec; eauto.
Qed.

Lemma atm_sound : Snd (S n) GAtm.
Proof.
  intros h c rq d p st x cs0 cs1 base s tr r st' w' Hc Hp Hk H.
  cbn [mkg gok] in *. unfold mk_atm, mk_atm_of, atm_req in *. destruct (wants_atomic rq p) eqn:Ew.
  - apply mk_cell_inv in Hk; [|intros; apply lenp_raw]. destruct Hk as (a & v1 & -> & Hk & HL).
    cbn [gconsume Parser.consume consume_step gstk owed] in H. unfold atomic_consume in H.
    bi H. destruct a0 as [[r0 a'] v'].
    apply cell_inv in E. destruct E as (src & cs' & tr' & -> & HL' & E). rewrite HL in E.
    eapply (IH GRaw n (le_n _) h c (unatomic_req rq)) in E; eauto.
    destruct E as (b & s' & cs2 & tr2 & lk & -> & Ee & Hlk & Hev). injection Ee as -> <- <-.
    destruct b; cbn [res] in H.
    + unfold bind, m_assign, on_cells in H. cbn in H.
      destruct (assign cs' d v') as [cs3|] eqn:Ea; [|discriminate]. inv H.
      one true s' cs3 tr' lk. eapply ev_atm_ok; eauto. cbn. congruence.
    + inv H. one false s' cs' tr' lk. eapply ev_atm_ko; eauto. cbn. congruence.
  - eapply raw_sound in H; eauto. destruct H as (b & s2 & cs3 & tr2 & lk2 & -> & -> & Hlk2 & Hev2).
    one b s2 cs3 tr2 lk2. now apply ev_atm_no.
Qed.

Lemma cln_sound : Snd (S n) GCln.
Proof.
  intros h c rq d p st x cs0 cs1 base s tr r st' w' Hc Hp Hk H.
  cbn [mkg gok] in *. apply andb_prop in Hp. destruct Hp as [Hr Hp].
  rewrite mok_eq in Hp. unfold raw_req in Hp. apply negb_true_iff in Hr. rewrite Hr in Hp. cbn [negb andb] in Hp.
  unfold mk_cln, mk_cln_of in *. destruct (wants_clean rq p) eqn:Ew.
  - rewrite orb_true_r in Hp. apply mk_map_inv in Hk. destruct Hk as (a & -> & Hk).
    cbn [gconsume Parser.consume consume_step gstk owed repeat app] in H. unfold clean_consume in H.
    rewrite repeat_mid in H. bi H. destruct a0 as [r0 a'].
    eapply (IH GAtm n (le_n _) true c (unclean_req rq) d p a x cs0 cs1) in E; eauto.
    destruct E as (b & s' & cs' & tr' & lk & -> & -> & Hlk & Hev).
    rewrite (Hlk eq_refl) in H. cbn [fst snd app] in H.
    destruct b; cbn [res] in H; unfold bind in H; cbn in H; inv H.
    + one true s' cs' tr' (@nil (list Z)). now apply ev_cln_ok.
    + one false x cs' tr' (@nil (list Z)).
      apply (ev_cln_ko env c rq d p x _ (SW s' cs' tr')); auto.
  - rewrite orb_false_r in Hp.
    assert (gok h GAtm rq p = true) as Hg by exact Hp.
    eapply atm_sound in H; eauto. destruct H as (b & s2 & cs3 & tr2 & lk2 & -> & -> & Hlk2 & Hev2).
    one b s2 cs3 tr2 lk2. now apply ev_cln_no.
Qed.

Lemma skip_sound : Snd (S n) GSkip.
Proof.
  intros h c rq d p st x cs0 cs1 base s tr r st' w' Hc Hp Hk H.
  cbn [mkg] in *. apply mk_map_inv in Hk. destruct Hk as (a & -> & Hk).
  assert (sfree (c_skip c) = true) as Hf.
  { unfold cok in Hc. destruct (c_skip c); cbn in *; auto. }
  cbn [gconsume Parser.consume consume_step gstk owed] in H.
  rewrite (proj2 (makes_skip _ Hf)) in H. cbn [plus] in H. unfold skip_consume in H.
  bi H. destruct a0 as [r0 s0].
  pose proof (evt_det env _ _ _ _ _ _ _ _ _ _ _ E (skip_leaf env (c_skip c) _ cs1 tr Hf s)) as HE.
  unfold skip_out in HE. destruct (skip1 (c_skip c) s) as [s1|] eqn:Es; injection HE as <- <-; cbn [fst snd] in H.
  - bi H. unfold create in E0. change (mk_skip_of sf_ops skip_ctx) with (@None (M sfwd pst)) in E0.
    rewrite (proj1 (makes_skip _ Hf)) in E0. cbn [mk_ret] in E0.
    rewrite (proj2 (makes_skip _ Hf)) in E0. injection E0 as <- <-. cbn [repeat app] in H.
    replace (repeat x (owed a) ++ base) with (gstk GSkip x (PSkip false (skip_st (c_skip c)) a) base) in H
      by (cbn [gstk owed]; now rewrite (proj2 (makes_skip _ Hf))).
    eapply (IH GSkip n (le_n _) h c rq d p (PSkip false (skip_st (c_skip c)) a) x cs0 cs1) in H; auto.
    2:{ cbn [mkg]. unfold mk_map. now rewrite Hk. }
    destruct H as (b & s2 & cs3 & tr2 & lk2 & -> & -> & Hlk2 & Hev2).
    one b s2 cs3 tr2 lk2. eapply ev_skip_more; eauto.
  - destruct n as [|m] eqn:En; [discriminate|].
    cbn [Parser.consume consume_step] in H. unfold skip_consume in H. bi H. destruct a0 as [r1 a1].
    inv H. eapply (IH GCln m ltac:(lia) h c rq d p a x cs0 cs1) in E0; auto.
    destruct E0 as (b & s2 & cs3 & tr2 & lk2 & E1 & -> & Hlk2 & Hev2).
    one b s2 cs3 tr2 lk2. now apply ev_skip_end.
Qed.

Lemma run_sound : Snd (S n) GRun.
Proof.
  intros h c rq d p st x cs0 cs1 base s tr r st' w' Hc Hp Hk H.
  cbn [mkg gok] in *. unfold mk in Hk. rewrite mk_in_eq in Hk. unfold mk_adapt in Hk.
  destruct (r_recur rq) eqn:Er.
  - assert (gok h GRaw rq p = true) as Hg.
    { cbn [gok]. rewrite mok_eq in Hp. unfold raw_req in Hp. rewrite Er in Hp. cbn in Hp. now rewrite orb_false_r in Hp. }
    eapply (raw_sound h c rq d p st x cs0 cs1) in H; auto.
    destruct H as (b & s2 & cs3 & tr2 & lk2 & -> & -> & Hlk2 & Hev2).
    one b s2 cs3 tr2 lk2. now apply ev_recur.
  - assert (gok h GCln rq p = true) as Hg.
    { cbn [gok]. now rewrite Er, Hp. }
    unfold sk_of in Hk. destruct (is_fail (c_skip c)) eqn:Ef.
    + eapply (cln_sound h c rq d p st x cs0 cs1) in H; auto.
      2:{ cbn [mkg]. unfold mk_cln, sk_of. rewrite Ef. exact Hk. }
      destruct H as (b & s2 & cs3 & tr2 & lk2 & -> & -> & Hlk2 & Hev2).
      one b s2 cs3 tr2 lk2. now apply ev_noskip.
    + eapply (skip_sound h c rq d p st x cs0 cs1) in H; auto.
      2:{ cbn [mkg]. unfold mk_cln, sk_of. rewrite Ef. exact Hk. }
      destruct H as (b & s2 & cs3 & tr2 & lk2 & -> & -> & Hlk2 & Hev2).
      one b s2 cs3 tr2 lk2. now apply ev_skip.
Qed.

Lemma seqg_sound i : Snd (S n) (GSeq i).
Proof.
  intros h c rq d p st x cs0 cs1 base s tr r st' w' Hc Hp Hk H.
  destruct p; try discriminate. cbn [mkg gok mokr gconsume] in *.
  destruct (nth_error l i) as [q|] eqn:En; [|discriminate]. destruct (seq_dst l i d) as [di|] eqn:Ed; [|discriminate].
  apply mk_map_inv in Hk. destruct Hk as (a & -> & Hk).
  destruct (skipn i l) as [|q' rest] eqn:Es; [discriminate|].
  assert (q' = q) as ->.
  { apply skipn_nth in Es. congruence. }
  eapply seq_sound; eauto.
Qed.

Lemma altg_sound i : Snd (S n) (GAlt i).
Proof.
  intros h c rq d p st x cs0 cs1 base s tr r st' w' Hc Hp Hk H.
  destruct p; try discriminate. cbn [mkg gok mokr gconsume] in *.
  destruct (nth_error l i) as [q|] eqn:En; [|discriminate].
  apply mk_map_inv in Hk. destruct Hk as (a & -> & Hk).
  destruct (skipn i l) as [|q' rest] eqn:Es; [discriminate|].
  assert (q' = q) as ->.
  { apply skipn_nth in Es. congruence. }
  eapply alt_sound; eauto.
Qed.

Lemma step_sound g : Snd (S n) g.
Proof.
  destruct g; auto using run_sound, skip_sound, cln_sound, atm_sound, raw_sound, seqg_sound, altg_sound,
    rep_sound, elem_sound, sep_sound.
Qed.

End Step.

Lemma snd_all n : forall g m, m <= n -> Snd m g.
Proof.
  induction n as [|n IH]; intros g m Hm.
  - replace m with 0 by lia. intros h c rq d p st x cs0 cs1 base s tr r st' w' _ _ _ H.
    destruct g; try discriminate; cbn in H; destruct p; try discriminate; destruct st; discriminate.
  - destruct (le_lt_dec m n) as [Hl|Hl]; [now apply IH|]. replace m with (S n) by lia. now apply step_sound.
Qed.

Theorem sound n h c rq d p st x cs0 cs1 base s tr r st' w' :
  cok c = true -> mok h rq p = true -> mk c rq d p cs0 = Done (st, cs1) ->
  consume n c rq d p st (W s (repeat x (owed st) ++ base) cs1 tr) = Done ((r, st'), w') ->
  Concl h GRun c rq d p x cs0 base s tr r w'.
Proof. intros. eapply (snd_all n GRun n (le_n _)); eauto. Qed.

End Sound.
