(** Patterns that take many steps (C69): with recursion the number can double with every
    character; nested loops can make it quadratic. *)
From Coq Require Import List ZArith Bool Arith Lia.
From Verif Require Import Base CharSet Source Dst Pattern Parser Session SpecTerm SpecSteps StepsThms.
Import ListNotations.

Definition one (c : Z) : pat := Discard (Char (CSingle ct_char c)).

(** p = ('(' >> p >> ')') | ('(' >> p >> ']') | 'x'. *)
Definition twice : nat -> option pat := fun _ =>
  Some (Alt [Seq [one 40; Recur 0 true; one 41]; Seq [one 40; Recur 0 true; one 93]; one 120]).

Definition opening (n : nat) : list Z := repeat 40%Z n.

Lemma one_runs c f bound l stk cells tr k : 2 <= f ->
  consume (counted sf_ops) twice f (Ctx Fail bound) seq_req DNil (one c) (POne PLeaf) (World (Sfwd (c :: l) stk, k) cells tr) =
  Done ((SUCCESS, POne PLeaf), World (Sfwd l stk, S k) cells tr).
Proof. intros H. destruct f as [|[|f]]; [lia|lia|]. unfold one. cbn [consume consume_step]. unfold forward_consume, bind. cbn [consume consume_step].
  unfold char_consume, bind. cbn. now rewrite Z.eqb_refl.
Qed.

Lemma other_fails c x f bound rq l stk cells tr k : x <> c -> 2 <= f ->
  consume (counted sf_ops) twice f (Ctx Fail bound) rq DNil (one c) (POne PLeaf) (World (Sfwd (x :: l) stk, k) cells tr) =
  Done ((FAILURE, POne PLeaf), World (Sfwd (x :: l) stk, k) cells tr).
Proof.
  intros N H. destruct f as [|[|f]]; [lia|lia|]. apply Z.eqb_neq in N. unfold one. cbn [consume consume_step]. unfold forward_consume, bind. cbn [consume consume_step].
  unfold char_consume, bind. cbn. rewrite Z.eqb_sym in N. now rewrite N || rewrite Z.eqb_sym, N.
Qed.

Lemma branch_runs c f bound n stk cells tr k T st0 : 2 <= f ->
  consume (counted sf_ops) twice f (Ctx Fail bound) seq_req DNil (Recur 0 true) (PRecur None) (World (Sfwd (opening n) ((40%Z :: opening n) :: stk), S k) cells tr) =
  Done ((FAILURE, st0), World (Sfwd (opening n) ((40%Z :: opening n) :: stk), S k + T) cells tr) ->
  clean_consume (counted sf_ops) (consume_step (counted sf_ops) twice (consume (counted sf_ops) twice f)) (Ctx Fail bound) (alt_req recur_req) DNil
    (Seq [one 40; Recur 0 true; one c]) (PNary 0 (POne PLeaf)) (World (Sfwd (40%Z :: opening n) ((40%Z :: opening n) :: stk), k) cells tr) =
  Done ((FAILURE, PClean (PNary 1 st0)), World (Sfwd (40%Z :: opening n) stk, S k + T) cells tr).
Proof.
  intros Hf H. unfold clean_consume, bind. cbn [consume_step]. unfold nary_enter. cbn [so_resumable counted sf_ops nth_error Nat.eqb andb skipn].
  unfold seq_from, bind. cbn [seq_dst seq_req]. cbn. fold (opening n) (one c) (one 40).
  rewrite one_runs by exact Hf. cbn. rewrite H. reflexivity.
Qed.

Lemma twice_runs bound n : forall m rq stk cells tr k, exists st,
  consume (counted sf_ops) twice (4 * n + 6 + m) (Ctx Fail bound) rq DNil (Recur 0 true) (PRecur None) (World (Sfwd (opening n) stk, k) cells tr) =
  Done ((FAILURE, st), World (Sfwd (opening n) stk, k + (2 ^ (n + 1) - 2)) cells tr).
Proof.
  induction n as [|n IH]; intros m rq stk cells tr k.
  - eexists. cbn. unfold ret. do 3 f_equal. rewrite Nat.add_0_r. reflexivity.
  - replace (4 * S n + 6 + m) with (S (S (S (S (4 * n + 6 + m))))) by lia. assert (Hf : 2 <= 4 * n + 6 + m) by lia. specialize (IH m seq_req).
    remember (4 * n + 6 + m) as f eqn:E. clear E. cbn [opening repeat]. fold (opening n).
    cbn. unfold recur_consume. cbn. unfold bind. cbn. unfold sf_prepare. cbn [sf_cur sf_stack].
    destruct (IH ((40%Z :: opening n) :: stk) cells tr (S k)) as [s1 E1]. rewrite (branch_runs 41 f bound n stk cells tr k _ s1 Hf E1). cbn [fst snd w_src w_cells w_trace sf_cur sf_stack].
    set (k' := S k + (2 ^ (n + 1) - 2)) in *.
    destruct (IH ((40%Z :: opening n) :: stk) cells tr (S k')) as [s2 E2]. rewrite (branch_runs 93 f bound n stk cells tr k' _ s2 Hf E2). cbn [fst snd w_src w_cells w_trace sf_cur sf_stack].
    eexists. unfold forward_consume, bind. cbn. unfold ret. do 4 f_equal. subst k'.
    assert (2 <= 2 ^ (n + 1)) by (rewrite Nat.add_1_r; cbn; pose proof (Nat.pow_nonzero 2 n); lia). lia.
Qed.

Lemma twice_parse n v : exists m k, parse_counted twice m TNil v (Recur 0 true) (opening n) = Done (FAILURE, k) /\ k + 2 = 2 ^ (n + 1).
Proof.
  destruct (twice_runs DNil n 0 default_req [] [v] [] 0) as [st E]. exists (4 * n + 6 + 0), (2 ^ (n + 1) - 2). split.
  - unfold parse_counted, top_run, bind, top_consume. change (top_create _ TNil (Recur 0 true) _) with (@Done (pst * world (sfwd * nat)) (PRecur None, World (sf_make (opening n), 0) [v] [])).
    cbv beta iota. change (top_ctx TNil) with (Ctx Fail DNil). change (top_dst TNil) with DNil. unfold sf_make. now rewrite E.
  - assert (2 <= 2 ^ (n + 1)) by (rewrite Nat.add_1_r; cbn; pose proof (Nat.pow_nonzero 2 n); lia). lia.
Qed.

(** ** No power keeps up *)
Lemma lt_pow n : n < 2 ^ n.
Proof. apply Nat.pow_gt_lin_r. lia. Qed.

Lemma outgrows c d : exists n, c * (n + 1) ^ d + 2 < 2 ^ (n + 1).
Proof.
  (* n + 1 = 2 j e with e = d + 1: (2 j e)^e = (2 e)^e j^e. *)
  set (e := S d). set (j := c + 2 * e + 2). exists (2 * j * e - 1).
  replace (2 * j * e - 1 + 1) with (2 * j * e) by (unfold j, e; nia).
  assert (A : (2 * j * e) ^ d <= (2 * j * e) ^ e) by (apply Nat.pow_le_mono_r; unfold j, e; nia).
  assert (B : (2 * j * e) ^ e = ((2 * e) ^ e) * (j ^ e)) by (rewrite <- Nat.pow_mul_l; f_equal; lia).
  assert (C : 2 ^ (2 * j * e) = 2 ^ (j * e) * 2 ^ (j * e)) by (rewrite <- Nat.pow_add_r; f_equal; lia).
  assert (D : j ^ e <= 2 ^ (j * e)) by (rewrite Nat.pow_mul_r; apply Nat.pow_le_mono_l; pose proof (lt_pow j); lia).
  assert (E : (c + 2) * (2 * e) ^ e < 2 ^ (j * e)).
  { rewrite Nat.pow_mul_r. replace j with ((c + 2) + 2 * e) by (unfold j; lia). rewrite Nat.pow_add_r, (Nat.pow_mul_l (2 ^ (c + 2))).
    assert ((2 * e) ^ e <= (2 ^ (2 * e)) ^ e) by (apply Nat.pow_le_mono_l; pose proof (lt_pow (2 * e)); lia).
    assert (c + 2 < (2 ^ (c + 2)) ^ e).
    { eapply Nat.lt_le_trans; [apply lt_pow|]. rewrite <- (Nat.pow_1_r (2 ^ (c + 2))) at 1. apply Nat.pow_le_mono_r; [|unfold e; lia]. apply Nat.pow_nonzero. lia. }
    assert (G : 0 < (2 * e) ^ e) by (apply Nat.neq_0_lt_0, Nat.pow_nonzero; unfold e; lia).
    eapply Nat.lt_le_trans; [apply (proj1 (Nat.mul_lt_mono_pos_r ((2 * e) ^ e) _ _ G) H0)|apply Nat.mul_le_mono_l; assumption]. }
  assert (F : 0 < j ^ e) by (apply Nat.neq_0_lt_0, Nat.pow_nonzero; unfold j; lia).
  assert (G : 0 < (2 * e) ^ e) by (apply Nat.neq_0_lt_0, Nat.pow_nonzero; unfold e; lia).
  rewrite C. set (x := (2 * e) ^ e) in *. set (y := j ^ e) in *. set (z := 2 ^ (j * e)) in *.
  assert (c * (2 * j * e) ^ d <= c * (x * y)) by (apply Nat.mul_le_mono_l; lia). nia.
Qed.

Lemma twice_guarded : guarded (fun _ => true) (fun _ => 1) None (Recur 0 true) = true /\ all_guarded (fun _ => true) (fun _ => 1) twice.
Proof. split; [reflexivity|]. intros id q [= <-]. auto. Qed.

Lemma twice_not_within d : ~ within d (fun inp k => exists n t v r, parse_counted twice n t v (Recur 0 true) inp = Done (r, k)).
Proof.
  intros [c Hc]. destruct (outgrows c d) as [n Hn]. destruct (twice_parse n VNil) as (m & k & E & Hk).
  specialize (Hc (opening n) k ltac:(eauto 6)). unfold opening in Hc. rewrite repeat_length in Hc. lia.
Qed.

(** ** Two loops nested, without recursion: quadratic *)
Section Square.
Context (env : nat -> option pat) (bound : dst).
Local Notation run := (consume (counted sf_ops) env).
Local Notation ctx0 := (Ctx Fail bound).

(** *(+lit('a') >> lit('b') | lit('a')). *)
Definition square_item : pat := Alt [Seq [Repeat 1 0 (one 97); one 98]; one 97].
Definition square : pat := Repeat 0 0 square_item.
Definition aaa (n : nat) : list Z := repeat 97%Z n.

Lemma aaa_cons n : aaa (S n) = 97%Z :: aaa n.
Proof. reflexivity. Qed.

Lemma a_runs rq c f l stk cells tr k : 2 <= f ->
  run f ctx0 rq DNil (one c) (POne PLeaf) (World (Sfwd (c :: l) stk, k) cells tr) = Done ((SUCCESS, POne PLeaf), World (Sfwd l stk, S k) cells tr).
Proof.
  intros H. destruct f as [|[|f]]; [lia|lia|]. unfold one. cbn [consume consume_step]. unfold forward_consume, bind. cbn [consume consume_step].
  unfold char_consume, bind. cbn. now rewrite Z.eqb_refl.
Qed.

Lemma a_stops rq c f stk cells tr k : 2 <= f ->
  run f ctx0 rq DNil (one c) (POne PLeaf) (World (Sfwd [] stk, k) cells tr) = Done ((FAILURE, POne PLeaf), World (Sfwd [] stk, k) cells tr).
Proof. intros H. destruct f as [|[|f]]; [lia|lia|]. reflexivity. Qed.

Lemma plus_runs n : forall f cnt stk cells tr k, n + 3 <= f -> 0 < cnt + n -> exists st,
  run f ctx0 seq_req DNil (Repeat 1 0 (one 97)) (PRepeat cnt (POne PLeaf)) (World (Sfwd (aaa n) stk, k) cells tr) =
  Done ((SUCCESS, st), World (Sfwd [] stk, k + n) cells tr).
Proof.
  induction n as [|n IH]; intros f cnt stk cells tr k Hf H; destruct f as [|f]; try lia; cbn [consume consume_step]; unfold repeat_consume, bind.
  - destruct cnt; [lia|]. eexists. unfold aaa. cbn [repeat]. rewrite a_stops by lia. cbn. unfold ret. rewrite Nat.add_0_r. reflexivity.
  - specialize (IH f (S cnt) stk cells tr (S k) ltac:(lia) ltac:(lia)). destruct IH as [st E]. exists st. rewrite aaa_cons, a_runs by lia.
    cbn [fst snd negb Nat.eqb andb]. change (create (counted sf_ops) ctx0 (repeat_req 1 0 seq_req) DNil (one 97)) with (@ret (sfwd * nat) _ (POne PLeaf)).
    unfold ret. rewrite E. do 4 f_equal. lia.
Qed.

Definition fresh_item : pst := PNary 0 (PClean (PAtomic VNil (PNary 0 (PRepeat 0 (POne PLeaf))))).

Lemma item_runs n f stk cells tr k : n + 8 <= f -> exists st,
  run f ctx0 (repeat_req 0 0 default_req) DNil square_item fresh_item (World (Sfwd (aaa (S n)) (aaa (S n) :: stk), k) cells tr) =
  Done ((SUCCESS, st), World (Sfwd (aaa n) stk, k + (n + 2)) cells tr).
Proof.
  set (rq := repeat_req 0 0 default_req). intros Hf. destruct f as [|[|[|[|f]]]]; try lia.
  destruct (plus_runs (S n) f 0 (aaa (S n) :: stk) (cells ++ [VNil]) tr k ltac:(lia) ltac:(lia)) as [s1 E1].
  assert (Hseq : run (S (S (S f))) ctx0 (alt_req rq) DNil (Seq [Repeat 1 0 (one 97); one 98]) (PClean (PAtomic VNil (PNary 0 (PRepeat 0 (POne PLeaf))))) (World (Sfwd (aaa (S n)) (aaa (S n) :: stk), k) cells tr) =
    Done ((FAILURE, PClean (PAtomic VNil (PNary 1 (POne PLeaf)))), World (Sfwd (aaa (S n)) stk, k + S n) cells tr)).
  { cbn [consume consume_step]. unfold clean_consume, bind. cbn [consume consume_step]. unfold atomic_consume, bind, with_cell. cbn [consume consume_step w_src w_cells w_trace]. unfold nary_enter. cbn [so_resumable counted sf_ops negb Nat.eqb andb nth_error skipn].
    unfold seq_from, bind. cbn [seq_dst]. cbn -[aaa consume nth_error firstn app length]. rewrite E1. cbn [fst snd]. cbn -[aaa consume nth_error firstn app length]. rewrite a_stops by lia.
    cbn -[aaa consume nth_error firstn app length]. rewrite nth_error_app2, Nat.sub_diag by lia. cbn -[aaa consume firstn app length].
    rewrite firstn_app, Nat.sub_diag, firstn_all, firstn_O, app_nil_r. reflexivity. }
  remember (S (S (S f))) as g eqn:Eg. eexists. cbn [consume consume_step square_item fresh_item]. unfold nary_enter. cbn [so_resumable counted sf_ops negb Nat.eqb andb nth_error skipn].
  unfold alt_from, bind. rewrite Hseq. cbn [fst snd]. cbn -[aaa consume]. fold (one 97). rewrite aaa_cons, a_runs by lia. cbn. unfold ret. do 4 f_equal. lia.
Qed.

Lemma item_stops f stk cells tr k : 8 <= f -> exists st,
  run f ctx0 (repeat_req 0 0 default_req) DNil square_item fresh_item (World (Sfwd (aaa 0) (aaa 0 :: stk), k) cells tr) = Done ((FAILURE, st), World (Sfwd (aaa 0) stk, k) cells tr).
Proof. intros H. do 8 (destruct f as [|f]; [lia|]). eexists. cbn -[nth_error firstn app length]. unfold clean_consume, bind. cbn -[nth_error firstn app length].
  unfold atomic_consume, with_cell, bind. cbn -[nth_error firstn app length]. unfold repeat_consume, forward_consume, bind. cbn -[nth_error firstn app length].
  rewrite nth_error_app2, Nat.sub_diag by lia. cbn -[firstn app length]. rewrite firstn_app, Nat.sub_diag, firstn_all, firstn_O, app_nil_r. reflexivity. Qed.

Lemma square_runs n : forall f cnt stk cells tr k, 2 * n + 10 <= f -> exists st k',
  run f ctx0 default_req DNil square (PRepeat cnt fresh_item) (World (Sfwd (aaa n) (aaa n :: stk), k) cells tr) =
  Done ((SUCCESS, st), World (Sfwd [] stk, k + k') cells tr) /\ 2 * k' = n * (n + 3).
Proof.
  induction n as [|n IH]; intros f cnt stk cells tr k Hf; destruct f as [|f]; try lia; unfold square; cbn [consume consume_step]; unfold repeat_consume, bind.
  - destruct (item_stops f stk cells tr k ltac:(lia)) as [st E]. rewrite E. exists (PRepeat cnt st), 0. split; [|reflexivity].
    cbn. rewrite Nat.add_0_r. reflexivity.
  - destruct (item_runs n f stk cells tr k ltac:(lia)) as [st E]. rewrite E. cbn [fst snd negb Nat.eqb andb].
    assert (EC : forall w, create (counted sf_ops) ctx0 (repeat_req 0 0 default_req) DNil square_item w =
      Done (fresh_item, World (sf_prepare (fst (w_src w)), snd (w_src w)) (w_cells w) (w_trace w))).
    { intros [src cs tr0]. unfold create, mk_skip_of. cbn -[nth_error firstn app length with_cell]. unfold with_cell, bind. cbn -[nth_error firstn app length].
      rewrite nth_error_app2, Nat.sub_diag by lia. cbn -[firstn app length]. rewrite firstn_app, Nat.sub_diag, firstn_all, firstn_O, app_nil_r. reflexivity. }
    rewrite EC. cbn [w_src w_cells w_trace fst snd].
    destruct (IH f (S cnt) stk cells tr (k + (n + 2)) ltac:(lia)) as (st' & k' & E' & Hk). fold square. unfold sf_prepare. cbn [sf_cur sf_stack]. rewrite E'.
    exists st', (n + 2 + k'). split; [|lia]. do 4 f_equal. lia.
Qed.
End Square.

Lemma square_parse env n v : exists m k, parse_counted env m TNil v square (aaa n) = Done (SUCCESS, k) /\ 2 * k = n * (n + 3).
Proof.
  destruct (square_runs env DNil n (2 * n + 10) 0 [] [v] [] 0 (le_n _)) as (st & k & E & Hk). exists (2 * n + 10), k. split; [|exact Hk].
  unfold parse_counted, top_run, bind, top_consume.
  change (top_create (counted sf_ops) TNil square (World (sf_make (aaa n), 0) [v] [])) with (@Done (pst * world (sfwd * nat)) (PRepeat 0 fresh_item, World (Sfwd (aaa n) [aaa n], 0) [v] [])).
  cbv beta iota. change (top_ctx TNil) with (Ctx Fail DNil). change (top_dst TNil) with DNil. now rewrite E.
Qed.

Lemma square_not_linear env : ~ within 1 (fun inp k => exists n t v r, parse_counted env n t v square inp = Done (r, k)).
Proof.
  intros [c Hc]. destruct (square_parse env (2 * c + 2) VNil) as (m & k & E & Hk).
  specialize (Hc (aaa (2 * c + 2)) k ltac:(eauto 6)). unfold aaa in Hc. rewrite repeat_length, Nat.pow_1_r in Hc. nia.
Qed.
