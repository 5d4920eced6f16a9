(** The constructors of the machine over a range, as functions of the cells. *)
From Coq Require Import List ZArith Bool Arith Lia.
From Verif Require Import Base CharSet Source Dst Pattern Parser Rel Safety Big.
Import ListNotations.

Notation W s stk cs tr := (World (Sfwd s stk) cs tr).

(** The parser of a skipper: it does not depend on anything. *)
Fixpoint skip_st (p : pat) : pst :=
  match p with
  | Alt l => match l with q :: _ => PNary 0 (skip_st q) | [] => PLeaf end
  | Discard q | Lexeme q => POne (skip_st q)
  | _ => PLeaf
  end.

Definition mk_ty := list val -> outcome (pst * list val).

Definition mk_map (f : pst -> pst) (m : mk_ty) : mk_ty := fun cs =>
  match m cs with Done (a, cs') => Done (f a, cs') | Err e => Err e end.

Definition mk_cell (v : val) (k : val -> pst -> pst) (f : nat -> mk_ty) : mk_ty := fun cs =>
  let lvl := length cs in
  match f lvl (cs ++ [v]) with
  | Done (a, cs') =>
    match nth_error cs' lvl with
    | Some v' => Done (k v' a, firstn lvl cs')
    | None => Err EShape
    end
  | Err e => Err e
  end.

Definition mk_ret (a : pst) : mk_ty := fun cs => Done (a, cs).

Definition mk_atm_of (rq : req) (d : dst) (p : pat) (raw : req -> dst -> mk_ty) : mk_ty :=
  if wants_atomic rq p
  then mk_cell (default_init (dst_value_ty d)) PAtomic
         (fun lvl => raw (unatomic_req rq) (dst_cell lvl (dst_value_ty d)))
  else raw rq d.
Definition mk_cln_of (rq : req) (d : dst) (p : pat) (raw : req -> dst -> mk_ty) : mk_ty :=
  if wants_clean rq p then mk_map PClean (mk_atm_of (unclean_req rq) d p raw)
  else mk_atm_of rq d p raw.
Definition mk_adapt (sk : option pst) (rq : req) (d : dst) (p : pat) (raw : req -> dst -> mk_ty) : mk_ty :=
  if r_recur rq then raw rq d
  else match sk with
       | None => mk_cln_of rq d p raw
       | Some s => mk_map (PSkip false s) (mk_cln_of rq d p raw)
       end.

Definition sk_of (s : pat) : option pst := if is_fail s then None else Some (skip_st s).

Fixpoint mk_in (sk : option pst) (rq : req) (d : dst) (p : pat) {struct p} : mk_ty :=
  mk_adapt sk rq d p (fun rq d =>
  match p with
  | Char _ | CharSymbol _ | Eoi | Fail => mk_ret PLeaf
  | Pass => fun cs => if r_consumes rq then Err EType else Done (PLeaf, cs)
  | Lit s => mk_ret (PLit s)
  | Symbol m => mk_ret (PSym (trie_build m) None)
  | UInt _ _ _ => fun cs => match num_zero cs d with Done c => Done (PUInt 0, c) | Err e => Err e end
  | Int _ _ _ => fun cs => match num_zero cs d with Done c => Done (PInt 0 true false, c) | Err e => Err e end
  | Seq l => match l with
             | [] => fun _ => Err EType
             | q :: _ => match seq_dst l 0 d with
                         | Err e => fun _ => Err e
                         | Done d' => mk_map (PNary 0) (mk_in sk seq_req d' q)
                         end
             end
  | Alt l => match l with
             | [] => fun _ => Err EType
             | q :: _ => mk_map (PNary 0) (mk_in sk (alt_req rq) d q)
             end
  | Repeat lo hi q => fun cs =>
      if r_consumes rq && (lo =? 0) then Err EType
      else mk_map (PRepeat 0) (mk_in sk (repeat_req lo hi rq) d q) cs
  | Not q => mk_map PNot (mk_in sk (not_req rq) d q)
  | Opt q => mk_map POpt (mk_in sk (opt_req rq) d q)
  | Discard q => mk_map POne (mk_in sk rq DNil q)
  | Lexeme q => mk_map POne (mk_in None rq d q)
  | WithSkipper q s => mk_map POne (mk_in (sk_of s) rq d q)
  | BindDst q => mk_map POne (mk_in sk (unatomic_req rq) d q)
  | Construct args q => mk_cell (value_init (TTuple args)) PConstruct
                          (fun lvl => mk_in sk (unatomic_req rq) (dst_cell lvl (TTuple args)) q)
  | Act a q => mk_cell (default_init (ac_land a)) PAction
                 (fun lvl => mk_in sk (action_req rq) (dst_cell lvl (ac_land a)) q)
  | Except _ neg => mk_map (PExcept 0) (mk_in sk neg_req DNil neg)
  | PList q _ => mk_map (PListSt 0) (mk_in sk list_req d q)
  | Recur _ _ => mk_ret (PRecur None)
  end).

(** The parser itself, without adapters. *)
Definition mk_raw (sk : option pst) (rq : req) (d : dst) (p : pat) : mk_ty :=
  match p with
  | Char _ | CharSymbol _ | Eoi | Fail => mk_ret PLeaf
  | Pass => fun cs => if r_consumes rq then Err EType else Done (PLeaf, cs)
  | Lit s => mk_ret (PLit s)
  | Symbol m => mk_ret (PSym (trie_build m) None)
  | UInt _ _ _ => fun cs => match num_zero cs d with Done c => Done (PUInt 0, c) | Err e => Err e end
  | Int _ _ _ => fun cs => match num_zero cs d with Done c => Done (PInt 0 true false, c) | Err e => Err e end
  | Seq l => match l with
             | [] => fun _ => Err EType
             | q :: _ => match seq_dst l 0 d with
                         | Err e => fun _ => Err e
                         | Done d' => mk_map (PNary 0) (mk_in sk seq_req d' q)
                         end
             end
  | Alt l => match l with
             | [] => fun _ => Err EType
             | q :: _ => mk_map (PNary 0) (mk_in sk (alt_req rq) d q)
             end
  | Repeat lo hi q => fun cs =>
      if r_consumes rq && (lo =? 0) then Err EType
      else mk_map (PRepeat 0) (mk_in sk (repeat_req lo hi rq) d q) cs
  | Not q => mk_map PNot (mk_in sk (not_req rq) d q)
  | Opt q => mk_map POpt (mk_in sk (opt_req rq) d q)
  | Discard q => mk_map POne (mk_in sk rq DNil q)
  | Lexeme q => mk_map POne (mk_in None rq d q)
  | WithSkipper q s => mk_map POne (mk_in (sk_of s) rq d q)
  | BindDst q => mk_map POne (mk_in sk (unatomic_req rq) d q)
  | Construct args q => mk_cell (value_init (TTuple args)) PConstruct
                          (fun lvl => mk_in sk (unatomic_req rq) (dst_cell lvl (TTuple args)) q)
  | Act a q => mk_cell (default_init (ac_land a)) PAction
                 (fun lvl => mk_in sk (action_req rq) (dst_cell lvl (ac_land a)) q)
  | Except _ neg => mk_map (PExcept 0) (mk_in sk neg_req DNil neg)
  | PList q _ => mk_map (PListSt 0) (mk_in sk list_req d q)
  | Recur _ _ => mk_ret (PRecur None)
  end.

Lemma mk_in_eq sk rq d p : mk_in sk rq d p = mk_adapt sk rq d p (fun rq d => mk_raw sk rq d p).
Proof. destruct p; reflexivity. Qed.

(** The machine's constructors do that, and push their marks. *)
Definition makes (m : M sfwd pst) (f : mk_ty) : Prop := forall s stk cs tr,
  m (W s stk cs tr) =
  match f cs with
  | Done (a, cs') => Done (a, W s (repeat s (owed a) ++ stk) cs' tr)
  | Err e => Err e
  end.

Lemma makes_ret a : owed a = 0 -> makes (ret a) (mk_ret a).
Proof. intros H s stk cs tr. cbn. now rewrite H. Qed.

Lemma makes_map m f k : makes m f -> (forall a, owed (k a) = owed a) ->
  makes (bind m (fun a => ret (k a))) (mk_map k f).
Proof.
  intros H Hk s stk cs tr. unfold bind, mk_map. rewrite H.
  destruct (f cs) as [[a cs']|e]; cbn; auto. now rewrite Hk.
Qed.

Lemma makes_mark m f k : makes m f -> (forall a, owed (k a) = Datatypes.S (owed a)) ->
  makes (bind m (fun a => bind (m_prepare sf_ops) (fun _ => ret (k a)))) (mk_map k f).
Proof.
  intros H Hk s stk cs tr. unfold bind, mk_map. rewrite H.
  destruct (f cs) as [[a cs']|e]; cbn; auto. now rewrite Hk.
Qed.

Lemma makes_cell v k g f : (forall l, makes (g l) (f l)) -> (forall v a, owed (k v a) = owed a) ->
  makes (bind (with_cell v g) (fun x => ret (k (snd x) (fst x)))) (mk_cell v k f).
Proof.
  intros H Hk s stk cs tr. unfold bind, mk_cell, with_cell. cbn [w_cells w_src w_trace].
  rewrite H. destruct (f (length cs) (cs ++ [v])) as [[a cs']|e]; cbn; auto.
  destruct (nth_error cs' (length cs)); cbn; auto. now rewrite Hk.
Qed.

Lemma sfree_not_fail p : sfree p = true -> f_clean p = true /\ f_atomic p = true.
Proof. destruct p; cbn; try discriminate; auto. Qed.

Lemma makes_skip p : sfree p = true -> makes (create_in sf_ops None skip_req DNil p) (mk_ret (skip_st p))
  /\ owed (skip_st p) = 0.
Proof.
  induction p using pat_ind'; cbn [sfree]; try discriminate; intros Hs.
  1-4: split; [intros s0 stk cs tr; reflexivity|reflexivity].
  - destruct l as [|q l]; [discriminate|]. apply andb_prop in Hs. destruct Hs as [H1 H2].
    inversion H; subst. destruct (H4 H1) as [A B]. split; [|exact B].
    intros s0 stk cs tr. cbn -[create_in]. unfold bind. 
    change (create_in sf_ops None skip_req DNil (Alt (q :: l)) (W s0 stk cs tr)) with
      (bind (create_in sf_ops None skip_req DNil q) (fun c => ret (PNary 0 c)) (W s0 stk cs tr)).
    unfold bind. rewrite A. cbn. now rewrite B.
  - destruct (IHp Hs) as [A B]. split; [|exact B].
    intros s0 stk cs tr.
    change (create_in sf_ops None skip_req DNil (Discard p) (W s0 stk cs tr)) with
      (bind (create_in sf_ops None skip_req DNil p) (fun c => ret (POne c)) (W s0 stk cs tr)).
    unfold bind. rewrite A. cbn. now rewrite B.
  - destruct (IHp Hs) as [A B]. split; [|exact B].
    intros s0 stk cs tr.
    change (create_in sf_ops None skip_req DNil (Lexeme p) (W s0 stk cs tr)) with
      (bind (create_in sf_ops None skip_req DNil p) (fun c => ret (POne c)) (W s0 stk cs tr)).
    unfold bind. rewrite A. cbn. now rewrite B.
Qed.

(** The skippers below a pattern are without marks. *)
Fixpoint skips_ok (p : pat) : bool :=
  match p with
  | Seq l | Alt l => forallb skips_ok l
  | Repeat _ _ q | Not q | Opt q | Discard q | Lexeme q | BindDst q | Construct _ q | Act _ q => skips_ok q
  | WithSkipper q s => (is_fail s || sfree s) && skips_ok q
  | Except q s | PList q s => skips_ok q && skips_ok s
  | _ => true
  end.

Definition skip_makes (k : option (M sfwd pst)) (sk : option pst) : Prop :=
  match k, sk with
  | None, None => True
  | Some m, Some s => makes m (mk_ret s) /\ owed s = 0
  | _, _ => False
  end.

Lemma makes_adapt k sk rq d p raw1 raw2 :
  skip_makes k sk -> (forall rq d, makes (raw1 rq d) (raw2 rq d)) ->
  makes (adapt sf_ops k rq d p raw1) (mk_adapt sk rq d p raw2).
Proof.
  intros Hk Hr. unfold adapt, mk_adapt. destruct (r_recur rq); auto.
  assert (forall rq, makes
    (if r_atomic rq && negb (f_atomic p)
     then bind (with_cell (default_init (dst_value_ty d))
            (fun lvl => raw1 (unatomic_req rq) (dst_cell lvl (dst_value_ty d))))
          (fun x => ret (PAtomic (snd x) (fst x))) else raw1 rq d) (mk_atm_of rq d p raw2)) as HA.
  { intros rq'. unfold mk_atm_of, wants_atomic. destruct (r_atomic rq' && negb (f_atomic p)); auto.
    apply makes_cell; auto. }
  assert (makes (if r_clean rq && negb (f_clean p)
      then bind ((fun rq => if r_atomic rq && negb (f_atomic p)
     then bind (with_cell (default_init (dst_value_ty d))
            (fun lvl => raw1 (unatomic_req rq) (dst_cell lvl (dst_value_ty d))))
          (fun x => ret (PAtomic (snd x) (fst x))) else raw1 rq d) (unclean_req rq))
            (fun c => bind (m_prepare sf_ops) (fun _ => ret (PClean c)))
      else (fun rq => if r_atomic rq && negb (f_atomic p)
     then bind (with_cell (default_init (dst_value_ty d))
            (fun lvl => raw1 (unatomic_req rq) (dst_cell lvl (dst_value_ty d))))
          (fun x => ret (PAtomic (snd x) (fst x))) else raw1 rq d) rq) (mk_cln_of rq d p raw2)) as HC.
  { unfold mk_cln_of, wants_clean. destruct (r_clean rq && negb (f_clean p)).
    - apply makes_mark; auto.
    - apply HA. }
  destruct k as [k|], sk as [s|]; try contradiction; auto.
  destruct Hk as [K1 K2]. intros s0 stk cs tr. unfold bind at 1. rewrite K1. cbn [mk_ret].
  rewrite K2. cbn [repeat app].
  match goal with |- bind ?m ?f ?w = _ => change (bind m f w = match mk_map (PSkip false s) (mk_cln_of rq d p raw2) cs with
     | Done (a, cs') => Done (a, W s0 (repeat s0 (owed a) ++ stk) cs' tr) | Err e => Err e end) end.
  apply (makes_map _ _ _ HC). intros a. cbn. now rewrite K2.
Qed.

Lemma makes_in p : forall k sk rq d, skips_ok p = true -> skip_makes k sk ->
  makes (create_in sf_ops k rq d p) (mk_in sk rq d p).
Proof.
  induction p using pat_ind'; intros k sk rq d Hs Hk; cbn [create_in mk_in]; apply makes_adapt; auto;
    intros rq' d'; cbn [skips_ok] in Hs.
  1-5: try (apply makes_ret; reflexivity).
  - intros s stk cs tr. destruct (r_consumes rq'); reflexivity.
  - apply makes_ret; reflexivity.
  - apply makes_ret; reflexivity.
  - intros s stk cs tr. unfold bind, on_cells. cbn. destruct (num_zero cs d'); reflexivity.
  - intros s stk cs tr. unfold bind, on_cells. cbn. destruct (num_zero cs d'); reflexivity.
  - destruct l as [|q l]; [intros s stk cs tr; reflexivity|].
    destruct (seq_dst (q :: l) 0 d') as [d1|e]; [|intros s stk cs tr; reflexivity].
    cbn [forallb] in Hs. apply andb_prop in Hs. inversion H; subst. apply makes_map; [|reflexivity].
    apply H2; tauto.
  - destruct l as [|q l]; [intros s stk cs tr; reflexivity|].
    cbn [forallb] in Hs. apply andb_prop in Hs. inversion H; subst. apply makes_map; [|reflexivity].
    apply H2; tauto.
  - destruct (r_consumes rq' && (lo =? 0)); [intros s stk cs tr; reflexivity|].
    apply makes_map; auto.
  - apply makes_mark; auto.
  - apply makes_mark; auto.
  - apply makes_map; auto.
  - apply makes_map; auto. apply IHp; auto. exact I.
  - apply andb_prop in Hs. destruct Hs as [H1 H2]. apply makes_map; auto. apply IHp1; auto.
    unfold sk_of. destruct (is_fail p2) eqn:E; [exact I|]. cbn. apply makes_skip. apply orb_prop in H1. intuition congruence.
  - apply makes_map; auto.
  - apply makes_cell; auto.
  - apply makes_cell; auto.
  - apply andb_prop in Hs. apply makes_map; [|auto]. apply IHp2; tauto.
  - apply andb_prop in Hs. apply makes_mark; [|auto]. apply IHp1; tauto.
  - apply makes_ret; reflexivity.
Qed.

Definition mk (c : ctx) (rq : req) (d : dst) (p : pat) : mk_ty := mk_in (sk_of (c_skip c)) rq d p.

Lemma skip_makes_of c : cok c = true -> skip_makes (mk_skip_of sf_ops c) (sk_of (c_skip c)).
Proof.
  unfold cok, mk_skip_of, sk_of. destruct (is_fail (c_skip c)); cbn; auto. apply makes_skip.
Qed.

Lemma create_mk c rq d p s stk cs tr : cok c = true -> skips_ok p = true ->
  create sf_ops c rq d p (W s stk cs tr) =
  match mk c rq d p cs with
  | Done (a, cs') => Done (a, W s (repeat s (owed a) ++ stk) cs' tr)
  | Err e => Err e
  end.
Proof. intros Hc Hp. apply makes_in; auto. now apply skip_makes_of. Qed.

Lemma mok_skips p : forall h rq, mok h rq p = true -> skips_ok p = true.
Proof.
  induction p using pat_ind'; intros h rq; cbn [mok skips_ok]; auto; intros Hm.
  1-2: rewrite forallb_forall in *; rewrite Forall_forall in H; eauto.
  all: repeat match goal with H : _ && _ = true |- _ => apply andb_prop in H; destruct H end; eauto.
  all: repeat match goal with |- _ && _ = true => apply andb_true_intro; split end; eauto.
Qed.
