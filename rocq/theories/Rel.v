(** Running the machine on two related sources: a simulation that also covers more fuel. *)
From Coq Require Import List ZArith Bool Arith Lia.
From Verif Require Import Base CharSet Source Dst Pattern Parser.
Import ListNotations.

(** Induction on patterns, through the lists of parts. *)
Section PatInd.
Variable P : pat -> Prop.
Hypothesis HChar : forall s, P (Char s).
Hypothesis HCharSymbol : forall m, P (CharSymbol m).
Hypothesis HEoi : P Eoi.
Hypothesis HPass : P Pass.
Hypothesis HFail : P Fail.
Hypothesis HLit : forall s, P (Lit s).
Hypothesis HSymbol : forall m, P (Symbol m).
Hypothesis HUInt : forall b lo hi, P (UInt b lo hi).
Hypothesis HInt : forall b lo hi, P (Int b lo hi).
Hypothesis HSeq : forall l, Forall P l -> P (Seq l).
Hypothesis HAlt : forall l, Forall P l -> P (Alt l).
Hypothesis HRepeat : forall lo hi q, P q -> P (Repeat lo hi q).
Hypothesis HNot : forall q, P q -> P (Not q).
Hypothesis HOpt : forall q, P q -> P (Opt q).
Hypothesis HDiscard : forall q, P q -> P (Discard q).
Hypothesis HLexeme : forall q, P q -> P (Lexeme q).
Hypothesis HWithSkipper : forall q s, P q -> P s -> P (WithSkipper q s).
Hypothesis HBindDst : forall q, P q -> P (BindDst q).
Hypothesis HConstruct : forall args q, P q -> P (Construct args q).
Hypothesis HAct : forall a q, P q -> P (Act a q).
Hypothesis HExcept : forall q n, P q -> P n -> P (Except q n).
Hypothesis HPList : forall q s, P q -> P s -> P (PList q s).
Hypothesis HRecur : forall id b, P (Recur id b).

Fixpoint pat_ind' (p : pat) : P p :=
  let fix all (l : list pat) : Forall P l :=
    match l with
    | [] => Forall_nil P
    | q :: t => Forall_cons q (pat_ind' q) (all t)
    end in
  match p with
  | Char s => HChar s
  | CharSymbol m => HCharSymbol m
  | Eoi => HEoi
  | Pass => HPass
  | Fail => HFail
  | Lit s => HLit s
  | Symbol m => HSymbol m
  | UInt b lo hi => HUInt b lo hi
  | Int b lo hi => HInt b lo hi
  | Seq l => HSeq l (all l)
  | Alt l => HAlt l (all l)
  | Repeat lo hi q => HRepeat lo hi q (pat_ind' q)
  | Not q => HNot q (pat_ind' q)
  | Opt q => HOpt q (pat_ind' q)
  | Discard q => HDiscard q (pat_ind' q)
  | Lexeme q => HLexeme q (pat_ind' q)
  | WithSkipper q s => HWithSkipper q s (pat_ind' q) (pat_ind' s)
  | BindDst q => HBindDst q (pat_ind' q)
  | Construct args q => HConstruct args q (pat_ind' q)
  | Act a q => HAct a q (pat_ind' q)
  | Except q n => HExcept q n (pat_ind' q) (pat_ind' n)
  | PList q s => HPList q s (pat_ind' q) (pat_ind' s)
  | Recur id b => HRecur id b
  end.
End PatInd.

(** How two results of a source operation are related. *)
Definition rel_out {S1 S2} (R : S1 -> S2 -> Prop) (o1 : outcome S1) (o2 : outcome S2) : Prop :=
  match o1, o2 with
  | Done a, Done b => R a b
  | Err e, Err e' => e = e'
  | _, _ => False
  end.

Record ops_rel {S1 S2} (o1 : source_ops S1) (o2 : source_ops S2) (R : S1 -> S2 -> Prop) : Prop := {
  or_empty : forall a b, R a b -> so_empty o1 a = so_empty o2 b;
  or_final : forall a b, R a b -> so_final o1 a = so_final o2 b;
  or_next : forall a b, R a b -> so_next o1 a = so_next o2 b;
  or_advance : forall a b, R a b -> rel_out R (so_advance o1 a) (so_advance o2 b);
  or_prepare : forall a b, R a b -> R (so_prepare o1 a) (so_prepare o2 b);
  or_commit : forall a b, R a b -> rel_out R (so_commit o1 a) (so_commit o2 b);
  or_cancel : forall a b, R a b -> rel_out R (so_cancel o1 a) (so_cancel o2 b) }.

Section Rel.
Context {S1 S2 : Type} (o1 : source_ops S1) (o2 : source_ops S2) (R : S1 -> S2 -> Prop).
Context (bad : err -> Prop).
Hypothesis Hops : ops_rel o1 o2 R.
Hypothesis Hfuel : bad EFuel.
(** Either both machines dispatch alike, or the first one gives up with EShape. *)
Hypothesis Hres : so_resumable o1 = so_resumable o2 \/ (so_resumable o2 = true /\ bad EShape).

Definition Rw (w1 : world S1) (w2 : world S2) : Prop :=
  R (w_src w1) (w_src w2) /\ w_cells w1 = w_cells w2 /\ w_trace w1 = w_trace w2.

Definition lsim {A} (m1 : M S1 A) (m2 : M S2 A) : Prop :=
  forall w1 w2, Rw w1 w2 ->
  match m1 w1 with
  | Done (a, w1') => exists w2', m2 w2 = Done (a, w2') /\ Rw w1' w2'
  | Err e => bad e \/ m2 w2 = Err e
  end.

Lemma lsim_ret {A} (a : A) : lsim (ret a) (ret a).
Proof. intros w1 w2 H. exists w2. split; [reflexivity|exact H]. Qed.

Lemma lsim_raise {A} e : lsim (@raise S1 A e) (@raise S2 A e).
Proof. intros w1 w2 H. cbn. auto. Qed.

Lemma lsim_bad {A} e (m : M S2 A) : bad e -> lsim (@raise S1 A e) m.
Proof. intros He w1 w2 H. cbn. auto. Qed.

Lemma lsim_bind {A B} (m1 : M S1 A) m2 (f1 : A -> M S1 B) f2 :
  lsim m1 m2 -> (forall a, lsim (f1 a) (f2 a)) -> lsim (bind m1 f1) (bind m2 f2).
Proof.
  intros Hm Hf w1 w2 H. unfold bind. specialize (Hm w1 w2 H).
  destruct (m1 w1) as [[a w1']|e].
  - destruct Hm as (w2' & -> & H'). apply (Hf a _ _ H').
  - destruct Hm as [?| ->]; auto.
Qed.

Lemma lsim_on_cells f : lsim (on_cells f) (on_cells f).
Proof.
  intros w1 w2 (Hr & Hc & Ht). unfold on_cells. rewrite Hc.
  destruct (f (w_cells w2)); auto. eexists. split; [reflexivity|]. repeat split; auto.
Qed.

Lemma lsim_empty : lsim (m_empty o1) (m_empty o2).
Proof.
  intros w1 w2 H. unfold m_empty. rewrite (or_empty _ _ _ Hops _ _ (proj1 H)).
  exists w2. split; [reflexivity|exact H].
Qed.

Lemma lsim_final : lsim (m_final o1) (m_final o2).
Proof.
  intros w1 w2 H. unfold m_final. rewrite (or_final _ _ _ Hops _ _ (proj1 H)).
  exists w2. split; [reflexivity|exact H].
Qed.

Lemma lsim_next : lsim (m_next o1) (m_next o2).
Proof.
  intros w1 w2 H. unfold m_next. rewrite (or_next _ _ _ Hops _ _ (proj1 H)).
  destruct (so_next o2 (w_src w2)); auto. exists w2. split; [reflexivity|exact H].
Qed.

Lemma lsim_src f1 f2 :
  (forall a b, R a b -> rel_out R (f1 a) (f2 b)) -> lsim (m_src f1) (m_src f2).
Proof.
  intros Hf w1 w2 (Hr & Hc & Ht). unfold m_src. specialize (Hf _ _ Hr). unfold rel_out in Hf.
  destruct (f1 (w_src w1)), (f2 (w_src w2)); try contradiction; subst; auto.
  eexists. split; [reflexivity|]. repeat split; auto.
Qed.

Lemma lsim_advance : lsim (m_advance o1) (m_advance o2).
Proof. apply lsim_src, (or_advance _ _ _ Hops). Qed.
Lemma lsim_prepare : lsim (m_prepare o1) (m_prepare o2).
Proof. apply lsim_src. intros. cbn. now apply (or_prepare _ _ _ Hops). Qed.
Lemma lsim_commit : lsim (m_commit o1) (m_commit o2).
Proof. apply lsim_src, (or_commit _ _ _ Hops). Qed.
Lemma lsim_cancel : lsim (m_cancel o1) (m_cancel o2).
Proof. apply lsim_src, (or_cancel _ _ _ Hops). Qed.

Lemma lsim_assign d v : lsim (m_assign d v) (m_assign d v).
Proof. apply lsim_on_cells. Qed.

Lemma lsim_with_cell {A} v (f1 : nat -> M S1 A) f2 :
  (forall l, lsim (f1 l) (f2 l)) -> lsim (with_cell v f1) (with_cell v f2).
Proof.
  intros Hf w1 w2 (Hr & Hc & Ht). unfold with_cell. rewrite Hc.
  specialize (Hf (length (w_cells w2))
                 (World (w_src w1) (w_cells w2 ++ [v]) (w_trace w1))
                 (World (w_src w2) (w_cells w2 ++ [v]) (w_trace w2))).
  destruct (f1 _ _) as [[a w1']|e].
  - destruct Hf as (w2' & -> & Hr' & Hc' & Ht'); [repeat split; auto|].
    rewrite Hc'. destruct (nth_error (w_cells w2') _); auto.
    eexists. split; [reflexivity|]. repeat split; auto.
  - destruct Hf as [?| ->]; auto. repeat split; auto.
Qed.

Lemma lsim_act_dispatch a land d c : lsim (act_dispatch a land d c) (act_dispatch a land d c).
Proof.
  unfold act_dispatch. destruct (conv (ac_land a) land); [|apply lsim_raise].
  intros w1 w2 (Hr & Hc & Ht). rewrite Hc, Ht.
  destruct (if ac_param a then load (w_cells w2) (c_bound c) else Done VNil) as [b|]; auto.
  destruct (ac_fun a a0 b) as [r b'].
  destruct (if ac_param a then _ else _); auto.
  destruct (ac_void a).
  - eexists. split; [reflexivity|]. repeat split; auto.
  - apply lsim_assign. repeat split; auto.
Qed.

Definition skip_rel (k1 : option (M S1 pst)) (k2 : option (M S2 pst)) : Prop :=
  match k1, k2 with
  | None, None => True
  | Some a, Some b => lsim a b
  | _, _ => False
  end.

Ltac step :=
  match goal with
  | |- lsim (ret _) (ret _) => apply lsim_ret
  | |- lsim (raise _) (raise _) => apply lsim_raise
  | |- lsim (bind _ _) (bind _ _) => apply lsim_bind; [|intro]
  | |- lsim (on_cells _) (on_cells _) => apply lsim_on_cells
  | |- lsim (m_empty _) (m_empty _) => apply lsim_empty
  | |- lsim (m_final _) (m_final _) => apply lsim_final
  | |- lsim (m_next _) (m_next _) => apply lsim_next
  | |- lsim (m_advance _) (m_advance _) => apply lsim_advance
  | |- lsim (m_prepare _) (m_prepare _) => apply lsim_prepare
  | |- lsim (m_commit _) (m_commit _) => apply lsim_commit
  | |- lsim (m_cancel _) (m_cancel _) => apply lsim_cancel
  | |- lsim (m_assign _ _) (m_assign _ _) => apply lsim_assign
  | |- lsim (with_cell _ _) (with_cell _ _) => apply lsim_with_cell; intro
  | |- lsim (act_dispatch _ _ _ _) (act_dispatch _ _ _ _) => apply lsim_act_dispatch
  | |- lsim (if ?b then _ else _) (if ?b then _ else _) => destruct b
  | |- lsim (match ?x with _ => _ end) (match ?x with _ => _ end) => destruct x
  | |- lsim (let '(_, _) := ?x in _) (let '(_, _) := ?x in _) => destruct x
  end.

Lemma lsim_adapt k1 k2 rq d p raw1 raw2 :
  skip_rel k1 k2 -> (forall rq d, lsim (raw1 rq d) (raw2 rq d)) ->
  lsim (adapt o1 k1 rq d p raw1) (adapt o2 k2 rq d p raw2).
Proof.
  intros Hk Hr. unfold adapt.
  destruct (r_recur rq); auto.
  assert (forall rq, lsim
    (if r_atomic rq && negb (f_atomic p)
     then bind (with_cell (default_init (dst_value_ty d))
            (fun lvl => raw1 (unatomic_req rq) (dst_cell lvl (dst_value_ty d))))
          (fun x => ret (PAtomic (snd x) (fst x))) else raw1 rq d)
    (if r_atomic rq && negb (f_atomic p)
     then bind (with_cell (default_init (dst_value_ty d))
            (fun lvl => raw2 (unatomic_req rq) (dst_cell lvl (dst_value_ty d))))
          (fun x => ret (PAtomic (snd x) (fst x))) else raw2 rq d)) as HA.
  { intros. repeat step; auto. }
  destruct k1 as [k1|], k2 as [k2|]; try contradiction; repeat step; auto.
Qed.

Lemma lsim_create_in p : forall k1 k2 rq d,
  skip_rel k1 k2 -> lsim (create_in o1 k1 rq d p) (create_in o2 k2 rq d p).
Proof.
  induction p using pat_ind'; intros k1 k2 rq d Hk; cbn [create_in];
    apply lsim_adapt; auto; intros rq' d'; repeat step; auto.
  all: try (inversion H; subst; auto; fail).
  - apply IHp. exact I.
  - apply IHp1. destruct (is_fail p2); cbn; auto. apply IHp2. exact I.
Qed.

Lemma skip_rel_of c : skip_rel (mk_skip_of o1 c) (mk_skip_of o2 c).
Proof.
  unfold mk_skip_of. destruct (is_fail (c_skip c)); cbn; auto. apply lsim_create_in. exact I.
Qed.

Lemma lsim_create c rq d p : lsim (create o1 c rq d p) (create o2 c rq d p).
Proof. apply lsim_create_in, skip_rel_of. Qed.

Context (env : nat -> option pat).

Definition lsim_self (s1 : @consume_ty S1) (s2 : @consume_ty S2) : Prop :=
  forall c rq d p st, lsim (s1 c rq d p st) (s2 c rq d p st).

Section Classes.
Context (s1 : @consume_ty S1) (s2 : @consume_ty S2) (Hs : lsim_self s1 s2).

Ltac go := repeat step; auto using lsim_create.

Lemma lsim_seq_from c d l : forall rest i q a,
  lsim (seq_from o1 s1 c d l i q rest a) (seq_from o2 s2 c d l i q rest a).
Proof. induction rest as [|q' rest IH]; intros; cbn; go. Qed.

Lemma lsim_alt_from c rq d : forall rest i q a,
  lsim (alt_from o1 s1 c rq d i q rest a) (alt_from o2 s2 c rq d i q rest a).
Proof. induction rest as [|q' rest IH]; intros; cbn; go. Qed.

Lemma lsim_nary l i k1 k2 :
  (forall q rest, lsim (k1 q rest) (k2 q rest)) -> lsim (nary_enter o1 l i k1) (nary_enter o2 l i k2).
Proof.
  intros Hk. unfold nary_enter. destruct Hres as [-> | [-> Hb]].
  - go.
  - cbn. destruct (negb (so_resumable o1) && negb (i =? 0)); [now apply lsim_bad|go].
Qed.

Lemma lsim_step : lsim_self (consume_step o1 env s1) (consume_step o2 env s2).
Proof.
  intros c rq d p st. unfold consume_step.
  destruct st;
    [ unfold skip_consume | unfold clean_consume | unfold atomic_consume | .. ]; [go.. | | | | | | | | | | | | | | | ].
  all: destruct p; try apply lsim_raise; try apply lsim_ret;
    unfold char_consume, char_symbol_consume, eoi_consume, lit_consume, starved, sym_consume, sym_stop, uint_consume,
           int_consume, int_digit, int_negate, repeat_consume, not_consume, opt_consume,
           forward_consume, construct_consume, action_consume, except_consume, list_consume,
           recur_consume.
  all: try (apply lsim_nary; intros; first [apply lsim_seq_from | apply lsim_alt_from]).
  all: go.
Qed.
End Classes.

Lemma lsim_consume n : forall m, n <= m -> lsim_self (consume o1 env n) (consume o2 env m).
Proof.
  induction n as [|n IH]; intros m H c rq d p st.
  - apply lsim_bad, Hfuel.
  - destruct m as [|m]; [lia|]. cbn. apply lsim_step. apply IH. lia.
Qed.

(** With the same fuel, running out of it is no excuse. *)
Lemma lsim_consume_same n : lsim_self (consume o1 env n) (consume o2 env n).
Proof.
  induction n as [|n IH]; intros c rq d p st.
  - apply lsim_raise.
  - cbn. now apply lsim_step.
Qed.

End Rel.
