(** How many steps forward a parser takes (C69): the accounts.

    Over the reference cursor with all input given, as in Term.v, but for whoever comes to
    an end; the counter is part of the source. *)
From Coq Require Import List ZArith Bool Arith Lia.
From Verif Require Import Base CharSet Source Dst Pattern Parser Session SpecTerm SpecSteps Rel Safety Term.
Import ListNotations.

(** What a part costs: when it matches, [c_each] per character and [c_more], and [c_all] at
    most; when it does not, [c_fail]. *)
Record costs := Costs { c_each : nat; c_more : nat; c_all : nat; c_fail : nat }.

Definition plus_costs (k : nat) (c : costs) : costs := Costs (c_each c) (k + c_more c) (k + c_all c) (k + c_fail c).

Fixpoint height (t : trie) : nat :=
  match t with Node _ l => (fix go l := match l with [] => 0 | (_, u) :: l' => Nat.max (S (height u)) (go l') end) l end.

Lemma height_child y nx nx' : assoc y (trie_child nx) = Some nx' -> height nx' < height nx.
Proof.
  destruct nx as [v l]. cbn [trie_child height]. induction l as [|[z u] l IH]; [discriminate|]. cbn [assoc].
  destruct (y =? z)%Z; [intros [= ->]; lia|]. intros H. specialize (IH H). lia.
Qed.

Section Bill.
Context (N : nat).

(** Of skipping all there is. *)
Definition skipping (c : costs) : nat := (c_each c + c_more c) * N + c_fail c.

Fixpoint bill (k : nat) (p : pat) : costs :=
  plus_costs k
  match p with
  | Char _ => Costs 1 0 1 0
  | Lit l => Costs 1 0 (length l) (length l)
  | UInt _ lo hi => Costs 1 0 (if (0 <? hi)%Z then Z.to_nat hi else N) (Z.to_nat lo)
  | Int _ lo hi => Costs 1 0 (if (0 <? hi)%Z then S (Z.to_nat hi) else N) (S (Z.to_nat lo))
  | Symbol m => let h := height (trie_build m) in Costs 0 h h h
  | Seq l =>
    (fix go l := match l with
     | [] => Costs 0 0 0 0
     | [q] => bill k q
     | q :: l' => let a := bill k q in let b := go l' in
       Costs (c_each a + c_each b) (c_more a + c_more b) (c_all a + c_all b) (c_fail a + (c_all a + c_fail b))
     end) l
  | Alt l =>
    (fix go l := match l with
     | [] => Costs 0 0 0 0
     | [q] => bill k q
     | q :: l' => let a := bill k q in let b := go l' in
       Costs (c_each a + c_each b) (c_more a + (c_fail a + c_more b)) (c_all a + (c_fail a + c_all b)) (c_fail a + c_fail b)
     end) l
  | Repeat lo hi q =>
    let a := bill k q in
    let fail := if lo =? 0 then 0 else lo * c_all a + c_fail a in
    if hi =? 0
    then let e := c_each a + c_more a in Costs e (c_fail a) (e * N + c_fail a) fail
    else Costs (c_each a) (hi * c_more a + c_fail a) (hi * c_all a + c_fail a) fail
  | Not q => let a := bill k q in Costs 0 (c_fail a) (c_fail a) (c_all a)
  | Opt q => let a := bill k q in Costs (c_each a) (c_more a + c_fail a) (c_all a + c_fail a) 0
  | Discard q | BindDst q | Construct _ q | Act _ q => bill k q
  | Lexeme q => bill 0 q
  | WithSkipper q s => if is_fail s then bill 0 q else bill (skipping (bill 0 s)) q
  | Except q r =>
    let a := bill k q in let b := bill k r in
    Costs (c_each a) (c_fail b + c_more a) (c_fail b + c_all a) (c_all b + (c_fail b + c_fail a))
  | PList q s =>
    let a := bill k q in let b := bill k s in
    let e := (c_each a + c_more a) + (c_each b + c_more b) in
    let m := (c_more a + c_more a + c_more b) + (c_all b + (c_fail a + c_fail b)) in
    Costs e m (e * N + m) 0
  | CharSymbol _ | Eoi | Pass | Fail | Recur _ _ => Costs 0 0 0 0
  end.

(** Of the parser without its adapters. *)
Definition bare_bill (k : nat) (p : pat) : costs :=
  match p with
  | Char _ => Costs 1 0 1 0
  | Lit l => Costs 1 0 (length l) (length l)
  | UInt _ lo hi => Costs 1 0 (if (0 <? hi)%Z then Z.to_nat hi else N) (Z.to_nat lo)
  | Int _ lo hi => Costs 1 0 (if (0 <? hi)%Z then S (Z.to_nat hi) else N) (S (Z.to_nat lo))
  | Symbol m => let h := height (trie_build m) in Costs 0 h h h
  | Seq l =>
    (fix go l := match l with
     | [] => Costs 0 0 0 0
     | [q] => bill k q
     | q :: l' => let a := bill k q in let b := go l' in
       Costs (c_each a + c_each b) (c_more a + c_more b) (c_all a + c_all b) (c_fail a + (c_all a + c_fail b))
     end) l
  | Alt l =>
    (fix go l := match l with
     | [] => Costs 0 0 0 0
     | [q] => bill k q
     | q :: l' => let a := bill k q in let b := go l' in
       Costs (c_each a + c_each b) (c_more a + (c_fail a + c_more b)) (c_all a + (c_fail a + c_all b)) (c_fail a + c_fail b)
     end) l
  | Repeat lo hi q =>
    let a := bill k q in
    let fail := if lo =? 0 then 0 else lo * c_all a + c_fail a in
    if hi =? 0
    then let e := c_each a + c_more a in Costs e (c_fail a) (e * N + c_fail a) fail
    else Costs (c_each a) (hi * c_more a + c_fail a) (hi * c_all a + c_fail a) fail
  | Not q => let a := bill k q in Costs 0 (c_fail a) (c_fail a) (c_all a)
  | Opt q => let a := bill k q in Costs (c_each a) (c_more a + c_fail a) (c_all a + c_fail a) 0
  | Discard q | BindDst q | Construct _ q | Act _ q => bill k q
  | Lexeme q => bill 0 q
  | WithSkipper q s => if is_fail s then bill 0 q else bill (skipping (bill 0 s)) q
  | Except q r =>
    let a := bill k q in let b := bill k r in
    Costs (c_each a) (c_fail b + c_more a) (c_fail b + c_all a) (c_all b + (c_fail b + c_fail a))
  | PList q s =>
    let a := bill k q in let b := bill k s in
    let e := (c_each a + c_more a) + (c_each b + c_more b) in
    let m := (c_more a + c_more a + c_more b) + (c_all b + (c_fail a + c_fail b)) in
    Costs e m (e * N + m) 0
  | CharSymbol _ | Eoi | Pass | Fail | Recur _ _ => Costs 0 0 0 0
  end.

Lemma bill_eq k p : bill k p = plus_costs k (bare_bill k p).
Proof. destruct p; reflexivity. Qed.

Definition seq_bill k : list pat -> costs :=
  fix go l := match l with
     | [] => Costs 0 0 0 0
     | [q] => bill k q
     | q :: l' => let a := bill k q in let b := go l' in
       Costs (c_each a + c_each b) (c_more a + c_more b) (c_all a + c_all b) (c_fail a + (c_all a + c_fail b))
     end.

Definition alt_bill k : list pat -> costs :=
  fix go l := match l with
     | [] => Costs 0 0 0 0
     | [q] => bill k q
     | q :: l' => let a := bill k q in let b := go l' in
       Costs (c_each a + c_each b) (c_more a + (c_fail a + c_more b)) (c_all a + (c_fail a + c_all b)) (c_fail a + c_fail b)
     end.
End Bill.

Section Cost.
Context (inp : list Z).
Let ops := counted (a_ops true).
Local Notation src := (cursor * nat)%type.
Local Notation world := (Parser.world (cursor * nat)%type).

(** [F n]: with fuel [n].  If it comes to an end without error, then so that [Q]. *)
Definition hol {A} (F : nat -> M src A) (Q : A -> world -> Prop) (w : world) : Prop :=
  forall n a w', F n w = Done (a, w') -> Q a w'.

Lemma hol_ret {A} (a : A) (Q : A -> world -> Prop) w : Q a w -> hol (fun _ => ret a) Q w.
Proof. intros H n b w' [= <- <-]. exact H. Qed.

Lemma hol_raise {A} e (Q : A -> world -> Prop) w : hol (fun _ => raise e) Q w.
Proof. intros n a w' H. discriminate. Qed.

Lemma hol_bind {A B} (F : nat -> M src A) (K : nat -> A -> M src B) Q w :
  hol F (fun a w' => hol (fun n => K n a) Q w') w -> hol (fun n => bind (F n) (K n)) Q w.
Proof.
  intros H n b w' E. unfold bind in E. destruct (F n w) as [[a w1]|] eqn:E1; [|discriminate].
  exact (H n a w1 E1 n b w' E).
Qed.

Lemma hol_cons {A} (F : nat -> M src A) (Q Q' : A -> world -> Prop) w :
  hol F Q w -> (forall a w', Q a w' -> Q' a w') -> hol F Q' w.
Proof. intros H HQ n a w' E. apply HQ. eauto. Qed.

Lemma hol_shift {A} (F : nat -> M src A) Q w : (exists e, F 0 w = Err e) -> hol (fun n => F (S n)) Q w -> hol F Q w.
Proof. intros [e E] H [|n] a w' E1; [congruence|eauto]. Qed.

Lemma hol_with_cell {A} v (F : nat -> nat -> M src A) (Q : A * val -> world -> Prop) w :
  (forall lvl w1, w_src w1 = w_src w ->
     hol (fun n => F n lvl) (fun a w' => forall v' w'', w_src w'' = w_src w' -> Q (a, v') w'') w1) ->
  hol (fun n => with_cell v (F n)) Q w.
Proof.
  intros H n [a v'] w' E. unfold with_cell in E. destruct (F n _ _) as [[b w1]|] eqn:E1; [|discriminate].
  destruct (nth_error _ _) as [v1|]; [|discriminate]. injection E as -> -> <-.
  refine (H (length (w_cells w)) (World (w_src w) (w_cells w ++ [v]) (w_trace w)) eq_refl n a w1 E1 v' _ _). reflexivity.
Qed.

Definition cur (w : world) : cursor := fst (w_src w).
Definition pos (w : world) : nat := a_pos (cur w).
Definition cost (w : world) : nat := snd (w_src w).
Definition stk (w : world) : list nat := a_stk (cur w).

(** Position and marks: all at [X] or behind, [k] marks at least on top of [base]. *)
Record St (X : nat) (base : list nat) (k : nat) (w : world) : Prop := {
  st_inp : a_inp (cur w) = inp;
  st_fin : a_fin (cur w) = true;
  st_pos : X <= a_pos (cur w) <= length inp;
  st_stk : exists m, stk w = m ++ base /\ k <= length m /\ Forall (fun y => X <= y <= length inp) m }.

Lemma St_src X base k w w' : w_src w' = w_src w -> St X base k w -> St X base k w'.
Proof. intros E []. constructor; unfold stk, cur in *; rewrite E; auto. Qed.

Lemma pos_src w w' : w_src w' = w_src w -> pos w' = pos w.
Proof. intros E. unfold pos, cur. now rewrite E. Qed.

Lemma cost_src w w' : w_src w' = w_src w -> cost w' = cost w.
Proof. intros E. unfold cost. now rewrite E. Qed.

Lemma St_le X base k k' w : k' <= k -> St X base k w -> St X base k' w.
Proof. intros H [A A' C (m & E & F & G)]. constructor; auto. exists m. repeat split; auto. lia. Qed.

Lemma St_here X base k w : St X base k w -> St (pos w) (stk w) 0 w.
Proof. intros [A A' C _]. constructor; auto. unfold pos. lia. exists []. repeat split; auto. Qed.

Lemma St_back X base k w Y w' : St X base k w -> St Y (stk w) 0 w' -> X <= Y -> St X base k w'.
Proof.
  intros [A A0 C (m & E & F & G)] [A' A0' C' (m' & E' & F' & G')] H. constructor; auto; [lia|].
  exists (m' ++ m). rewrite E', E, app_assoc. split; auto. rewrite app_length. split; [lia|].
  apply Forall_app. split; auto. eapply Forall_impl; [|exact G']. cbn. lia.
Qed.

Lemma pop X base k w : St X base (S k) w ->
  exists y m, stk w = y :: m ++ base /\ k <= length m /\ X <= y <= length inp /\ Forall (fun y => X <= y <= length inp) m.
Proof.
  intros [_ _ _ (m & E & F & G)]. destruct m as [|y m]; [cbn in F; lia|]. inversion G; subst. exists y, m. cbn in F. repeat split; auto; lia.
Qed.

Definition marks (X : nat) (base : list nat) (k : nat) (st : list nat) : Prop :=
  exists m, st = m ++ base /\ k <= length m /\ Forall (fun y => X <= y <= length inp) m.

Lemma St_split X base a b w : St X base (a + b) w -> exists st, marks X base b st /\ St X st a w.
Proof.
  intros [A A0 C (m & E & F & G)]. exists (skipn a m ++ base). split.
  - exists (skipn a m). split; auto. split; [rewrite skipn_length; lia|].
    rewrite <- (firstn_skipn a m) in G. now apply Forall_app in G.
  - constructor; auto. exists (firstn a m). rewrite app_assoc, firstn_skipn. split; auto. split; [rewrite firstn_length; lia|].
    rewrite <- (firstn_skipn a m) in G. now apply Forall_app in G.
Qed.

Lemma St_join X base b Z st a w : marks X base b st -> St Z st a w -> X <= Z -> St X base (a + b) w.
Proof.
  intros (m & -> & F & G) [A A0 C (m' & E' & F' & G')] H. constructor; auto; [lia|].
  exists (m' ++ m). rewrite E', app_assoc. split; auto. rewrite app_length. split; [lia|].
  apply Forall_app. split; auto. eapply Forall_impl; [|exact G']. cbn. lia.
Qed.

Lemma St_marks X base k w : St X base k w -> marks X base k (stk w).
Proof. intros [_ _ _ (m & E & F & G)]. exists m. auto. Qed.

Lemma St_low X base k w : St X base k w -> X <= pos w.
Proof. intros [_ _ C _]. unfold pos. lia. Qed.

Lemma St_high X base k w : St X base k w -> pos w <= length inp.
Proof. intros [_ _ C _]. unfold pos. lia. Qed.

(** ** Operations of the source *)
Ltac one := intros n x w1 E; injection E as <- <-.

Lemma h_empty (Q : bool -> world -> Prop) w : Q (a_empty (cur w)) w -> hol (fun _ => m_empty ops) Q w.
Proof. intros H. one. exact H. Qed.

Lemma h_final X base k (Q : bool -> world -> Prop) w : St X base k w -> Q true w -> hol (fun _ => m_final ops) Q w.
Proof. intros [_ A _ _] H. one. cbn. unfold cur in A. now rewrite A. Qed.

Lemma h_next (Q : Z -> world -> Prop) w : (forall c, Q c w) -> hol (fun _ => m_next ops) Q w.
Proof.
  intros H n x w1 E. unfold m_next in E. cbn in E. destruct (a_next (fst (w_src w))) as [c|]; [|discriminate]. injection E as <- <-. apply H.
Qed.

Lemma h_advance X base k (Q : unit -> world -> Prop) w : St X base k w ->
  (forall w', St X base k w' -> pos w' = S (pos w) -> cost w' = S (cost w) -> Q tt w') -> hol (fun _ => m_advance ops) Q w.
Proof.
  intros HS H n x w1 E. unfold m_advance, m_src in E. cbn in E. unfold a_advance in E. destruct (a_empty (fst (w_src w))) eqn:E1; [discriminate|].
  injection E as <- <-. destruct HS as [A A0 C D]. unfold a_empty in E1. unfold cur in A, C. rewrite A in E1. apply Nat.leb_gt in E1.
  apply H; auto. constructor; unfold stk, cur; cbn; auto. lia.
Qed.

Lemma h_prepare X base k (Q : unit -> world -> Prop) w : St X base k w ->
  (forall w', St X base (S k) w' -> pos w' = pos w -> cost w' = cost w -> stk w' = pos w :: stk w -> Q tt w') -> hol (fun _ => m_prepare ops) Q w.
Proof.
  intros HS H. one. apply H; auto. destruct HS as [A A0 C (m & E & F & G)]. constructor; unfold stk, cur in *; cbn; auto.
  exists (pos w :: m). unfold pos, cur. rewrite E. repeat split; cbn; auto. lia.
Qed.

Lemma h_commit X base k (Q : unit -> world -> Prop) w : St X base (S k) w ->
  (forall w', St X base k w' -> cost w' = cost w -> Q tt w') -> hol (fun _ => m_commit ops) Q w.
Proof.
  intros HS H n x w1 E0. destruct (pop _ _ _ _ HS) as (y & m & E & F & Hy & G). destruct HS as [A A0 C _].
  unfold m_commit, m_src in E0; cbn in E0; unfold a_commit in E0. unfold stk, cur in E. rewrite E in E0. injection E0 as <- <-.
  apply H; auto. constructor; unfold stk, cur; cbn; auto. exists m. auto.
Qed.

Lemma h_cancel X base k (Q : unit -> world -> Prop) w : St X base (S k) w ->
  (forall w', St X base k w' -> pos w' = pos w -> cost w' = cost w -> Q tt w') -> hol (fun _ => m_cancel ops) Q w.
Proof.
  intros HS H n x w1 E0. destruct (pop _ _ _ _ HS) as (y & m & E & F & Hy & G). destruct HS as [A A0 C _].
  unfold m_cancel, m_src in E0; cbn in E0; unfold a_cancel in E0. unfold stk, cur in E. rewrite E in E0. injection E0 as <- <-.
  apply H; auto. constructor; unfold stk, cur; cbn; auto. exists m. auto.
Qed.

Lemma h_cells f (Q : unit -> world -> Prop) w :
  (forall w', w_src w' = w_src w -> Q tt w') -> hol (fun _ => on_cells f) Q w.
Proof.
  intros H n [] w1 E. unfold on_cells in E. destruct (f (w_cells w)) as [c|e]; [|discriminate]. injection E as <-. now apply H.
Qed.

Lemma h_neg d ng (Q : unit -> world -> Prop) w : (forall w', w_src w' = w_src w -> Q tt w') -> hol (fun _ => int_negate d ng) Q w.
Proof. intros H. unfold int_negate. destruct ng; [now apply h_cells|now apply hol_ret, H]. Qed.

Lemma h_act a v d c (Q : unit -> world -> Prop) w : (forall w', w_src w' = w_src w -> Q tt w') -> hol (fun _ => act_dispatch a v d c) Q w.
Proof. intros H n [] w1 E. apply H. eapply act_src; eauto. Qed.

(** ** Creation *)
Fixpoint nsk (st : pst) : nat := match st with PSkip _ _ a => S (nsk a) | PClean a | PAtomic _ a => nsk a | _ => 0 end.

(** Around every parser one Skip at most. *)
Fixpoint okn (st : pst) : Prop :=
  nsk st <= 1 /\
  match st with
  | PSkip _ s a => okn s /\ okn a
  | PClean a | PAtomic _ a | PNary _ a | PRepeat _ a | PNot a | POpt a | POne a | PConstruct _ a | PAction _ a | PExcept _ a | PListSt _ a => okn a
  | _ => True
  end.

Definition made (b : nat) (X : nat) (base : list nat) (j : nat) (sk p : pat) (w0 : world) (st : pst) (w : world) : Prop :=
  St X base (owed st + j) w /\ pos w = pos w0 /\ cost w = cost w0 /\ fr sk p st /\ (okn st /\ nsk st <= b).

(** [mk] creates an object. *)
Definition makes (b : nat) (sk p : pat) (mk : M src pst) : Prop :=
  forall X base j w, St X base j w -> hol (fun _ => mk) (made b X base j sk p w) w.

Lemma h_adapt sk k rq d p raw :
  match k with None => True | Some mk => is_fail sk = false /\ makes 1 Fail sk mk end ->
  (forall rq d, makes 0 sk p (raw rq d)) -> makes 1 sk p (adapt ops k rq d p raw).
Proof.
  intros Hk Hr.
  assert (Up : forall b mk, makes b sk p mk -> b <= 1 -> makes 1 sk p mk).
  { intros b mk Hm Hb X base j w HS. eapply hol_cons; [apply Hm, HS|]. intros st w' (H1 & H2 & H3 & H4 & H5). destruct H5. split; [exact H1|repeat split; auto; try congruence; try (now constructor); cbn; lia]. }
  unfold adapt. destruct (r_recur rq); [eapply Up; [apply Hr|lia]|].
  set (atomic := fun rq => if r_atomic rq && negb (f_atomic p)
     then bind (with_cell (default_init (dst_value_ty d))
            (fun lvl => raw (unatomic_req rq) (dst_cell lvl (dst_value_ty d))))
          (fun x => ret (PAtomic (snd x) (fst x))) else raw rq d).
  assert (HA : forall rq, makes 0 sk p (atomic rq)).
  { clear -Hr. intros rq X base j w HS. unfold atomic. destruct (_ && _); [|now apply Hr].
    apply (hol_bind (fun _ => _) (fun _ => _)). apply (hol_with_cell _ (fun _ => _)). intros lvl w1 E1.
    eapply hol_cons; [apply Hr, (St_src _ _ _ _ _ E1 HS)|]. intros st w' (H1 & H2 & H3 & H4 & H5) v' w'' E2. apply hol_ret. cbn [fst snd].
    rewrite (pos_src _ _ E1) in H2. rewrite (cost_src _ _ E1) in H3. split; [eapply St_src; eauto|]. rewrite (pos_src _ _ E2), (cost_src _ _ E2).
    destruct H5. repeat split; auto; try congruence; try (now constructor); cbn; lia. }
  assert (HC : makes 0 sk p (if r_clean rq && negb (f_clean p) then
          bind (atomic (unclean_req rq)) (fun c => bind (m_prepare ops) (fun _ => ret (PClean c)))
        else atomic rq)).
  { clear -HA. intros X base j w HS. destruct (_ && _); [|now apply HA].
    apply (hol_bind (fun _ => _) (fun _ => _)). eapply hol_cons; [apply HA, HS|]. intros st w' (H1 & H2 & H3 & H4 & H5).
    apply (hol_bind (fun _ => _) (fun _ => _)). eapply h_prepare; eauto. intros w'' H6 E E' _. apply hol_ret.
    destruct H5. split; [exact H6|]. repeat split; auto; try congruence; try (now constructor); cbn; lia. }
  destruct k as [mk|]; [|eapply Up; [exact HC|lia]]. destruct Hk as [Hf Hk]. intros X base j w HS.
  apply (hol_bind (fun _ => _) (fun _ => _)). eapply hol_cons; [apply Hk, HS|]. intros s w1 (H1 & H2 & H3 & H4 & H5).
  apply (hol_bind (fun _ => _) (fun _ => _)). eapply hol_cons; [apply HC, H1|]. intros a w2 (G1 & G2 & G3 & G4 & G5).
  destruct G5, H5. apply hol_ret. split; [|repeat split; auto; try congruence; try (now constructor); cbn; lia]. cbn.
  replace (owed s + owed a + j) with (owed a + (owed s + j)) by lia. exact G1.
Qed.

Lemma h_create_in p : forall sk k rq d,
  match k with None => True | Some mk => is_fail sk = false /\ makes 1 Fail sk mk end -> makes 1 sk p (create_in ops k rq d p).
Proof.
  assert (Leaf : forall sk p st, owed st = 0 -> nsk st = 0 -> okn st -> fr sk p st -> makes 0 sk p (ret st)).
  { intros sk p0 st Ho Hn Hok Hf X base j w HS. apply hol_ret. split; [now rewrite Ho|repeat split; auto; try congruence; try (now constructor); cbn; lia]. }
  assert (One : forall (F : pst -> pst) sk p (mk : M src pst) sk' q b,
            (forall a, owed (F a) = owed a /\ nsk (F a) = 0 /\ (okn a -> okn (F a))) -> (forall a, fr sk' q a -> fr sk p (F a)) ->
            makes b sk' q mk -> makes 0 sk p (bind mk (fun a => ret (F a)))).
  { intros F sk q mk sk' q' b Ho Hf Hm X base j w HS. apply (hol_bind (fun _ => _) (fun _ => _)). eapply hol_cons; [apply Hm, HS|].
    intros a w' (H1 & H2 & H3 & H4 & H5). destruct (Ho a) as (O1 & O2 & O3). destruct H5. apply hol_ret. split; [now rewrite O1|repeat split; auto; try congruence; try (now constructor); cbn; lia]. }
  assert (Mark : forall (F : pst -> pst) sk p (mk : M src pst) q b,
            (forall a, owed (F a) = S (owed a) /\ nsk (F a) = 0 /\ (okn a -> okn (F a))) -> (forall a, fr sk q a -> fr sk p (F a)) ->
            makes b sk q mk -> makes 0 sk p (bind mk (fun a => bind (m_prepare ops) (fun _ => ret (F a))))).
  { intros F sk q mk q' b Ho Hf Hm X base j w HS. apply (hol_bind (fun _ => _) (fun _ => _)). eapply hol_cons; [apply Hm, HS|].
    intros a w' (H1 & H2 & H3 & H4 & H5). destruct (Ho a) as (O1 & O2 & O3). destruct H5. apply (hol_bind (fun _ => _) (fun _ => _)). eapply h_prepare; eauto. intros w'' H6 E E' _.
    apply hol_ret. split; [now rewrite O1|repeat split; auto; try congruence; try (now constructor); cbn; lia]. }
  assert (Cell : forall v (F : val -> pst -> pst) sk p (mk : nat -> M src pst) q b,
            (forall v a, owed (F v a) = owed a /\ nsk (F v a) = 0 /\ (okn a -> okn (F v a))) -> (forall v a, fr sk q a -> fr sk p (F v a)) ->
            (forall lvl, makes b sk q (mk lvl)) -> makes 0 sk p (bind (with_cell v mk) (fun x => ret (F (snd x) (fst x))))).
  { intros v F sk q mk q' b Ho Hf Hm X base j w HS. apply (hol_bind (fun _ => _) (fun _ => _)). apply (hol_with_cell _ (fun _ => _)). intros lvl w1 E1.
    eapply hol_cons; [apply Hm, (St_src _ _ _ _ _ E1 HS)|]. intros st w' (H1 & H2 & H3 & H4 & H5) v' w'' E2. apply hol_ret. cbn [fst snd].
    destruct (Ho v' st) as (O1 & O2 & O3). destruct H5. rewrite (pos_src _ _ E1) in H2. rewrite (cost_src _ _ E1) in H3.
    split; [rewrite O1; eapply St_src; eauto|]. rewrite (pos_src _ _ E2), (cost_src _ _ E2). repeat split; auto; try congruence; try (now constructor); cbn; lia. }
  assert (Bad : forall sk p e, makes 0 sk p (raise e)) by (intros sk p0 e X base j w HS; apply hol_raise).
  assert (Num : forall sk p f st, owed st = 0 -> nsk st = 0 -> okn st -> fr sk p st -> makes 0 sk p (bind (on_cells f) (fun _ => ret st))).
  { intros sk p0 f st Ho Hn Hok Hf X base j w HS. apply (hol_bind (fun _ => _) (fun _ => _)). apply h_cells.
    intros w' E. apply hol_ret. split; [rewrite Ho; eapply St_src; eauto|]. rewrite (pos_src _ _ E), (cost_src _ _ E). repeat split; auto; try congruence; try (now constructor); cbn; lia. }
  assert (Keep : forall a : pst, okn a -> 0 <= 1 /\ okn a) by (intros; split; auto).
  induction p using pat_ind'; intros sk k rq d Hk; cbn [create_in]; apply h_adapt; auto; clear rq d; intros rq d.
  1-3: apply Leaf; [reflexivity|reflexivity|cbn; auto|constructor].
  1: destruct (r_consumes rq); [apply Bad|apply Leaf; [reflexivity|reflexivity|cbn; auto|constructor]].
  1-3: apply Leaf; [reflexivity|reflexivity|cbn; auto|constructor].
  1-2: apply Num; [reflexivity|reflexivity|cbn; auto|constructor].
  - destruct l as [|q l]; [apply Bad|]. inversion H; subst.
    destruct (seq_dst (q :: l) 0 d) as [d'|e] eqn:E; [|apply Bad].
    apply (One (PNary 0) sk (Seq (q :: l)) _ sk q 1); [intros; cbn; auto| |auto]. intros a Ha. eapply fr_seq; eauto.
  - destruct l as [|q l]; [apply Bad|]. inversion H; subst.
    apply (One (PNary 0) sk (Alt (q :: l)) _ sk q 1); [intros; cbn; auto| |auto]. intros a Ha. eapply fr_alt; eauto.
  - destruct (_ && _); [apply Bad|]. apply (One (PRepeat 0) sk _ _ sk p 1); [intros; cbn; auto| |auto]. intros a Ha. now constructor.
  - apply (Mark PNot sk _ _ p 1); [intros; cbn; auto| |auto]. intros a Ha. now constructor.
  - apply (Mark POpt sk _ _ p 1); [intros; cbn; auto| |auto]. intros a Ha. now constructor.
  - apply (One POne sk _ _ sk p 1); [intros; cbn; auto| |auto]. intros a Ha. now constructor.
  - apply (One POne sk _ _ Fail p 1); [intros; cbn; auto| |auto]. intros a Ha. now constructor.
  - apply (One POne sk _ _ p2 p1 1); [intros; cbn; auto| |auto]. intros a Ha. now constructor.
    apply IHp1. destruct (is_fail p2) eqn:E; auto.
  - apply (One POne sk _ _ sk p 1); [intros; cbn; auto| |auto]. intros a Ha. now constructor.
  - apply (Cell _ PConstruct sk _ _ p 1); [intros; cbn; auto| |auto]. intros v a Ha. now constructor.
  - apply (Cell _ PAction sk _ _ p 1); [intros; cbn; auto| |auto]. intros v a0 Ha. now constructor.
  - apply (One (PExcept 0) sk _ _ sk p2 1); [intros; cbn; auto| |auto]. intros a Ha. now constructor.
  - apply (Mark (PListSt 0) sk _ _ p1 1); [intros; cbn; auto| |auto]. intros a Ha. now constructor.
  - apply Leaf; [reflexivity|reflexivity|cbn; auto|constructor].
Qed.

Lemma h_create sk b rq d p X base j w : St X base j w ->
  hol (fun _ => create ops (Ctx sk b) rq d p) (made 1 X base j sk p w) w.
Proof.
  revert X base j w. change (makes 1 sk p (create ops (Ctx sk b) rq d p)).
  apply h_create_in. unfold mk_skip_of. cbn [c_skip]. destruct (is_fail sk) eqn:E; auto. split; auto. apply h_create_in. exact I.
Qed.

(** ** Runs *)
Context (env : nat -> option pat).
Local Notation N := (length inp).
Notation eats := (eats (fun _ => false)).

(** What is paid between a start at [X], when the counter was at [C], and [w']. *)
Definition paid (c : costs) (X C : nat) (r : result) (w' : world) : Prop :=
  match r with
  | SUCCESS => cost w' <= C + c_each c * (pos w' - X) + c_more c /\ cost w' <= C + c_all c
  | FAILURE => cost w' <= C + c_fail c
  | PARTIAL => False
  end.

Definition post (X : nat) (base : list nat) (j : nat) (e : bool) (c : costs) (C : nat) (x : result * pst) (w' : world) : Prop :=
  St X base j w' /\ (fst x = SUCCESS -> e = true -> X < pos w') /\ paid c X C (fst x) w'.

Definition Run1 (bound : dst) (sk p : pat) (c : costs) (st : pst) : Prop :=
  forall rq d X base j w, St X base (owed st + j) w ->
  hol (fun n => consume ops env n (Ctx sk bound) rq d p st) (post X base j (eats p) c (cost w)) w.

Definition RunS (sk p : pat) (c : costs) : Prop := forall bound st, fr sk p st -> okn st -> Run1 bound sk p c st.

Definition good (sk : pat) (k : nat) : Prop :=
  is_fail sk = true \/ exists c, eats sk = true /\ RunS Fail sk c /\ skipping N c <= k.

Lemma each_split e X Y Z : X <= Y -> Y <= Z ->
  e * (Y - X) + e * (Z - Y) = e * (Z - X) /\ e * (Y - X) <= e * (Z - X) /\ e * (Z - Y) <= e * (Z - X).
Proof. intros. split; [rewrite <- Nat.mul_add_distr_l; f_equal; lia|]. split; apply Nat.mul_le_mono_l; lia. Qed.

Lemma each_le e X Y Z : X <= Y -> e * (Z - Y) <= e * (Z - X).
Proof. intros. apply Nat.mul_le_mono_l. lia. Qed.

Lemma each_step e m X Y : X < Y -> e * (Y - X) + m <= (e + m) * (Y - X).
Proof. intros. rewrite Nat.mul_add_distr_r. assert (m * 1 <= m * (Y - X)) by (apply Nat.mul_le_mono_l; lia). lia. Qed.

Lemma post_back X base j w Y e e' c c' C C' x w' :
  St X base j w -> X <= Y -> post Y (stk w) 0 e c C x w' -> (fst x = SUCCESS -> e' = true -> X < Y \/ e = true) ->
  (Y <= pos w' -> paid c Y C (fst x) w' -> paid c' X C' (fst x) w') -> post X base j e' c' C' x w'.
Proof.
  intros HS HY (B & P & D) H HP. pose proof (St_low _ _ _ _ B). split; [eapply St_back; eauto|split; auto].
  intros E1 E2. destruct (H E1 E2) as [?|E]; [lia|]. specialize (P E1 E). lia.
Qed.

Lemma paid_add a b c X C C1 r w : C1 <= C + a -> paid (plus_costs b c) X C1 r w -> paid (plus_costs (a + b) c) X C r w.
Proof. intros H. destruct r; cbn; auto; lia. Qed.

Lemma paid_le c X C C1 r w : C1 <= C -> paid c X C1 r w -> paid c X C r w.
Proof. intros H. destruct r; cbn; auto; lia. Qed.

Lemma paid_at c X C r w w' : pos w' = pos w -> cost w' = cost w -> paid c X C r w -> paid c X C r w'.
Proof. intros E1 E2. destruct r; cbn; rewrite ?E1, ?E2; auto. Qed.

Ltac hb := apply hol_bind.
Ltac step := apply hol_shift; [eexists; reflexivity|]; cbn [consume consume_step].

Lemma okn_le st : okn st -> nsk st <= 1.
Proof. destruct st; intros []; auto. Qed.

(** The adapters. *)
Lemma adapters k sk p c : good sk k -> (forall bound st, fr sk p st -> okn st -> bare st = true -> Run1 bound sk p c st) ->
  RunS sk p (plus_costs k c).
Proof.
  intros Hg Hr bound st Hf Hn.
  enough (Run1 bound sk p (plus_costs (k * nsk st) c) st) as H.
  { intros rq d X base j w HS. eapply hol_cons; [apply H, HS|]. intros [r s] w' (A & B & C). split; [exact A|split; [exact B|]].
    assert (k * nsk st <= k) by (rewrite <- (Nat.mul_1_r k) at 2; now apply Nat.mul_le_mono_l, okn_le).
    cbn [fst] in *. destruct r; cbn in *; lia. }
  induction st; intros; try (cbn [nsk]; rewrite Nat.mul_0_r; intros rq d0 X base j w HS; eapply hol_cons; [apply Hr; [exact Hf|exact Hn|reflexivity|exact HS]|];
    intros [r' s'] w' (A & B & C); split; [exact A|split; [exact B|]]; cbn [fst] in *; destruct r'; cbn in *; lia); clear Hr.
  - (* Skip *)
    inversion Hf as [? ? ? ? Hs Fs Fa| | | | | | | | | | | | | | | | | | | | | | | | |]; subst. destruct Hn as (_ & Hn1 & Hn2). specialize (IHst2 Fa Hn2). clear IHst1 Hf.
    destruct Hg as [Hg|(cc & He & HR & Hk)]; [congruence|]. cbn [nsk].
    assert (Loop : forall m s, fr Fail sk s -> okn s -> forall rq d X Z base j stk w C, length inp - Z < m -> X <= Z ->
              marks X base (owed st2 + j) stk -> St Z stk (owed s) w -> cost w <= C + (c_each cc + c_more cc) * (Z - X) ->
              hol (fun n => consume ops env n (Ctx sk bound) rq d p (PSkip false s st2)) (post X base j (eats p) (plus_costs (k * S (nsk st2)) c) C) w).
    { induction m as [|m IH]; intros s Fs' Os rq d X Z base j stk w C Hm HZ HM HS HC; [lia|].
      step. unfold skip_consume. hb. eapply hol_cons; [apply (HR DNil s Fs' Os skip_req DNil Z stk 0); now rewrite Nat.add_0_r|].
      intros [r s'] w1 (B & P & D). cbn [fst snd] in *. pose proof (St_low _ _ _ _ B) as D0. pose proof (St_high _ _ _ _ B) as D2.
      destruct r; [| |destruct D].
      - specialize (P eq_refl He). destruct D as [D _]. hb. eapply hol_cons; [apply (h_create Fail DNil), (St_here _ _ _ _ B)|].
        intros s2 w2 (A2 & B2 & B2' & C2 & O2 & _). rewrite Nat.add_0_r in A2.
        apply (IH s2 C2 O2 rq d X (pos w1) base j (Cost.stk w1) w2 C ltac:(lia) ltac:(lia)); auto.
        + pose proof (St_marks _ _ _ _ (St_join _ _ _ _ _ _ _ HM B HZ)) as M. now cbn in M.
        + rewrite B2'. pose proof (each_step (c_each cc) (c_more cc) Z (pos w1) P).
          pose proof (each_split (c_each cc + c_more cc) X Z (pos w1) HZ D0). lia.
      - cbn [paid] in D. step. unfold skip_consume. hb. eapply hol_cons; [apply (IHst2 rq d X base j w1); now apply (St_join _ _ _ _ _ _ _ HM B HZ)|].
        intros [r s2] w2 (B3 & P3 & D3). apply hol_ret. split; [exact B3|split; [exact P3|]]. cbn [fst] in *. rewrite Nat.mul_succ_r, Nat.add_comm.
        eapply paid_add; [|exact D3]. unfold skipping in Hk.
        assert ((c_each cc + c_more cc) * (Z - X) <= (c_each cc + c_more cc) * N) by (apply Nat.mul_le_mono_l; lia). lia. }
    intros rq d X base j w HS. cbn [owed] in HS. rewrite <- Nat.add_assoc in HS. destruct (St_split _ _ _ _ _ HS) as (st & HM & HS').
    eapply (Loop (S (length inp - X)) st1); eauto; lia.
  - (* Clean *)
    inversion Hf as [|? ? ? Fa| | | | | | | | | | | | | | | | | | | | | | | |]; subst. specialize (IHst Fa (proj2 Hn)). cbn [nsk].
    intros rq d X base j w HS. cbn [owed] in HS. step. unfold clean_consume. hb.
    eapply hol_cons; [apply (IHst _ d X base (S j) w); now rewrite Nat.add_succ_r|].
    intros [r a] w1 (B & P & D). cbn [fst snd] in *. destruct r; [| |destruct D]; hb.
    + eapply h_cancel; eauto. intros w2 H2 E2 E2'. apply hol_ret. split; [exact H2|split; [rewrite E2; exact P|]]. now apply (paid_at _ _ _ SUCCESS w1).
    + eapply h_commit; eauto. intros w2 H2 E2. apply hol_ret. split; [exact H2|split; [discriminate|]]. cbn in *. now rewrite E2.
  - (* Atomic *)
    inversion Hf as [| |? ? ? ? Fa| | | | | | | | | | | | | | | | | | | | | | |]; subst. specialize (IHst Fa (proj2 Hn)). cbn [nsk].
    intros rq d X base j w HS. cbn [owed] in HS. step. unfold atomic_consume. hb. apply hol_with_cell. intros lvl w1 E1.
    eapply hol_cons; [apply (IHst _ _ X base j w1), (St_src _ _ _ _ _ E1 HS)|].
    intros [r a] w2 (B & P & D) v' w3 E3. cbn [fst snd] in *. rewrite (cost_src _ _ E1) in D.
    pose proof (St_src _ _ _ _ _ E3 B) as B'. rewrite <- (pos_src _ _ E3) in P. apply (paid_at _ _ _ _ _ w3) in D; [|now apply pos_src|now apply cost_src]. destruct r; [| |destruct D].
    + hb. apply h_cells. intros w4 E4. apply hol_ret. split; [eapply St_src; eauto|split; [now rewrite (pos_src _ _ E4)|]].
      now apply (paid_at _ _ _ SUCCESS w3); [apply pos_src|apply cost_src|].
    + apply hol_ret. split; [auto|split; [discriminate|exact D]].
Qed.

(** Leaves. *)
Lemma h_starved X base j e st c C w : St X base j w -> cost w <= C + c_fail c -> hol (fun _ => starved ops st) (post X base j e c C) w.
Proof.
  intros HS HC. unfold starved. hb. eapply h_final; [exact HS|]. apply hol_ret. split; [auto|split; [discriminate|exact HC]].
Qed.

Lemma h_fails X base j e st c C w : St X base j w -> cost w <= C + c_fail c -> hol (fun _ => ret (FAILURE, st)) (post X base j e c C) w.
Proof. intros HS HC. apply hol_ret. split; [auto|split; [discriminate|exact HC]]. Qed.

Lemma run_char k sk s bound st : fr sk (Char s) st -> bare st = true -> Run1 bound sk (Char s) (bare_bill N k (Char s)) st.
Proof.
  intros Hf Hb rq d X base j w HS. inversion Hf; subst; try discriminate. cbn [owed] in HS. step. unfold char_consume.
  hb. apply h_empty. destruct (a_empty _); [apply h_starved; [exact HS|lia]|]. hb. apply h_next. intros x.
  destruct (is_valid s x); [|apply h_fails; [exact HS|lia]]. hb. apply h_cells. intros w1 E1. pose proof (St_src _ _ _ _ _ E1 HS) as H1.
  hb. eapply h_advance; eauto. intros w2 H2 E2 E2'. apply hol_ret. rewrite (cost_src _ _ E1) in E2'. pose proof (St_low _ _ _ _ H1).
  split; auto. split; [intros _ _; lia|]. cbn. lia.
Qed.

Lemma run_char_symbol k sk m bound st : fr sk (CharSymbol m) st -> bare st = true -> Run1 bound sk (CharSymbol m) (bare_bill N k (CharSymbol m)) st.
Proof.
  intros Hf Hb rq d X base j w HS. inversion Hf; subst; try discriminate. cbn [owed] in HS. step. unfold char_symbol_consume.
  hb. apply h_empty. destruct (a_empty _); [apply h_starved; [exact HS|lia]|]. hb. apply h_next. intros x.
  destruct (assoc x m); [|apply h_fails; [exact HS|lia]]. hb. apply h_cells. intros w1 E1. pose proof (St_src _ _ _ _ _ E1 HS) as H1.
  apply hol_ret. split; [auto|split; [discriminate|]]. cbn. rewrite (cost_src _ _ E1). lia.
Qed.

Lemma run_eoi k sk bound st : fr sk Eoi st -> bare st = true -> Run1 bound sk Eoi (bare_bill N k Eoi) st.
Proof.
  intros Hf Hb rq d X base j w HS. inversion Hf; subst; try discriminate. cbn [owed] in HS. step. unfold eoi_consume.
  hb. apply h_empty. destruct (a_empty _); [|apply h_fails; [exact HS|lia]]. hb. eapply h_final; [exact HS|].
  apply hol_ret. split; [auto|split; [discriminate|]]. cbn. lia.
Qed.

Lemma run_pass k sk bound st : fr sk Pass st -> bare st = true -> Run1 bound sk Pass (bare_bill N k Pass) st.
Proof.
  intros Hf Hb rq d X base j w HS. inversion Hf; subst; try discriminate. cbn [owed] in HS. step.
  apply hol_ret. split; [auto|split; [discriminate|]]. cbn. lia.
Qed.

Lemma run_fail k sk bound st : fr sk Fail st -> bare st = true -> Run1 bound sk Fail (bare_bill N k Fail) st.
Proof.
  intros Hf Hb rq d X base j w HS. inversion Hf; subst; try discriminate. cbn [owed] in HS. step. apply h_fails; [exact HS|lia].
Qed.

Ltac back H P := refine (post_back _ _ _ _ _ _ _ _ _ _ _ _ _ H _ P _ _); [lia| |].
Ltac pays r := let Hp := fresh in intros ? Hp; destruct r as [[] ?]; cbn [fst paid c_each c_more c_all c_fail] in Hp |- *; [ | |exact Hp].

Lemma run_lit k sk s bound st : fr sk (Lit s) st -> bare st = true -> Run1 bound sk (Lit s) (bare_bill N k (Lit s)) st.
Proof.
  intros Hf Hb rq d X base j w HS. inversion Hf; subst; try discriminate. cbn [owed] in HS. clear Hf Hb. cbn [SpecTerm.eats bare_bill].
  assert (Loop : forall l X base j w, St X base j w ->
            hol (fun n => consume ops env n (Ctx sk bound) rq d (Lit s) (PLit l)) (post X base j (negb (length l =? 0)) (Costs 1 0 (length l) (length l)) (cost w)) w).
  { clear. induction l as [|x l IH]; intros X base j w HS; step; unfold lit_consume.
    - apply hol_ret. split; [auto|split; [discriminate|]]. cbn. lia.
    - hb. apply h_empty. destruct (a_empty _); [apply h_starved; [exact HS|lia]|]. hb. apply h_next. intros y.
      destruct (y =? x)%Z; [|apply h_fails; [exact HS|lia]]. hb. eapply h_advance; eauto. intros w1 H1 E1 E1'.
      eapply hol_cons; [apply (IH (pos w1) (Cost.stk w1) 0), (St_here _ _ _ _ H1)|]. intros r w2 HP. pose proof (St_low _ _ _ _ HS).
      back H1 HP; [lia|]. cbn [length]. pays r; lia. }
  now apply Loop.
Qed.

Lemma run_uint k sk b lo hi bound st : fr sk (UInt b lo hi) st -> bare st = true -> Run1 bound sk (UInt b lo hi) (bare_bill N k (UInt b lo hi)) st.
Proof.
  intros Hf Hb rq d X base j w HS. inversion Hf; subst; try discriminate. cbn [owed] in HS. clear Hf Hb. cbn [SpecTerm.eats bare_bill].
  assert (Loop : forall m c X base j w, N - pos w < m -> (0 <= c)%Z -> (0 < hi -> c < hi)%Z -> St X base j w ->
            hol (fun n => consume ops env n (Ctx sk bound) rq d (UInt b lo hi) (PUInt c))
              (fun x w' => post X base j ((1 <=? lo)%Z && (c <=? 0)%Z) (Costs 1 0 (if (0 <? hi)%Z then Z.to_nat (hi - c) else N - pos w) (Z.to_nat (lo - c))) (cost w) x w'
                 /\ (fst x = FAILURE -> (c < lo)%Z)) w).
  { clear. induction m as [|m IH]; intros c X base j w Hm Hc Hh HS; [lia|]. step. unfold uint_consume.
    pose proof (St_low _ _ _ _ HS) as HL.
    assert (V : hol (fun _ : nat => ret (if (lo <=? c)%Z then SUCCESS else FAILURE, PUInt c))
                  (fun x w' => post X base j ((1 <=? lo)%Z && (c <=? 0)%Z) (Costs 1 0 (if (0 <? hi)%Z then Z.to_nat (hi - c) else N - pos w) (Z.to_nat (lo - c))) (cost w) x w'
                 /\ (fst x = FAILURE -> (c < lo)%Z)) w).
    { apply hol_ret. destruct (lo <=? c)%Z eqn:E; (split; [split; [exact HS|split]|]); cbn; try discriminate; try lia; intros _ E2; apply andb_prop in E2 as [E2 E3]; lia. }
    hb. apply h_empty. destruct (a_empty _); [hb; eapply h_final; [exact HS|]; exact V|]. hb. apply h_next. intros y.
    destruct (digit_valid b y); [|exact V]. clear V.
    hb. apply h_cells. intros w1 E1. pose proof (St_src _ _ _ _ _ E1 HS) as H1.
    hb. apply h_cells. intros w2 E2. pose proof (St_src _ _ _ _ _ E2 H1) as H2.
    assert (P : pos w2 = pos w) by (rewrite (pos_src _ _ E2); now apply pos_src).
    assert (P' : cost w2 = cost w) by (rewrite (cost_src _ _ E2); now apply cost_src).
    hb. eapply h_advance; eauto. intros w3 H3 E3 E3'. pose proof (St_high _ _ _ _ H3). cbv zeta.
    destruct (Z.eqb_spec (c + 1) hi) as [Eh|Eh].
    - apply hol_ret. split; [split; [exact H3|split]|discriminate]; cbn; [lia|]. split; [lia|]. destruct (Z.ltb_spec 0 hi); lia.
    - eapply hol_cons; [apply (IH (c + 1)%Z (pos w3) (Cost.stk w3) 0 w3); [lia|lia|lia|exact (St_here _ _ _ _ H3)]|].
      intros r w4 [HP HF]. split; [|intros E; specialize (HF E); lia]. back H3 HP; [lia|]. destruct (Z.ltb_spec 0 hi); pays r; cbn in HF; try specialize (HF eq_refl); lia. }
  eapply hol_cons; [eapply (Loop (S (N - pos w)) 0%Z); [lia|lia|lia|exact HS]|]. intros r w' [HP _]. rewrite andb_true_r, !Z.sub_0_r in HP.
  destruct HP as (A & B & D). split; [exact A|split; [exact B|]]. destruct r as [[] r]; cbn in *; destruct (0 <? hi)%Z; lia.
Qed.

Lemma run_int k sk b lo hi bound st : fr sk (Int b lo hi) st -> bare st = true -> Run1 bound sk (Int b lo hi) (bare_bill N k (Int b lo hi)) st.
Proof.
  intros Hf Hb rq d X base j w HS. inversion Hf; subst; try discriminate. cbn [owed] in HS. clear Hf Hb. cbn [SpecTerm.eats bare_bill].
  set (one := fun lk : bool => if lk then 1 else 0).
  set (G := fun lk c w => Costs 1 0 (if (0 <? hi)%Z then one lk + Z.to_nat (hi - c) else N - pos w) (one lk + Z.to_nat (lo - c))).
  assert (Loop : forall m c lk ng X base j w, N - pos w < m -> (0 <= c)%Z -> (0 < hi -> c < hi)%Z -> (0 < c -> lk = false)%Z -> St X base j w ->
            hol (fun n => consume ops env n (Ctx sk bound) rq d (Int b lo hi) (PInt c lk ng))
              (fun x w' => post X base j ((1 <=? lo)%Z && (c <=? 0)%Z) (G lk c w) (cost w) x w' /\ (fst x = FAILURE -> (c < lo)%Z)) w).
  { clear HS w j base X. induction m as [|m IH]; intros c lk ng X base j w Hm Hc Hh Hlk HS; [lia|]. step. unfold int_consume.
    pose proof (St_low _ _ _ _ HS) as HL.
    set (Q := fun (x : result * pst) w' => post X base j ((1 <=? lo)%Z && (c <=? 0)%Z) (G lk c w) (cost w) x w' /\ (fst x = FAILURE -> (c < lo)%Z)).
    assert (V : forall lk ng, hol (fun _ : nat => bind (int_negate d ng) (fun _ => ret (if (lo <=? c)%Z then SUCCESS else FAILURE, PInt c lk ng))) Q w).
    { intros lk' ng'. hb. apply h_neg. intros w' E'. pose proof (St_src _ _ _ _ _ E' HS) as H'.
      apply hol_ret. unfold Q, G. destruct (lo <=? c)%Z eqn:E; (split; [split; [exact H'|split]|]); cbn; rewrite ?(cost_src _ _ E'); try discriminate; try lia; intros _ E2; apply andb_prop in E2 as [E2 E3]; lia. }
    assert (Dig : forall lk', one lk' <= one lk -> (lk' = true -> False) -> forall y,
                    hol (fun n => int_digit ops (consume ops env n) (Ctx sk bound) rq d (Int b lo hi) b lo hi c lk' ng y) Q w).
    { intros lk' Hk1 Hk2 y. unfold int_digit. destruct (digit_valid b y); [|apply V].
      hb. apply h_cells. intros w1 E1. pose proof (St_src _ _ _ _ _ E1 HS) as H1.
      hb. apply h_cells. intros w2 E2. pose proof (St_src _ _ _ _ _ E2 H1) as H2.
      assert (P : pos w2 = pos w) by (rewrite (pos_src _ _ E2); now apply pos_src).
      assert (P' : cost w2 = cost w) by (rewrite (cost_src _ _ E2); now apply cost_src).
      hb. eapply h_advance; eauto. intros w3 H3 E3 E3'. pose proof (St_high _ _ _ _ H3). cbv zeta.
      destruct (Z.eqb_spec (c + 1) hi) as [Eh|Eh].
      - hb. apply h_neg. intros w4 E4. apply hol_ret. unfold Q, G. rewrite <- (pos_src _ _ E4) in E3. rewrite <- (cost_src _ _ E4) in E3'.
        split; [split; [eapply St_src; eauto|split]|discriminate]; cbn; [lia|]. rewrite <- (pos_src _ _ E4) in H. split; [lia|]. destruct (Z.ltb_spec 0 hi); lia.
      - eapply hol_cons; [apply (IH (c + 1)%Z lk' ng (pos w3) (Cost.stk w3) 0 w3); [lia|lia|lia|destruct lk'; tauto|exact (St_here _ _ _ _ H3)]|].
        intros r w4 [HP HF]. split; [|intros E; specialize (HF E); lia]. back H3 HP; [lia|]. unfold G. destruct (Z.ltb_spec 0 hi); pays r; cbn in HF; try specialize (HF eq_refl); lia. }
    assert (Sig : forall ng', lk = true -> c = 0%Z -> hol (fun n => bind (m_advance ops) (fun _ => consume ops env n (Ctx sk bound) rq d (Int b lo hi) (PInt c false ng'))) Q w).
    { intros ng' -> ->. hb. eapply h_advance; eauto. intros w3 H3 E3 E3'. pose proof (St_high _ _ _ _ H3).
      eapply hol_cons; [apply (IH 0%Z false ng' (pos w3) (Cost.stk w3) 0 w3); [lia|lia|lia|auto|exact (St_here _ _ _ _ H3)]|].
      intros r w4 [HP HF]. split; [|exact HF]. back H3 HP; [lia|]. unfold G, one. destruct (Z.ltb_spec 0 hi); pays r; lia. }
    hb. apply h_empty. destruct (a_empty _); [hb; eapply h_final; [exact HS|]; apply V|]. hb. apply h_next. intros y.
    destruct ((c =? 0)%Z && lk) eqn:El.
    - apply andb_prop in El as [El1 El2]. apply Z.eqb_eq in El1. destruct (y =? 45)%Z; [now apply Sig|destruct (y =? 43)%Z; [now apply Sig|apply Dig; [cbn; lia|discriminate]]].
    - apply Dig; [lia|]. intros ->. rewrite andb_true_r in El. apply Z.eqb_neq in El. specialize (Hlk ltac:(lia)). discriminate. }
  eapply hol_cons; [eapply (Loop (S (N - pos w)) 0%Z true false); [lia|lia|lia|lia|exact HS]|]. intros r w' [HP _]. unfold G in HP. rewrite andb_true_r, !Z.sub_0_r in HP.
  destruct HP as (A & B & D). split; [exact A|split; [exact B|]]. destruct r as [[] r]; cbn in *; destruct (0 <? hi)%Z; cbn in *; lia.
Qed.

Lemma run_symbol k sk m bound st : fr sk (Symbol m) st -> bare st = true -> Run1 bound sk (Symbol m) (bare_bill N k (Symbol m)) st.
Proof.
  intros Hf Hb rq d X base j w HS. inversion Hf; subst; try discriminate. cbn [owed] in HS. clear Hf Hb. cbn [SpecTerm.eats bare_bill].
  assert (Loop : forall h nx v X base j w, height nx < h -> St X base (owed (PSym nx v) + j) w ->
            hol (fun n => consume ops env n (Ctx sk bound) rq d (Symbol m) (PSym nx v)) (post X base j (match v with None => true | Some _ => false end) (Costs 0 (height nx) (height nx) (height nx)) (cost w)) w).
  { clear. induction h as [|h IH]; intros nx v X base j w Hm HS; [lia|]. step. unfold sym_consume.
    pose proof (St_low _ _ _ _ HS) as HL.
    assert (V : hol (fun _ : nat => sym_stop ops d nx v) (post X base j (match v with None => true | Some _ => false end) (Costs 0 (height nx) (height nx) (height nx)) (cost w)) w).
    { unfold sym_stop. destruct v as [v|]; [|apply h_fails; [exact HS|lia]]. cbn [owed] in HS. unfold sym_value, of_option. destruct (trie_val v); [|apply hol_raise].
      hb. apply h_cells. intros w1 E1. hb. eapply h_commit; [exact (St_src _ _ _ _ _ E1 HS)|]. intros w2 H2 E2.
      apply hol_ret. rewrite (cost_src _ _ E1) in E2. split; [auto|split; [discriminate|]]. cbn. lia. }
    hb. apply h_empty. destruct (a_empty _); [hb; eapply h_final; [exact HS|]; exact V|]. hb. apply h_next. intros y.
    destruct (assoc y (trie_child nx)) as [nx'|] eqn:Ey; [|exact V]. clear V. apply height_child in Ey.
    hb. eapply h_advance; eauto. intros w1 H1 E1 E1'. pose proof (St_high _ _ _ _ H1).
    destruct (trie_val nx') as [x|].
    - assert (T : hol (fun _ : nat => match v with Some _ => m_cancel ops | None => ret tt end) (fun _ w2 => St X base j w2 /\ pos w2 = pos w1 /\ cost w2 = cost w1) w1).
      { destruct v; [eapply h_cancel; eauto|apply hol_ret; auto]. }
      hb. eapply hol_cons; [exact T|]. intros _ w2 (H2 & E2 & E2'). destruct (trie_child nx').
      + hb. apply h_cells. intros w3 E3. apply hol_ret. rewrite <- (pos_src _ _ E3) in E2. rewrite <- (cost_src _ _ E3) in E2'.
        split; [eapply St_src; eauto|]. cbn. split; [lia|]. lia.
      + hb. eapply h_prepare; [exact (St_here _ _ _ _ H2)|]. intros w3 H3 E3 E3' _.
        eapply hol_cons; [apply (IH nx' (Some nx') (pos w2) (Cost.stk w2) 0); [lia|exact H3]|]. intros r w4 HP. back H2 HP; [lia|]. pays r; lia.
    - destruct v as [v|].
      + eapply hol_cons; [apply IH; [lia|exact H1]|]. intros r w4 (A & B & D). split; [exact A|split; [exact B|]]. destruct r as [[] ?]; cbn in *; lia.
      + eapply hol_cons; [apply (IH nx' None (pos w1) (Cost.stk w1) 0); [lia|exact (St_here _ _ _ _ H1)]|]. intros r w4 HP. back H1 HP; [lia|]. pays r; lia. }
  eapply (Loop _ _ None); [apply Nat.lt_succ_diag_r|exact HS].
Qed.

(** Combinators. *)
(** Products are numbers. *)
Ltac nlia := repeat match goal with
  | |- context [Nat.mul ?a ?b] => let x := fresh "m" in set (x := Nat.mul a b) in *; clearbody x
  | H : context [Nat.mul ?a ?b] |- _ => let x := fresh "m" in set (x := Nat.mul a b) in *; clearbody x
  end; lia.

Notation RunB k sk q := (RunS sk q (bill N k q)).
Opaque bill.

Lemma run_seq k sk l bound st : Forall (fun q => RunB k sk q) l -> fr sk (Seq l) st -> okn st -> bare st = true -> Run1 bound sk (Seq l) (seq_bill N k l) st.
Proof.
  intros Hg Hf Hn Hb rq d X base j w HS. inversion Hf as [| | | | | | | | | | | |? ? q t a El Fa| | | | | | | | | | | | |]; subst; try discriminate. cbn [owed] in HS. step.
  cbn [SpecTerm.eats].
  assert (Loop : forall full t i q a, Forall (fun q => RunB k sk q) (q :: t) -> fr sk q a -> okn a -> forall d X base j w, St X base (owed a + j) w ->
    hol (fun n => seq_from ops (consume ops env n) (Ctx sk bound) d full i q t a) (post X base j (existsb eats (q :: t)) (seq_bill N k (q :: t)) (cost w)) w).
  2: { exact (Loop (q :: t) t 0 q a Hg Fa (proj2 Hn) d X base j w HS). }
  clear. intros full. induction t as [|q' t IH]; intros i q a HF Fa Hn d X base j w HS; inversion HF as [|? ? Hq Ht]; subst; cbn [seq_from].
  - destruct (seq_dst full i d) eqn:E; [|apply hol_raise].
    hb. eapply hol_cons; [apply (Hq bound a Fa Hn); eauto|]. intros [r a'] w1 HP. cbn [fst snd].
    cbn [existsb]. rewrite orb_false_r. destruct r; apply hol_ret; exact HP.
  - destruct (seq_dst full i d) eqn:E; [|apply hol_raise].
    hb. eapply hol_cons; [apply (Hq bound a Fa Hn); eauto|]. intros [r a'] w1 (B & P & D). cbn [fst snd] in *.
    change (seq_bill N k (q :: q' :: t)) with (let a := bill N k q in let b := seq_bill N k (q' :: t) in
       Costs (c_each a + c_each b) (c_more a + c_more b) (c_all a + c_all b) (c_fail a + (c_all a + c_fail b))). cbv zeta.
    destruct r; [| |destruct D].
    + specialize (P eq_refl). destruct (seq_dst full (S i) d) eqn:E'; [|apply hol_raise].
      hb. eapply hol_cons; [apply (h_create sk bound), (St_here _ _ _ _ B)|]. intros a2 w2 (A2 & B2 & B2' & C2 & O2 & _).
      pose proof (St_low _ _ _ _ B).
      eapply hol_cons; [apply (IH (S i) q' a2 Ht C2 O2 _ _ _ _ _ A2)|].
      intros x w3 HP. back B HP; [cbn [existsb]; intros _ Eo; apply orb_prop in Eo as [Eo|Eo]; [left; now apply P|now right]|].
      cbn [paid] in D. rewrite B2'. pays x; [|lia].
      pose proof (each_split (c_each (bill N k q)) X (pos w1) (pos w3) ltac:(lia) ltac:(lia)). pose proof (each_le (c_each (seq_bill N k (q' :: t))) X (pos w1) (pos w3) ltac:(lia)).
      rewrite Nat.mul_add_distr_r. nlia.
    + apply h_fails; [exact B|]. cbn in *. lia.
Qed.

Lemma run_alt k sk l bound st : Forall (fun q => RunB k sk q) l -> fr sk (Alt l) st -> okn st -> bare st = true -> Run1 bound sk (Alt l) (alt_bill N k l) st.
Proof.
  intros Hg Hf Hn Hb rq d X base j w HS. inversion Hf as [| | | | | | | | | | | | |? ? q t a El Fa| | | | | | | | | | | |]; subst; try discriminate. cbn [owed] in HS. step.
  cbn [SpecTerm.eats].
  assert (Loop : forall t i q a, Forall (fun q => RunB k sk q) (q :: t) -> fr sk q a -> okn a -> forall d X base j w, St X base (owed a + j) w ->
    hol (fun n => alt_from ops (consume ops env n) (Ctx sk bound) rq d i q t a) (post X base j (forallb eats (q :: t)) (alt_bill N k (q :: t)) (cost w)) w).
  2: { exact (Loop t 0 q a Hg Fa (proj2 Hn) d X base j w HS). }
  clear. induction t as [|q' t IH]; intros i q a HF Fa Hn d X base j w HS; inversion HF as [|? ? Hq Ht]; subst; cbn [alt_from].
  - hb. eapply hol_cons; [apply (Hq bound a Fa Hn); eauto|]. intros [r a'] w1 HP. cbn [fst snd].
    cbn [forallb]. rewrite andb_true_r. destruct r; apply hol_ret; exact HP.
  - hb. eapply hol_cons; [apply (Hq bound a Fa Hn); eauto|]. intros [r a'] w1 (B & P & D). cbn [fst snd] in *.
    change (alt_bill N k (q :: q' :: t)) with (let a := bill N k q in let b := alt_bill N k (q' :: t) in
       Costs (c_each a + c_each b) (c_more a + (c_fail a + c_more b)) (c_all a + (c_fail a + c_all b)) (c_fail a + c_fail b)). cbv zeta.
    pose proof (St_low _ _ _ _ B).
    destruct r; [| |destruct D].
    + apply hol_ret. split; [exact B|split]; [cbn [forallb]; intros _ Ea; apply andb_prop in Ea as [Ea _]; auto|].
      cbn in *. rewrite Nat.mul_add_distr_r. nlia.
    + hb. eapply hol_cons; [apply (h_create sk bound), (St_here _ _ _ _ B)|]. intros a2 w2 (A2 & B2 & B2' & C2 & O2 & _).
      eapply hol_cons; [apply (IH (S i) q' a2 Ht C2 O2 _ _ _ _ _ A2)|].
      intros x w3 HP. back B HP; [cbn [forallb]; intros _ Ea; apply andb_prop in Ea as [_ Ea]; now right|].
      cbn [paid] in D. rewrite B2'. pays x; [|lia].
      pose proof (each_le (c_each (alt_bill N k (q' :: t))) X (pos w1) (pos w3) ltac:(lia)). rewrite Nat.mul_add_distr_r. nlia.
Qed.

Lemma run_repeat k sk lo hi q bound st : RunB k sk q -> hi <> 0 \/ eats q = true ->
  fr sk (Repeat lo hi q) st -> okn st -> bare st = true -> Run1 bound sk (Repeat lo hi q) (bare_bill N k (Repeat lo hi q)) st.
Proof.
  intros Hq Hh Hf Hn Hb rq d X base j w HS. inversion Hf as [| | | | | | | | | | | | | |? ? ? ? a Fa| | | | | | | | | | |]; subst; try discriminate. cbn [owed] in HS. cbn [SpecTerm.eats bare_bill].
  apply proj2 in Hn. set (c0 := bill N k q) in *. cbv zeta.
  destruct (Nat.eqb_spec hi 0) as [->|Hhi].
  - destruct Hh as [Hh|Hh]; [lia|].
    assert (Loop : forall m c a X base j w, N - X < m -> fr sk q a -> okn a -> St X base (owed a + j) w ->
            hol (fun n => consume ops env n (Ctx sk bound) rq d (Repeat lo 0 q) (PRepeat c a))
              (fun x w' => post X base j ((1 <=? lo) && eats q && (c =? 0))
                 (Costs (c_each c0 + c_more c0) (c_fail c0) ((c_each c0 + c_more c0) * (N - X) + c_fail c0) ((lo - c) * c_all c0 + c_fail c0)) (cost w) x w' /\ (fst x = FAILURE -> c < lo)) w).
    { clear - Hq Hh. induction m as [|m IH]; intros c a X base j w Hm Fa Hn HS; [lia|]. step. unfold repeat_consume.
      hb. eapply hol_cons; [apply (Hq bound a Fa Hn); eauto|]. intros [r a'] w1 (B & P & D). cbn [fst snd] in *. fold c0 in D.
      pose proof (St_low _ _ _ _ B). pose proof (St_high _ _ _ _ B).
      destruct r; [| |destruct D].
      - specialize (P eq_refl Hh). cbn [Nat.eqb negb andb]. cbn [paid] in D. hb. eapply hol_cons; [apply (h_create sk bound), (St_here _ _ _ _ B)|].
        intros a2 w2 (A2 & B2 & B2' & C2 & O2 & _).
        eapply hol_cons; [apply (IH (S c) a2 (pos w1) (Cost.stk w1) 0 w2); [lia|exact C2|exact O2|exact A2]|].
        intros x w3 [HP HF]. split; [|intros E; specialize (HF E); lia]. back B HP; [intros _ E; left; exact P|]. rewrite B2'.
        pose proof (each_step (c_each c0) (c_more c0) X (pos w1) P). destruct D as [D1 D2].
        pays x.
        + pose proof (each_split (c_each c0 + c_more c0) X (pos w1) (pos w3) ltac:(lia) ltac:(lia)). pose proof (each_split (c_each c0 + c_more c0) X (pos w1) N ltac:(lia) ltac:(lia)). lia.
        + specialize (HF eq_refl). replace (lo - c) with (S (lo - S c)) by lia. cbn [Nat.mul]. lia.
      - cbn [paid] in D. apply hol_ret. destruct (Nat.leb_spec lo c); (split; [split; [exact B|split]|]); cbn [fst paid c_each c_more c_all c_fail]; try discriminate; try nlia.
        intros _ E. apply andb_prop in E as [E E3]. apply andb_prop in E as [E E2]. apply Nat.leb_le in E. apply Nat.eqb_eq in E3. lia. }
    eapply hol_cons; [eapply (Loop (S (N - X)) 0 a X base j w); [lia|exact Fa|exact Hn|exact HS]|].
    intros x w' [(A & P & D) HF]. rewrite andb_true_r in P. split; [exact A|split; [exact P|]].
    destruct x as [[] x]; cbn [fst paid c_each c_more c_all c_fail] in *; [|specialize (HF eq_refl); destruct (Nat.eqb_spec lo 0); [lia|rewrite Nat.sub_0_r in D; lia]|exact D].
    assert ((c_each c0 + c_more c0) * (N - X) <= (c_each c0 + c_more c0) * N) by (apply Nat.mul_le_mono_l; lia). lia.
  - assert (Loop : forall m c a X base j w, hi - c < m -> c < hi -> fr sk q a -> okn a -> St X base (owed a + j) w ->
            hol (fun n => consume ops env n (Ctx sk bound) rq d (Repeat lo hi q) (PRepeat c a))
              (fun x w' => post X base j ((1 <=? lo) && eats q && (c =? 0))
                 (Costs (c_each c0) ((hi - c) * c_more c0 + c_fail c0) ((hi - c) * c_all c0 + c_fail c0) ((lo - c) * c_all c0 + c_fail c0)) (cost w) x w' /\ (fst x = FAILURE -> c < lo)) w).
    { clear - Hq Hhi. induction m as [|m IH]; intros c a X base j w Hm Hc Fa Hn HS; [lia|]. step. unfold repeat_consume.
      hb. eapply hol_cons; [apply (Hq bound a Fa Hn); eauto|]. intros [r a'] w1 (B & P & D). cbn [fst snd] in *. fold c0 in D.
      pose proof (St_low _ _ _ _ B). pose proof (St_high _ _ _ _ B).
      destruct r; [| |destruct D].
      - specialize (P eq_refl). cbn [paid] in D. destruct D as [D1 D2]. cbv zeta. destruct (Nat.eqb_spec hi 0); [lia|]. cbn [negb andb].
        destruct (Nat.eqb_spec (S c) hi) as [Eh|Eh].
        + apply hol_ret. split; [split; [exact B|split]|discriminate].
          * intros _ E. apply andb_prop in E as [E _]. apply andb_prop in E as [_ E]. auto.
          * cbn [fst paid c_each c_more c_all c_fail]. replace (hi - c) with 1 by lia. lia.
        + hb. eapply hol_cons; [apply (h_create sk bound), (St_here _ _ _ _ B)|]. intros a2 w2 (A2 & B2 & B2' & C2 & O2 & _).
          eapply hol_cons; [apply (IH (S c) a2 (pos w1) (Cost.stk w1) 0 w2); [lia|lia|exact C2|exact O2|exact A2]|].
          intros x w3 [HP HF]. split; [|intros E; specialize (HF E); lia]. back B HP.
          * intros _ E. left. apply andb_prop in E as [E _]. apply andb_prop in E as [_ E]. auto.
          * rewrite B2'. pays x.
            -- pose proof (each_split (c_each c0) X (pos w1) (pos w3) ltac:(lia) ltac:(lia)). replace (hi - c) with (S (hi - S c)) by lia. cbn [Nat.mul]. lia.
            -- specialize (HF eq_refl). replace (lo - c) with (S (lo - S c)) by lia. cbn [Nat.mul]. lia.
      - cbn [paid] in D. apply hol_ret. destruct (Nat.leb_spec lo c); (split; [split; [exact B|split]|]); cbn [fst paid c_each c_more c_all c_fail]; try discriminate; try nlia.
        intros _ E. apply andb_prop in E as [E E3]. apply andb_prop in E as [E E2]. apply Nat.leb_le in E. apply Nat.eqb_eq in E3. lia. }
    eapply hol_cons; [eapply (Loop (S hi) 0 a X base j w); [lia|lia|exact Fa|exact Hn|exact HS]|].
    intros x w' [(A & P & D) HF]. rewrite andb_true_r in P. rewrite !Nat.sub_0_r in D. split; [exact A|split; [exact P|]].
    destruct x as [[] x]; cbn [fst paid c_each c_more c_all c_fail] in *; [exact D|specialize (HF eq_refl); destruct (Nat.eqb_spec lo 0); lia|exact D].
Qed.

Lemma run_not k sk q bound st : RunB k sk q -> fr sk (Not q) st -> okn st -> bare st = true -> Run1 bound sk (Not q) (bare_bill N k (Not q)) st.
Proof.
  intros Hq Hf Hn Hb rq d X base j w HS. inversion Hf as [| | | | | | | | | | | | | | |? ? a Fa| | | | | | | | | |]; subst; try discriminate. apply proj2 in Hn. cbn [owed] in HS. step. unfold not_consume.
  hb. eapply hol_cons; [apply (Hq bound a Fa Hn _ d X base (S j)); now rewrite Nat.add_succ_r|]. intros [r a'] w1 (B & P & D). cbn [fst snd] in *.
  destruct r; [| |destruct D]; hb; eapply h_commit; eauto; intros w2 H2 E2; apply hol_ret; (split; [auto|split; [discriminate|]]); cbn in *; lia.
Qed.

Lemma run_opt k sk q bound st : RunB k sk q -> fr sk (Opt q) st -> okn st -> bare st = true -> Run1 bound sk (Opt q) (bare_bill N k (Opt q)) st.
Proof.
  intros Hq Hf Hn Hb rq d X base j w HS. inversion Hf as [| | | | | | | | | | | | | | | |? ? a Fa| | | | | | | | |]; subst; try discriminate. apply proj2 in Hn. cbn [owed] in HS. step. unfold opt_consume.
  hb. eapply hol_cons; [apply (Hq bound a Fa Hn _ d X base (S j)); now rewrite Nat.add_succ_r|]. intros [r a'] w1 (B & P & D). cbn [fst snd] in *.
  destruct r; [| |destruct D].
  - apply hol_ret. split; [|split; [discriminate|cbn in *; nlia]]. eapply St_le; [|exact B]. lia.
  - hb; eapply h_commit; eauto; intros w2 H2 E2; apply hol_ret; (split; [auto|split; [discriminate|]]); cbn in *; nlia.
Qed.

Lemma run_one c sk sk' b' b rq rq' d d' p q a X base j w :
  RunS sk' q c -> fr sk' q a -> okn a -> St X base (owed a + j) w -> eats p = eats q ->
  (forall n, consume ops env (S n) (Ctx sk b) rq d p (POne a) = forward_consume (consume ops env n) (Ctx sk' b') rq' d' q a) ->
  hol (fun n => consume ops env n (Ctx sk b) rq d p (POne a)) (post X base j (eats p) c (cost w)) w.
Proof.
  intros Hq Fa Hn HS He H. apply hol_shift; [eexists; reflexivity|]. intros n x w' E. rewrite H in E. revert n x w' E.
  change (hol (fun n => forward_consume (consume ops env n) (Ctx sk' b') rq' d' q a) (post X base j (eats p) c (cost w)) w). unfold forward_consume.
  hb. eapply hol_cons; [apply (Hq b' a Fa Hn); eauto|]. intros [r a'] w1 HP. apply hol_ret. rewrite He. exact HP.
Qed.

Lemma run_discard k sk q bound st : RunB k sk q -> fr sk (Discard q) st -> okn st -> bare st = true -> Run1 bound sk (Discard q) (bare_bill N k (Discard q)) st.
Proof.
  intros Hq Hf Hn Hb rq d X base j w HS. inversion Hf; subst; try discriminate. apply proj2 in Hn. eapply (run_one _ sk _ bound bound); eauto; reflexivity.
Qed.

Lemma run_lexeme k sk q bound st : RunB 0 Fail q -> fr sk (Lexeme q) st -> okn st -> bare st = true -> Run1 bound sk (Lexeme q) (bare_bill N k (Lexeme q)) st.
Proof.
  intros Hq Hf Hn Hb rq d X base j w HS. inversion Hf; subst; try discriminate. apply proj2 in Hn. eapply (run_one _ sk _ bound bound); eauto; reflexivity.
Qed.

Lemma run_with_skipper sk q s bound st c : RunS s q c -> fr sk (WithSkipper q s) st -> okn st -> bare st = true -> Run1 bound sk (WithSkipper q s) c st.
Proof.
  intros Hq Hf Hn Hb rq d X base j w HS. inversion Hf; subst; try discriminate. apply proj2 in Hn. eapply (run_one _ sk _ bound bound); eauto; reflexivity.
Qed.

Lemma run_bind_dst k sk q bound st : RunB k sk q -> fr sk (BindDst q) st -> okn st -> bare st = true -> Run1 bound sk (BindDst q) (bare_bill N k (BindDst q)) st.
Proof.
  intros Hq Hf Hn Hb rq d X base j w HS. inversion Hf; subst; try discriminate. apply proj2 in Hn. eapply (run_one _ sk _ d bound); eauto; reflexivity.
Qed.

Lemma run_construct k sk args q bound st : RunB k sk q -> fr sk (Construct args q) st -> okn st -> bare st = true -> Run1 bound sk (Construct args q) (bare_bill N k (Construct args q)) st.
Proof.
  intros Hq Hf Hn Hb rq d X base j w HS. inversion Hf as [| | | | | | | | | | | | | | | | | | | | |? ? ? b a Fa| | | |]; subst; try discriminate. apply proj2 in Hn. cbn [owed] in HS. step. unfold construct_consume.
  hb. apply hol_with_cell. intros lvl w1 E1. eapply hol_cons; [apply (Hq bound a Fa Hn _ _ X base j w1), (St_src _ _ _ _ _ E1 HS)|].
  intros [r a'] w2 (B & P & D) v' w3 E3. cbn [fst snd] in *. rewrite (cost_src _ _ E1) in D. pose proof (St_src _ _ _ _ _ E3 B) as B'. rewrite <- (pos_src _ _ E3) in P.
  apply (paid_at _ _ _ _ _ w3) in D; [|now apply pos_src|now apply cost_src].
  destruct r; [| |destruct D]; [|apply h_fails; [exact B'|exact D]].
  destruct (make_from (dst_ty d) v') eqn:Em; [|apply hol_raise].
  hb. apply h_cells. intros w4 E4. apply hol_ret. split; [eapply St_src; eauto|split; [now rewrite (pos_src _ _ E4)|]].
  now apply (paid_at _ _ _ SUCCESS w3); [apply pos_src|apply cost_src|].
Qed.

Lemma run_act k sk act q bound st : RunB k sk q -> fr sk (Act act q) st -> okn st -> bare st = true -> Run1 bound sk (Act act q) (bare_bill N k (Act act q)) st.
Proof.
  intros Hq Hf Hn Hb rq d X base j w HS. inversion Hf as [| | | | | | | | | | | | | | | | | | | | | |? ? ? b a Fa| | |]; subst; try discriminate. apply proj2 in Hn. cbn [owed] in HS. step. unfold action_consume.
  hb. apply hol_with_cell. intros lvl w1 E1. eapply hol_cons; [apply (Hq bound a Fa Hn _ _ X base j w1), (St_src _ _ _ _ _ E1 HS)|].
  intros [r a'] w2 (B & P & D) v' w3 E3. cbn [fst snd] in *. rewrite (cost_src _ _ E1) in D. pose proof (St_src _ _ _ _ _ E3 B) as B'. rewrite <- (pos_src _ _ E3) in P.
  apply (paid_at _ _ _ _ _ w3) in D; [|now apply pos_src|now apply cost_src].
  destruct r; [| |destruct D]; [|apply h_fails; [exact B'|exact D]].
  hb. apply h_act. intros w4 E4. apply hol_ret. split; [eapply St_src; eauto|split; [now rewrite (pos_src _ _ E4)|]].
  now apply (paid_at _ _ _ SUCCESS w3); [apply pos_src|apply cost_src|].
Qed.

Lemma run_except k sk q neg bound st : RunB k sk q -> RunB k sk neg -> fr sk (Except q neg) st -> okn st -> bare st = true -> Run1 bound sk (Except q neg) (bare_bill N k (Except q neg)) st.
Proof.
  intros Hq Hg Hf Hn Hb rq d X base j w HS. inversion Hf as [| | | | | | | | | | | | | | | | | | | | | | |? ? ? a Fa| |]; subst; try discriminate. apply proj2 in Hn. cbn [owed] in HS. step. unfold except_consume.
  hb. eapply hol_cons; [apply (Hg bound a Fa Hn); eauto|]. intros [r a'] w1 (B & P & D). cbn [fst snd] in *. pose proof (St_low _ _ _ _ B).
  destruct r; [| |destruct D]; [apply h_fails; [exact B|cbn in *; nlia]|].
  hb. eapply hol_cons; [apply (h_create sk bound), (St_here _ _ _ _ B)|]. intros a2 w2 (A2 & B2 & B2' & C2 & O2 & _).
  hb. eapply hol_cons; [apply (Hq bound a2 C2 O2 _ _ _ _ _ _ A2)|]. intros [r a3] w3 HP. apply hol_ret.
  refine (post_back _ _ _ _ _ _ _ _ _ _ _ (_, _) _ B _ HP _ _); [lia|cbn; auto|]. cbn [fst] in *. cbn [paid] in D. rewrite B2'.
  intros ?. destruct r; cbn [bare_bill paid c_each c_more c_all c_fail]; [|lia|auto]. pose proof (each_le (c_each (bill N k q)) X (pos w1) (pos w3) ltac:(lia)). lia.
Qed.

Lemma run_list k sk q sep bound st : RunB k sk q -> RunB k sk sep -> eats q = true \/ eats sep = true ->
  fr sk (PList q sep) st -> okn st -> bare st = true -> Run1 bound sk (PList q sep) (bare_bill N k (PList q sep)) st.
Proof.
  intros Hq Hs He Hf Hn Hb rq d X base j w HS. inversion Hf as [| | | | | | | | | | | | | | | | | | | | | | | |? ? ? a Fa|]; subst; try discriminate. cbn [owed] in HS. cbn [SpecTerm.eats].
  apply proj2 in Hn. cbn [bare_bill]. set (cq := bill N k q) in *. set (cp := bill N k sep) in *. cbv zeta.
  set (e := c_each cq + c_more cq + (c_each cp + c_more cp)) in *. set (A := c_more cq + c_more cp + (c_all cp + (c_fail cq + c_fail cp))).
  (* [E]: where the last element ended; [C]: the counter there; [f]: no element so far. *)
  assert (Loop : forall m a (f : bool) X Z base j stk w C, N - Z < m -> X <= Z -> fr sk q a -> okn a -> marks X base (S j) stk -> St Z stk (owed a) w ->
            cost w <= C + c_each cp * (Z - X) + c_more cp -> cost w <= C + c_all cp -> (if f then cost w <= C else eats sep = true -> X < Z) ->
            hol (fun n => consume ops env n (Ctx sk bound) rq d (PList q sep) (PListSt 0 a))
              (fun x w' => St X base j w' /\ fst x = SUCCESS /\ cost w' <= C + e * (pos w' - X) + (A + if f then c_more cq else 0)) w).
  { clear - Hq Hs He. induction m as [|m IH]; intros a f X Z base j stk w C Hm HZ Fa Hn HM HS HC1 HC2 Hc; [lia|]. step. unfold list_consume.
    hb. eapply hol_cons; [apply (Hq bound a Fa Hn _ _ Z stk 0); now rewrite Nat.add_0_r|]. intros [r a'] w1 (B & P & D). cbn [fst snd] in *. fold cq in D.
    pose proof (St_join _ _ _ _ _ _ _ HM B HZ) as J. pose proof (St_low _ _ _ _ B) as B0. cbn [plus] in J.
    destruct r; [| |destruct D].
    - specialize (P eq_refl). destruct D as [D1 D2]. hb. eapply h_cancel; eauto. intros w2 H2 E2 E2'. pose proof (St_high _ _ _ _ H2) as B2. hb. eapply h_prepare; [exact (St_here _ _ _ _ H2)|].
      intros w3 H3 E3 E3' T3. hb. eapply hol_cons; [apply (h_create sk bound), (St_here _ _ _ _ H3)|]. intros a4 w4 (A4 & B4 & B4' & C4 & O4 & _).
      rewrite Nat.add_0_r in A4. step. unfold list_consume.
      hb. eapply hol_cons; [apply (Hs bound a4 C4 O4 _ _ (pos w3) (Cost.stk w3) 0); now rewrite Nat.add_0_r|].
      intros [r a5] w5 (B5 & P5 & D5). cbn [fst snd] in *. fold cp in D5. pose proof (St_low _ _ _ _ B5). pose proof (St_high _ _ _ _ B5).
      assert (M3 : marks (pos w1) (Cost.stk w2) 1 (Cost.stk w3)) by (rewrite <- E2; now apply St_marks).
      (* What has been paid up to the end of the element. *)
      assert (Z < pos w1 \/ eats q = false) as Pq by (destruct (eats q); auto).
      assert (Pay : cost w2 <= C + e * (pos w1 - X) + (if f then c_more cq else 0)).
      { rewrite E2'. pose proof (each_split (c_each cq) X Z (pos w1) HZ B0). pose proof (each_split (c_each cp) X Z (pos w1) HZ B0).
        destruct f.
        - unfold e. rewrite !Nat.mul_add_distr_r. nlia.
        - assert (X < pos w1) as G. { destruct (eats sep) eqn:E; [specialize (Hc eq_refl); lia|]. destruct He as [He|He]; [|discriminate]. specialize (P He). lia. }
          unfold e. rewrite !Nat.mul_add_distr_r. assert (c_more cq * 1 <= c_more cq * (pos w1 - X)) by (apply Nat.mul_le_mono_l; lia).
          assert (c_more cp * 1 <= c_more cp * (pos w1 - X)) by (apply Nat.mul_le_mono_l; lia). rewrite Nat.mul_1_r in *. nlia. }
      destruct r; [| |destruct D5].
      + specialize (P5 eq_refl). destruct D5 as [D5 D6]. hb. eapply hol_cons; [apply (h_create sk bound), (St_here _ _ _ _ B5)|]. intros a6 w6 (A6 & B6 & B6' & C6 & O6 & _).
        rewrite Nat.add_0_r in A6. eapply hol_cons; [eapply (IH a6 false (pos w1) (pos w5) (Cost.stk w2) 0 (Cost.stk w5) w6 (cost w2)); [| |exact C6|exact O6| |exact A6| | |]|].
        * destruct He as [He|He]; [specialize (P He)|specialize (P5 He)]; lia.
        * lia.
        * pose proof (St_join _ _ _ _ _ _ _ M3 B5 ltac:(lia)) as J5. now apply St_marks in J5.
        * rewrite E3, E2 in D5. lia.
        * lia.
        * intros G. specialize (P5 G). lia.
        * cbn beta. intros x w7 (S7 & R7 & K7). pose proof (St_low _ _ _ _ S7). split; [|split; [exact R7|]].
          -- apply (St_back _ _ _ _ (pos w1) _ H2 S7). lia.
          -- pose proof (each_split e X (pos w1) (pos w7) ltac:(lia) ltac:(lia)). rewrite Nat.add_0_r in K7. nlia.
      + pose proof (St_join _ _ _ _ _ _ _ M3 B5 ltac:(lia)) as J5. cbn [plus] in J5. cbn [paid] in D5.
        hb; eapply h_commit; [exact J5|]. intros w7 H7 E7; apply hol_ret. pose proof (St_low _ _ _ _ H7). split; [|split; [reflexivity|]].
        * apply (St_back _ _ _ _ (pos w1) _ H2 H7). lia.
        * pose proof (each_split e X (pos w1) (pos w7) ltac:(lia) ltac:(lia)). unfold A. nlia.
    - cbn [paid] in D. hb; eapply h_commit; eauto; intros w2 H2 E2; apply hol_ret. split; [exact H2|split; [reflexivity|]]. unfold A. nlia. }
  replace (S (owed a) + j) with (owed a + S j) in HS by lia. destruct (St_split _ _ _ _ _ HS) as (st & HM & HS').
  eapply hol_cons; [eapply (Loop (S (N - X)) a true X X base j st w (cost w)); eauto; nlia|].
  intros [r x] w' (S1 & R1 & K1). cbn [fst] in R1. subst r. pose proof (St_low _ _ _ _ S1). pose proof (St_high _ _ _ _ S1). split; [exact S1|split; [discriminate|]]. cbn [fst paid c_each c_more c_all c_fail].
  assert (e * (pos w' - X) <= e * N) by (apply Nat.mul_le_mono_l; lia). unfold A in K1. nlia.
Qed.

(** ** All patterns *)
Lemma run_pat rank p : plain p = true -> forall b, SpecTerm.guarded (fun _ => false) rank b p = true -> forall sk k, good sk k -> RunB k sk p.
Proof.
  assert (GF : good Fail 0) by now left.
  induction p using pat_ind'; intros Hp gb Hg sk k Gs; rewrite bill_eq; (apply adapters; [exact Gs|]); intros bound st Hf Hn; cbn [plain SpecTerm.guarded] in Hp, Hg; try discriminate;
    repeat match goal with
    | H : _ && _ = true |- _ => apply andb_prop in H; destruct H
    | H : _ || _ = true |- _ => apply orb_prop in H
    end.
  all: try (revert Hf; first [apply run_char | apply run_char_symbol | apply run_eoi | apply run_pass | apply run_fail | apply run_lit
             | apply run_symbol | apply run_uint | apply run_int]).
  all: try (revert Hf Hn; first [apply run_not | apply run_opt | apply run_discard | apply run_lexeme | apply run_bind_dst | apply run_construct | apply run_act | apply run_except]; eauto; fail).
  - revert Hf Hn. apply run_seq. clear bound st. revert gb Hg. induction H as [|q t Hq Ht IH]; intros b Hg; constructor; cbn in Hp; apply andb_prop in Hp as [Hp1 Hp2]; apply andb_prop in Hg as [Hg1 Hg2]; eauto.
  - revert Hf Hn. apply run_alt. clear bound st. induction H as [|q t Hq Ht IH]; constructor; cbn in Hp, Hg; apply andb_prop in Hp as [Hp1 Hp2]; apply andb_prop in Hg as [Hg1 Hg2]; eauto.
  - revert Hf Hn. apply run_repeat; eauto. match goal with G : _ \/ _ |- _ => destruct G as [G|G]; [left; intros ->; discriminate|now right] end.
  - revert Hf Hn. cbn [bare_bill]. apply run_with_skipper. destruct (is_fail p2) eqn:E.
    + eapply IHp1; eauto. now left.
    + match goal with G : _ \/ _ |- _ => destruct G as [G|G]; [discriminate|]; apply andb_prop in G as [G1 G2] end. eapply IHp1; eauto. right. exists (bill N 0 p2). split; [exact G2|]. split; [|reflexivity]. eapply IHp2; eauto.
  - revert Hf Hn. apply run_list; eauto.
Qed.
End Cost.
