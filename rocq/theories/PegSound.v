(** Runs agree with the grammar reading of the pattern. *)
From Coq Require Import List ZArith Bool Arith Lia.
From Verif Require Import Base CharSet Source Dst Pattern Parser Rel Big BigLeaf SpecPeg Leaf.
Import ListNotations.

(** ** Positions are suffixes *)

Definition gmark (g : stage) (x : list Z) : list Z :=
  match g with GElem m | GSep m => m | _ => x end.

Lemma skip1_suffix p s t : skip1 p s = Some t -> exists k, s = k ++ t.
Proof. intros H. apply skip_suffix in H. destruct H as (k & E & _). eauto. Qed.

Lemma ev_suffix env (P : list Z -> Prop) : (forall a b, P (a ++ b) -> P b) ->
  forall g c rq d p x w r w', ev env g c rq d p x w r w' ->
  P x -> P (q_s w) -> P (gmark g x) -> P (q_s w').
Proof.
  intros HP. assert (P1 : forall y t, P (y :: t) -> P t) by (intros y t; apply (HP [y])).
  induction 1; cbn [gmark q_s at_ with_c] in *; intros Px Pw Pg; auto.
  - apply IHev; auto. apply skip1_suffix in H. destruct H as [k E]. rewrite E in Pw. eauto.
  - eauto.
  - apply lit_run_pos in H. destruct H as [k E]. rewrite E in Pw. eauto.
  - destruct (sym_run_longest d (q_c w) (q_s w) (trie_build m) None []) as (k & f & E & HR); [discriminate|].
    rewrite HR in H. pose proof (longest_ok (q_s w) (trie_build m)) as L.
    destruct (longest (trie_build m) (q_s w)) as [[v t]|].
    + unfold sym_done in H. destruct (assign _ _ _); [|discriminate]. cbn in H. injection H as <- <- <-.
      destruct L as (k' & E' & _). rewrite E' in Pw. eauto.
    + injection H as <- <- <-. rewrite E in Pw. eauto.
  - apply uint_run_pos in H0. destruct H0 as [k E]. rewrite E in Pw. eauto.
  - apply int_run_pos in H0. destruct H0 as [k E]. rewrite E in Pw. eauto.
  - unfold act_run in H1. destruct (act_dispatch a v d c _) as [[u wu]|]; [|discriminate]. injection H1 as <-. cbn. auto.
Qed.

(** ** Trimming *)

Lemma skipn_less (k : nat) (s : list Z) n : length s <= S n -> length (skipn (S k) s) <= n.
Proof. rewrite skipn_length. lia. Qed.
Lemma trim_upto_enough ws : forall n n' s, length s <= n -> length s <= n' -> trim_upto n ws s = trim_upto n' ws s.
Proof.
  assert (forall n, trim_upto n ws [] = []) as N.
  { induction n as [|n IH]; cbn; auto. destruct (ws []); auto. }
  induction n as [|n IH]; intros n' s H H'; [destruct s; [|cbn in H; lia]; now rewrite !N|].
  destruct n' as [|n']; [destruct s; [|cbn in H'; lia]; now rewrite !N|]. cbn. destruct (ws s); auto. apply IH; now apply skipn_less.
Qed.
Lemma trim_eq ws s : trim ws s = match ws s with 0 => s | k => trim ws (skipn k s) end.
Proof.
  unfold trim at 1. destruct s as [|z t]; [cbn; destruct (ws []); auto|].
  cbn [length trim_upto]. destruct (ws (z :: t)) as [|k]; auto. unfold trim. apply trim_upto_enough; auto. apply skipn_less. auto.
Qed.
Lemma trim_nil ws : trim ws [] = [].
Proof. reflexivity. Qed.
Lemma trim_ind ws (P : list Z -> list Z -> Prop) : (forall s, ws s = 0 -> P s s) -> P [] [] ->
  (forall k s r, ws s = S k -> s <> [] -> r = trim ws (skipn (S k) s) -> P (skipn (S k) s) r -> P s r) -> forall s, P s (trim ws s).
Proof.
  intros H0 H1 H2 s. remember (length s) as n. revert s Heqn. induction n as [n IH] using (well_founded_induction lt_wf). intros s ->.
  destruct s as [|z t]; [exact H1|]. rewrite trim_eq. destruct (ws (z :: t)) as [|k] eqn:E; auto. eapply H2; eauto; [discriminate|].
  eapply IH; [|reflexivity]. apply (Nat.le_lt_trans _ (length t)); [apply skipn_less; auto|cbn; lia].
Qed.
Lemma trim_end ws s : ws (trim ws s) = 0 \/ trim ws s = [].
Proof. apply (trim_ind ws (fun _ r => ws r = 0 \/ r = [])); auto. Qed.
Lemma trim_idem ws s : trim ws (trim ws s) = trim ws s.
Proof. destruct (trim_end ws s) as [E|E]; [|now rewrite E]. rewrite trim_eq, E. reflexivity. Qed.
Lemma trim_suffix ws s : exists k, s = k ++ trim ws s.
Proof.
  apply (trim_ind ws (fun s r => exists k, s = k ++ r)); [exists []; auto|exists []; auto|].
  intros k s0 r _ _ _ [j E]. exists (firstn (S k) s0 ++ j). rewrite <- app_assoc, <- E. symmetry. apply firstn_skipn.
Qed.
Lemma trim_chars w z t : trim (chars w) (z :: t) = if w z then trim (chars w) t else z :: t.
Proof. rewrite trim_eq. cbn [chars]. now destruct (w z). Qed.
Lemma trim_nows s : trim nows s = s.
Proof. destruct s; reflexivity. Qed.
Lemma trim_in (Q : list Z -> Prop) ws ws' : (forall a b, Q (a ++ b) -> Q b) -> (forall s, Q s -> ws s = ws' s) -> forall s, Q s -> trim ws s = trim ws' s.
Proof.
  intros HQ H. apply (trim_ind ws (fun s r => Q s -> r = trim ws' s)); auto.
  - intros s E F. rewrite trim_eq, <- H, E by auto. reflexivity.
  - intros k s r E _ _ IH F. rewrite trim_eq, <- H, E by auto. apply IH.
    rewrite <- (firstn_skipn (S k) s) in F. now apply HQ in F.
Qed.
Lemma trim_on (P : Z -> Prop) ws ws' : (forall s, Forall P s -> ws s = ws' s) -> forall s, Forall P s -> trim ws s = trim ws' s.
Proof. apply trim_in. intros a b H. now apply Forall_app in H. Qed.

(** Two positions that only differ in characters to skip. *)
Definition eqt (ws : gap) (a b : list Z) : Prop := trim ws a = trim ws b.

Lemma eqt_trim ws s : eqt ws (trim ws s) s. Proof. apply trim_idem. Qed.
Lemma eqt_refl ws s : eqt ws s s. Proof. reflexivity. Qed.
Lemma eqt_sym ws a b : eqt ws a b -> eqt ws b a. Proof. unfold eqt. congruence. Qed.
Lemma eqt_trans ws a b c : eqt ws a b -> eqt ws b c -> eqt ws a c. Proof. unfold eqt. congruence. Qed.
Lemma eqt_nows a b : eqt nows a b -> a = b. Proof. unfold eqt. now rewrite !trim_nows. Qed.
#[export] Hint Resolve eqt_trim eqt_refl eqt_sym eqt_trans : eqt.

(** The skipper of the context skips [ws]. *)
Definition skips (T : char_ty) (c : ctx) (ws : gap) : Prop :=
  if is_fail (c_skip c) then ws = nows
  else ws [] = 0 /\ forall s, Forall (tok T) s -> skip1 (c_skip c) s = match ws s with 0 => None | k => Some (skipn k s) end.

Lemma skips_more T c ws s t : skips T c ws -> Forall (tok T) s -> skip1 (c_skip c) s = Some t -> eqt ws s t.
Proof.
  unfold skips. destruct (is_fail (c_skip c)) eqn:Ef; [intros _ _ H; destruct (c_skip c); discriminate|].
  intros [_ H] Ts E. rewrite (H s Ts) in E. unfold eqt. rewrite trim_eq. destruct (ws s); [discriminate|]. now injection E as <-.
Qed.
Lemma skips_end T c ws s : skips T c ws -> Forall (tok T) s -> skip1 (c_skip c) s = None -> trim ws s = s.
Proof.
  unfold skips. destruct (is_fail (c_skip c)) eqn:Ef; [intros -> _ _; apply trim_nows|].
  intros [_ H] Ts E. rewrite (H s Ts) in E. rewrite trim_eq. now destruct (ws s).
Qed.
Lemma skips_less T c ws s t : skips T c ws -> Forall (tok T) s -> skip1 (c_skip c) s = Some t -> length t < length s.
Proof.
  unfold skips. destruct (is_fail (c_skip c)) eqn:Ef; [intros _ _ H; destruct (c_skip c); discriminate|].
  intros [N H] Ts E. rewrite (H s Ts) in E. destruct s as [|z s]; [rewrite N in E; discriminate|]. destruct (ws (z :: s)); [discriminate|]. injection E as <-.
  rewrite skipn_length. cbn [length]. lia.
Qed.

(** ** The patterns considered *)

Definition ct_eqb (a b : char_ty) : bool :=
  Bool.eqb (ct_signed a) (ct_signed b) && Z.eqb (ct_bits a) (ct_bits b).

Fixpoint cs_fits (T : char_ty) (s : charset) : bool :=
  match s with
  | CAny t | CSingle t _ | CRange t _ _ | CDelegated t _ => ct_eqb t T
  | CSet t l => ct_eqb t T && forallb (in_range (ct_signed T) (ct_bits T)) l
  | CNot a => cs_fits T a
  | COr a b => cs_fits T a && cs_fits T b
  end.

(** Made of characters of type [T], texts and the end of the input. *)
Fixpoint fits (T : char_ty) (p : pat) : bool :=
  match p with
  | Char cs => cs_fits T cs
  | Lit _ | Eoi | Fail => true
  | Seq l | Alt l => forallb (fits T) l
  | Repeat _ _ q | Discard q | Lexeme q => fits T q
  | Except q n => fits T q && fits T n
  | _ => false
  end.
(** A skipper of single characters of type [T]. *)
Fixpoint skipper1 (T : char_ty) (skp : pat) : bool :=
  match skp with
  | Char cs => cs_fits T cs
  | Discard q | Lexeme q => skipper1 T q
  | Alt l => match l with [] => false | _ => forallb (skipper1 T) l end
  | _ => false
  end.

(** A skipper: characters of type [T]; behind these, in an alternative, anything of the above
    that reads something. *)
Fixpoint skipper (T : char_ty) (skp : pat) : bool :=
  match skp with
  | Char cs => cs_fits T cs
  | Discard q | Lexeme q => skipper T q
  | Alt l => match l with [] => false | q :: l' => skipper T q && forallb (fun p => moves p && fits T p && sblk skip_req p) l' end
  | _ => false
  end.

(** Numbers over [char], in a supported base, with bounds that make sense. *)
Definition num_fits (T : char_ty) (b lo hi : Z) : bool :=
  ct_eqb T ct_char && (2 <=? b)%Z && (b <=? 35)%Z && ((hi <=? 0)%Z || (lo <=? hi)%Z).

(** Takes no mark when it is created. *)
Fixpoint mk0 (rq : req) (p : pat) : bool :=
  let rq' := raw_req rq p in
  (r_recur rq || negb (wants_clean rq p)) &&
  match p with
  | Seq l => match l with q :: _ => mk0 seq_req q | [] => true end
  | Alt l => match l with q :: _ => mk0 (alt_req rq') q | [] => true end
  | Repeat lo hi q => mk0 (repeat_req lo hi rq') q
  | Not _ | Opt _ | PList _ _ => false
  | Discard q | Lexeme q | WithSkipper q _ => mk0 rq' q
  | BindDst q | Construct _ q => mk0 (unatomic_req rq') q
  | Act _ q => mk0 (action_req rq') q
  | Except _ neg => mk0 neg_req neg
  | _ => true
  end.

(** A match ends with something that is read: where it ends does not depend on what may be
    skipped behind it. *)
Fixpoint ends (p : pat) : bool :=
  match p with
  | Char _ | CharSymbol _ | Eoi | Fail | Lit _ | Symbol _ | UInt _ _ _ | Int _ _ _ | Lexeme _ => true
  | Seq l => (fix last (l : list pat) : bool :=
                match l with [] => false | q :: t => match t with [] => ends q | _ => last t end end) l
  | Alt l => forallb ends l
  | Repeat lo hi q => (0 <? hi) && (lo =? hi) && ends q
  | Discard q | BindDst q | Construct _ q | Act _ q | Except q _ | WithSkipper q _ => ends q
  | Pass | Not _ | Opt _ | PList _ _ | Recur _ _ => false
  end.

(** [sk]: there may be a skipper.  Left out: symbol(map<char,..>) and Int with one digit at
    most (see C27, C18); lexeme or apply_skipper in a skipper, of something that takes a mark
    when it is created (see C36); apply_skipper as the definition of a Recur, around something
    that gives back nothing when it fails but has to, and around something that need not end
    with something that is read (see C64). *)
Fixpoint peg_ok (T : char_ty) (sk : bool) (rq : req) (p : pat) : bool :=
  let rq' := raw_req rq p in
  match p with
  | Char s => cs_fits T s
  | CharSymbol _ => false
  | Symbol e => forallb (fun kv => match fst kv with [] => false | _ => true end) e
  | UInt b lo hi => num_fits T b lo hi
  | Int b lo hi => num_fits T b lo hi && negb (hi =? 1)%Z
  | Seq l => forallb (peg_ok T sk seq_req) l
  | Alt l => forallb (peg_ok T sk (alt_req rq')) l
  | Repeat lo hi q => ((hi =? 0) || (lo <=? hi)) && peg_ok T sk (repeat_req lo hi rq') q
  | Not q => peg_ok T sk (not_req rq') q
  | Opt q => peg_ok T sk (opt_req rq') q
  | Discard q => peg_ok T sk rq' q
  | Lexeme q => (negb sk || mk0 rq' q) && peg_ok T false rq' q
  | WithSkipper q s =>
    skipper T s &&
    (negb (r_clean rq') && negb (r_recur rq') && ends q && (negb sk || mk0 rq' q) && peg_ok T true rq' q)
  | BindDst q | Construct _ q => peg_ok T sk (unatomic_req rq') q
  | Act _ q => peg_ok T sk (action_req rq') q
  | Except q neg => peg_ok T sk neg_req neg && peg_ok T sk (except_req rq') q
  | PList q sep => peg_ok T sk list_req q && peg_ok T sk sep_req sep
  | Eoi | Pass | Fail | Lit _ | Recur _ _ => true
  end.

Lemma ct_eqb_eq a b : ct_eqb a b = true -> a = b.
Proof.
  destruct a, b. unfold ct_eqb. cbn. intros H. apply andb_prop in H. destruct H as [H1 H2].
  apply eqb_prop in H1. apply Z.eqb_eq in H2. now subst.
Qed.

Lemma cs_fits_ok T s : cs_fits T s = true -> cs_ok T s.
Proof.
  induction s; cbn; intros H; auto using ct_eqb_eq.
  - apply andb_prop in H. destruct H as [H1 H2]. split; [now apply ct_eqb_eq|]. now apply forallb_Forall in H2 || (rewrite Forall_forall; rewrite forallb_forall in H2; exact H2).
  - apply andb_prop in H. destruct H. auto.
Qed.

Lemma num_fits_ok T b lo hi : num_fits T b lo hi = true ->
  T = ct_char /\ (2 <= b <= 35)%Z /\ (hi <= 0 \/ lo <= hi)%Z.
Proof.
  unfold num_fits. intros H. apply andb_prop in H. destruct H as [H H4]. apply andb_prop in H. destruct H as [H H3].
  apply andb_prop in H. destruct H as [H1 H2]. apply ct_eqb_eq in H1. apply Z.leb_le in H2, H3.
  apply orb_prop in H4. rewrite !Z.leb_le in H4. auto.
Qed.

(** The same for the parser itself. *)
Definition mk0r (rq : req) (p : pat) : bool :=
  match p with
  | Seq l => match l with q :: _ => mk0 seq_req q | [] => true end
  | Alt l => match l with q :: _ => mk0 (alt_req rq) q | [] => true end
  | Repeat lo hi q => mk0 (repeat_req lo hi rq) q
  | Not _ | Opt _ | PList _ _ => false
  | Discard q | Lexeme q | WithSkipper q _ => mk0 rq q
  | BindDst q | Construct _ q => mk0 (unatomic_req rq) q
  | Act _ q => mk0 (action_req rq) q
  | Except _ neg => mk0 neg_req neg
  | _ => true
  end.

Definition pokr (T : char_ty) (sk : bool) (rq : req) (p : pat) : bool :=
  match p with
  | Char s => cs_fits T s
  | CharSymbol _ => false
  | Symbol e => forallb (fun kv => match fst kv with [] => false | _ => true end) e
  | UInt b lo hi => num_fits T b lo hi
  | Int b lo hi => num_fits T b lo hi && negb (hi =? 1)%Z
  | Seq l => forallb (peg_ok T sk seq_req) l
  | Alt l => forallb (peg_ok T sk (alt_req rq)) l
  | Repeat lo hi q => ((hi =? 0) || (lo <=? hi)) && peg_ok T sk (repeat_req lo hi rq) q
  | Not q => peg_ok T sk (not_req rq) q
  | Opt q => peg_ok T sk (opt_req rq) q
  | Discard q => peg_ok T sk rq q
  | Lexeme q => (negb sk || mk0 rq q) && peg_ok T false rq q
  | WithSkipper q s =>
    skipper T s &&
    (negb (r_clean rq) && negb (r_recur rq) && ends q && (negb sk || mk0 rq q) && peg_ok T true rq q)
  | BindDst q | Construct _ q => peg_ok T sk (unatomic_req rq) q
  | Act _ q => peg_ok T sk (action_req rq) q
  | Except q neg => peg_ok T sk neg_req neg && peg_ok T sk (except_req rq) q
  | PList q sep => peg_ok T sk list_req q && peg_ok T sk sep_req sep
  | Eoi | Pass | Fail | Lit _ | Recur _ _ => true
  end.

Lemma mk0_eq rq p : mk0 rq p = (r_recur rq || negb (wants_clean rq p)) && mk0r (raw_req rq p) p.
Proof. destruct p; reflexivity. Qed.
Lemma peg_ok_eq T sk rq p : peg_ok T sk rq p = pokr T sk (raw_req rq p) p.
Proof. destruct p; reflexivity. Qed.

(** Without skipper more is allowed. *)
Lemma peg_ok_mono T p : forall rq, peg_ok T true rq p = true -> peg_ok T false rq p = true.
Proof.
  induction p using pat_ind'; intros rq; cbn [peg_ok]; auto.
  1-2: rewrite !forallb_forall; rewrite Forall_forall in H; eauto.
  all: rewrite !andb_true_iff; intuition.
Qed.

(** ** The proof *)

Definition areq (rq : req) (p : pat) : req := if wants_atomic rq p then unatomic_req rq else rq.

Section Peg.
Context (env : nat -> option pat) (T : char_ty).
Hypothesis HT : ct_ok T.
Hypothesis Henv : forall id q, env id = Some q -> peg_ok T true recur_req q = true.
Notation m := (m env).

Definition spok (sk : bool) (g : stage) (rq : req) (p : pat) : Prop :=
  match g with
  | GRun => peg_ok T sk rq p = true /\ (r_recur rq = true -> rq = recur_req)
  | GSkip | GCln => peg_ok T sk rq p = true /\ r_recur rq = false
  | GAtm => pokr T sk (areq rq p) p = true /\ r_recur rq = false
  | _ => pokr T sk rq p = true /\ (r_recur rq = true -> rq = recur_req)
  end.

(** No mark is taken by an object created now. *)
Definition smk0 (g : stage) (rq : req) (p : pat) : bool :=
  match g with
  | GRun | GSkip => mk0 rq p
  | GCln => negb (wants_clean rq p) && mk0r (areq rq p) p
  | GAtm => mk0r (areq rq p) p
  | GRaw => mk0r rq p
  | GSeq i => match p with Seq l => match nth_error l i with Some q => mk0 seq_req q | None => true end | _ => true end
  | GAlt i => match p with Alt l => match nth_error l i with Some q => mk0 (alt_req rq) q | None => true end | _ => true end
  | GRep _ => match p with Repeat lo hi q => mk0 (repeat_req lo hi rq) q | _ => true end
  | GElem _ => match p with PList q _ => mk0 list_req q | _ => true end
  | GSep _ => match p with PList _ s => mk0 sep_req s | _ => true end
  end.

Definition strimmed (ws : gap) (g : stage) (rq : req) (p : pat) (s : list Z) : Prop :=
  match g with
  | GRun => r_recur rq = true -> trim ws s = s
  | GCln | GAtm | GRaw => trim ws s = s
  | GSep mm => eqt ws mm s
  | GRep n => match p with Repeat _ hi _ => hi = 0 \/ n < hi | _ => True end
  | _ => True
  end.

Definition sclean (g : stage) (rq : req) (p : pat) : bool :=
  match g with
  | GRun | GSkip | GCln => r_clean rq
  | GAtm | GRaw => r_clean rq && f_clean p
  | GAlt _ => true
  | _ => false
  end.

(** What the grammar says about a stage. *)
Definition J (g : stage) (p : pat) (ws : gap) (sm s : list Z) (r : option (list Z)) : Prop :=
  match g with
  | GSeq i => match p with Seq l => m ws (All (skipn i l)) s r | _ => False end
  | GAlt i => match p with Alt l => m ws (Any (skipn i l)) s r | _ => False end
  | GRep n => match p with Repeat lo hi q => m ws (Times lo hi n q) s r | _ => False end
  | GElem _ => match p with
               | PList q sep => (m ws (One q) s None /\ r = Some sm)
                                \/ exists s1, m ws (One q) s (Some s1) /\ m ws (More q sep) s1 r
               | _ => False
               end
  | GSep _ => match p with PList q sep => m ws (More q sep) s r | _ => False end
  | _ => m ws (One p) s r
  end.

Definition related (ws : gap) (r0 : option (list Z)) (r : bool) (s' : list Z) : Prop :=
  match r0, r with
  | Some t, true => eqt ws t s'
  | None, false => True
  | _, _ => False
  end.

(** ... and, where the match ends with something that is read, exactly. *)
Definition related' (ex : bool) (ws : gap) (r0 : option (list Z)) (r : bool) (s' : list Z) : Prop :=
  match r0, r with
  | Some t, true => eqt ws t s' /\ (ex = true -> t = s')
  | None, false => True
  | _, _ => False
  end.
Definition sends (g : stage) (p : pat) : bool :=
  match g with GElem _ | GSep _ => false | _ => ends p end.

Definition PS' (g : stage) (c : ctx) (rq : req) (p : pat) (x : list Z) (w : sw) (r : bool) (w' : sw) : Prop :=
  forall ws sk s sm,
  skips T c ws -> (sk = false -> ws = nows) -> spok sk g rq p ->
  Forall (tok T) x -> Forall (tok T) (q_s w) -> Forall (tok T) (gmark g x) ->
  (smk0 g rq p = true \/ eqt ws x (q_s w)) -> strimmed ws g rq p (q_s w) ->
  eqt ws s (q_s w) -> eqt ws sm (gmark g x) ->
  (exists r0, J g p ws sm s r0 /\ related' (sends g p) ws r0 r (q_s w')) /\
  (r = false -> sclean g rq p = true -> eqt ws (q_s w') (q_s w)).

Lemma suffix_toks a b : Forall (tok T) (a ++ b) -> Forall (tok T) b.
Proof. rewrite Forall_app. tauto. Qed.

Lemma toks_ev g c rq d p x w r w' : ev env g c rq d p x w r w' ->
  Forall (tok T) x -> Forall (tok T) (q_s w) -> Forall (tok T) (gmark g x) -> Forall (tok T) (q_s w').
Proof. apply ev_suffix. apply suffix_toks. Qed.


Lemma skipn_cons {A} (l : list A) i q : nth_error l i = Some q -> skipn i l = q :: skipn (S i) l.
Proof.
  revert l. induction i as [|i IH]; intros [|y l]; cbn; try discriminate.
  - now intros [= ->].
  - intros H. rewrite (IH _ H). reflexivity.
Qed.
Lemma skipn_end {A} (l : list A) i : nth_error l i = None -> skipn i l = [].
Proof. intros H. apply nth_error_None in H. now apply skipn_all2. Qed.

Lemma more_some ws g s r : m ws g s r -> match g with More _ _ => r <> None | _ => True end.
Proof. induction 1; auto; discriminate. Qed.

Lemma raw_noclean rq p : r_recur rq = false -> wants_clean rq p = false -> raw_req rq p = areq rq p.
Proof. intros H1 H2. unfold raw_req. now rewrite H1, H2. Qed.
Lemma raw_clean rq p : r_recur rq = false -> wants_clean rq p = true -> raw_req rq p = areq (unclean_req rq) p.
Proof. intros H1 H2. unfold raw_req. now rewrite H1, H2. Qed.

Ltac begin := intros ws sk u um Hsk Hnw Hok Tx Tw Tg Hx Ht Hs Hm;
  cbn [spok smk0 strimmed gmark J sclean sends q_s at_ with_c] in *.
Ltac rel r0 := destruct r0; cbn [related' sends] in *; try contradiction; 
  try (match goal with H : eqt _ _ _ /\ (_ -> _ = _) |- _ => let HE := fresh "HE" in destruct H as [H HE] end).

Lemma related_weaken ex ex' ws r0 r s : (ex' = true -> ex = true) -> related' ex ws r0 r s -> related' ex' ws r0 r s.
Proof. destruct r0, r; cbn; auto. intros H [H1 H2]. auto. Qed.
Lemma ends_last l i q : nth_error l i = Some q -> nth_error l (S i) = None -> ends (Seq l) = ends q.
Proof.
  revert i. induction l as [|p l IH]; intros [|i]; try discriminate.
  - cbn. intros [= ->]. destruct l; [reflexivity|discriminate].
  - intros H1 H2. change (ends (Seq (p :: l))) with (match l with [] => ends p | _ => ends (Seq l) end).
    destruct l; [destruct i; discriminate|]. now apply (IH i).
Qed.
Lemma ends_alt l i q : nth_error l i = Some q -> ends (Alt l) = true -> ends q = true.
Proof. cbn. rewrite forallb_forall. intros H1 H2. apply H2. now apply nth_error_In in H1. Qed.
Lemma member_in cs z : member cs z = true <-> in_set cs z.
Proof.
  induction cs; cbn; try tauto.
  - apply Z.eqb_eq.
  - rewrite andb_true_iff, !Z.leb_le. tauto.
  - rewrite existsb_exists. split; [intros (x & H1 & H2); apply Z.eqb_eq in H2; now subst|]. intros H. exists z. split; auto. apply Z.eqb_refl.
  - rewrite negb_true_iff, <- IHcs. destruct (member cs z); intuition congruence.
  - rewrite orb_true_iff. tauto.
Qed.
Lemma member_valid cs z : cs_fits T cs = true -> tok T z -> is_valid cs z = member cs z.
Proof.
  intros H Hz. pose proof (valid_in_set T cs z HT (cs_fits_ok _ _ H) Hz) as H4. pose proof (member_in cs z).
  destruct (is_valid cs z), (member cs z); auto; intuition congruence.
Qed.
Lemma suffix_of (P : Z -> Prop) k t : Forall P (k ++ t) -> Forall P t.
Proof. intros H. apply Forall_app in H. apply H. Qed.
Fixpoint over_times (lo : nat) (q : pat) (f n : nat) (s : list Z) : option (list Z) :=
  match f with
  | 0 => None
  | S f' => match over q s with Some r => over_times lo q f' (S n) r | None => if lo <=? n then Some s else None end
  end.
Lemma over_rep lo hi q s : over (Repeat lo hi q) s = over_times lo q (S (length s)) 0 s.
Proof.
  assert (forall f n s, (fix times (f n : nat) (s : list Z) := match f with
            | 0 => None
            | S f' => match over q s with Some t => times f' (S n) t | None => if lo <=? n then Some s else None end
            end) f n s = over_times lo q f n s) as G.
  { induction f as [|f IH]; intros n s0; [reflexivity|]. cbn [over_times]. destruct (over q s0); [apply IH|reflexivity]. }
  exact (G (S (length s)) 0 s).
Qed.
Lemma skip1_over p : fits T p = true -> forall s, Forall (tok T) s -> skip1 p s = over p s.
Proof.
  induction p using pat_ind'; cbn [fits]; try discriminate; intros Hf s0 Ts; cbn [skip1 over]; auto.
  - destruct s0 as [|z t]; auto. inversion Ts; subst. now rewrite (member_valid _ _ Hf).
  - clear Ts. revert s0. induction s as [|x l IH]; intros s0; cbn; auto. destruct s0; auto. rewrite Z.eqb_sym. destruct (x =? z)%Z; auto.
  - revert s0 Ts. induction H as [|q l Hq _ IH]; intros s0 Ts; auto. cbn [forallb] in Hf. apply andb_prop in Hf. destruct Hf as [H1 H2].
    rewrite (Hq H1 s0 Ts). destruct (over q s0) as [t|] eqn:E; auto. apply IH; auto. rewrite <- (Hq H1 s0 Ts) in E. apply skip1_suffix in E.
    destruct E as [k ->]. eapply suffix_of; eauto.
  - induction H as [|q l Hq _ IH]; auto. cbn [forallb] in Hf. apply andb_prop in Hf. destruct Hf as [H1 H2].
    rewrite (Hq H1 s0 Ts). destruct (over q s0); auto.
  - change (skip1 (Repeat lo hi p) s0 = over (Repeat lo hi p) s0). rewrite skip1_rep, over_rep. generalize (S (length s0)) as f.
    intros f. generalize 0. revert s0 Ts. induction f as [|f IH]; intros s0 Ts n; auto. cbn [skip_rep over_times].
    rewrite (IHp Hf s0 Ts). destruct (over p s0) as [t|] eqn:E; auto. apply IH. rewrite <- (IHp Hf s0 Ts) in E. apply skip1_suffix in E.
    destruct E as [k ->]. eapply suffix_of; eauto.
  - apply andb_prop in Hf. destruct Hf as [H1 H2]. now rewrite (IHp1 H1 s0 Ts), (IHp2 H2 s0 Ts).
Qed.
Lemma skipper_parts skp : skipper T skp = true -> fits T skp = true /\ moves skp = true /\ sfree skp = true.
Proof.
  induction skp using pat_ind'; cbn [skipper fits moves sfree]; try discriminate; auto. intros Hs. destruct l as [|q l]; [discriminate|].
  apply andb_prop in Hs as [H1 H2]. inversion H as [|? ? Hq _]; subst. destruct (Hq H1) as (A & B & C). cbn [forallb]. rewrite A, B, C. cbn [andb].
  rewrite !forallb_forall in *. repeat split; intros x Hx; specialize (H2 x Hx); apply andb_prop in H2 as [H2 ?]; apply andb_prop in H2 as [? ?]; auto.
Qed.
Lemma skipper_fail skp : skipper T skp = true -> is_fail skp = false.
Proof. now destruct skp. Qed.
Lemma skipper1_fail skp : skipper1 T skp = true -> is_fail skp = false.
Proof. now destruct skp. Qed.
Lemma skip1_passes skp : skipper T skp = true -> forall s, Forall (tok T) s ->
  skip1 skp s = match passes skp s with 0 => None | k => Some (skipn k s) end.
Proof.
  intros Hs s Ts. destruct (skipper_parts _ Hs) as (Hf & Hm & _). unfold passes. rewrite <- (skip1_over _ Hf s Ts).
  destruct (skip1 skp s) as [t|] eqn:E; auto. destruct (skip_suffix _ _ _ E) as (k & -> & N). specialize (N Hm).
  rewrite app_length, Nat.add_sub. destruct k as [|z k]; [easy|]. cbn [length skipn app].
  rewrite skipn_app, skipn_all, Nat.sub_diag. reflexivity.
Qed.
Lemma passes_char cs s : passes (Char cs) s = chars (member cs) s.
Proof. unfold passes. destruct s as [|z t]; auto. cbn [over chars]. destruct (member cs z); auto. cbn [length]. lia. Qed.
Lemma passes_nil skp : passes skp [] = 0.
Proof. unfold passes. now destruct (over skp []). Qed.
Lemma skips_passes skp b : skipper T skp = true -> skips T (Ctx skp b) (passes skp).
Proof.
  intros H. unfold skips. cbn [c_skip]. rewrite (skipper_fail _ H). split; [apply passes_nil|now apply skip1_passes].
Qed.
Lemma skipper_sfree skp : skipper T skp = true -> sfree skp = true.
Proof. intros H. apply (skipper_parts _ H). Qed.
Lemma skipper_ok skp : skipper T skp = true -> is_fail skp || sfree skp = true.
Proof. intros H. now rewrite (skipper_fail _ H), (skipper_sfree _ H). Qed.

Theorem sound_exact g c rq d p x w r w' : ev env g c rq d p x w r w' -> PS' g c rq p x w r w'.
Proof.
  induction 1.
  - (* recur *)
    begin. destruct Hok as [Hok Hr]. rewrite peg_ok_eq in Hok. unfold raw_req in Hok. rewrite H in Hok.
    assert (smk0 GRaw rq p = true \/ eqt ws x (q_s w)) as Hx'.
    { destruct Hx as [Hx|]; auto. left. rewrite mk0_eq in Hx. unfold raw_req in Hx. rewrite H in Hx. exact Hx. }
    destruct (IHev ws sk u um) as [HJ HC]; cbn; auto. split; auto. rewrite (Hr H). discriminate.
  - (* no skipper *)
    begin. destruct Hok as [Hok Hr]. assert (ws = nows) as -> by (unfold skips in Hsk; now rewrite H0 in Hsk).
    assert (smk0 GCln rq p = true \/ eqt nows x (q_s w)) as Hx'.
    { destruct Hx as [Hx|]; auto. left. rewrite mk0_eq, H in Hx. cbn in Hx |- *.
      destruct (wants_clean rq p) eqn:E; [discriminate|]. rewrite (raw_noclean _ _ H E) in Hx. exact Hx. }
    destruct (IHev nows sk u um) as [HJ HC]; cbn; auto. apply trim_nows.
  - (* skipper *)
    begin. destruct Hok as [Hok Hr]. destruct (IHev ws sk u um) as [HJ HC]; cbn; auto.
  - (* skip more *)
    begin. assert (eqt ws s (q_s w)) as E.
    { apply eqt_sym. eapply skips_more; eauto. }
    destruct (IHev ws sk u um) as [HJ HC]; cbn; auto.
    + apply skip1_suffix in H. destruct H as [k Ek]. rewrite Ek in Tw. now apply suffix_toks in Tw.
    + destruct Hx; eauto with eqt.
    + eauto with eqt.
    + split; auto. intros. eauto with eqt.
  - (* skip end *)
    begin. assert (trim ws (q_s w) = q_s w) as E.
    { eapply skips_end; eauto. }
    assert (smk0 GCln rq p = true \/ eqt ws x (q_s w)) as Hx'.
    { destruct Hok as [_ Hr]. destruct Hx as [Hx|]; auto. left. rewrite mk0_eq, Hr in Hx. cbn in Hx |- *.
      destruct (wants_clean rq p) eqn:Ew; [discriminate|]. rewrite (raw_noclean _ _ Hr Ew) in Hx. exact Hx. }
    destruct (IHev ws sk u um) as [HJ HC]; cbn; auto.
  - (* clean not needed *)
    begin. destruct Hok as [Hok Hr]. rewrite peg_ok_eq, (raw_noclean _ _ Hr H) in Hok. rewrite H in Hx. cbn in Hx.
    destruct (IHev ws sk u um) as [HJ HC]; cbn; auto. split; auto. intros E Hcl. apply HC; auto. cbn. rewrite Hcl. cbn.
    unfold wants_clean in H. rewrite Hcl in H. cbn in H. now apply negb_false_iff.
  - (* clean, match *)
    begin. destruct Hok as [Hok Hr]. rewrite peg_ok_eq, (raw_clean _ _ Hr H) in Hok. rewrite H in Hx. cbn in Hx.
    destruct Hx as [Hx|Hx]; [discriminate|]. destruct (IHev ws sk u um) as [HJ HC]; cbn; auto; split; auto; discriminate.
  - (* clean, no match *)
    begin. destruct Hok as [Hok Hr]. rewrite peg_ok_eq, (raw_clean _ _ Hr H) in Hok. rewrite H in Hx. cbn in Hx.
    destruct Hx as [Hx|Hx]; [discriminate|]. destruct (IHev ws sk u um) as [(r0 & HJ & HR) HC]; cbn; auto.
    split; [|auto]. exists r0. split; auto.
  - (* atomic not needed *)
    begin. destruct Hok as [Hok Hr]. unfold areq in *. rewrite H in *.
    destruct (IHev ws sk u um) as [HJ HC]; cbn; auto; split; auto; congruence.
  - (* atomic, match *)
    begin. destruct Hok as [Hok Hr]. unfold areq in *. rewrite H in *.
    destruct (IHev ws sk u um) as [HJ HC]; cbn; auto; split; auto; discriminate.
  - (* atomic, no match *)
    begin. destruct Hok as [Hok Hr]. unfold areq in *. rewrite H in *.
    destruct (IHev ws sk u um) as [HJ HC]; cbn; auto; split; auto; discriminate.
  - (* Char *)
    begin. split; [|discriminate]. exists (Some t). split; [|cbn; auto with eqt].
    destruct Hok as [Hok _]. apply cs_fits_ok in Hok. inversion Tw; subst.
    apply (m_char env ws cs u y t); [rewrite Hs; auto|]. now apply (valid_in_set T).
  - begin. split; [|auto with eqt]. exists None. split; [|exact I].
    destruct Hok as [Hok _]. apply cs_fits_ok in Hok. apply m_char_no. intros y t E. rewrite Hs, Ht in E.
    rewrite E in *. inversion Tw; subst. intros Hi. apply (valid_in_set T) in Hi; auto. congruence.
  - (* CharSymbol *) begin. destruct Hok. discriminate.
  - begin. destruct Hok. discriminate.
  - (* Eoi *)
    begin. split; [|auto with eqt]. unfold eqt in Hs. rewrite Ht in Hs. destruct (q_s w) eqn:E.
    + exists (Some []). split; [now apply m_eoi|]. cbn. auto with eqt.
    + exists None. split; [apply m_eoi_no; congruence|exact I].
  - (* Pass *)
    begin. split; [|discriminate]. exists (Some u). split; [apply m_pass|]. split; [exact Hs|discriminate].
  - (* Fail *)
    begin. split; [|auto with eqt]. exists None. split; [apply m_fail|exact I].
  - (* Lit *)
    begin. split; [|rewrite andb_false_r; discriminate]. pose proof (lit_run_ok l (q_s w)) as L. rewrite H in L.
    unfold eqt in Hs. rewrite Ht in Hs. destruct r.
    + exists (Some s). split; [|cbn; auto with eqt]. apply m_lit. congruence.
    + exists None. split; [|exact I]. apply m_lit_no. intros t. rewrite Hs. apply L.
  - (* Symbol *)
    begin. split; [|rewrite andb_false_r; discriminate]. destruct Hok as [Hok _]. cbn [pokr] in Hok.
    unfold eqt in Hs. rewrite Ht in Hs. apply sym_spec in H.
    2:{ unfold keys_ok. rewrite Forall_forall. rewrite forallb_forall in Hok. intros kv Hin N. specialize (Hok _ Hin). rewrite N in Hok. discriminate. }
    destruct H as [_ H]. destruct r.
    + destruct H as (k & v & E & Hin & _ & _ & Hmx). exists (Some s). split; [|cbn; auto with eqt].
      apply (m_sym env ws m k v); auto; [congruence|]. rewrite Hs. exact Hmx.
    + destruct H as [_ H]. exists None. split; [|exact I]. apply m_sym_no. rewrite Hs. exact H.
  - (* UInt *)
    begin. destruct Hok as [Hok _]. apply num_fits_ok in Hok. destruct Hok as (HTc & Hb & Hlh). 
    assert (Forall (tok ct_char) (q_s w)) as Tw' by (rewrite <- HTc; exact Tw).
    unfold eqt in Hs. rewrite Ht in Hs. split.
    + pose proof (uint_number b lo hi Hb Hlh _ _ _ _ _ _ Tw' H0) as HN.
      exists (number b lo hi (trim ws u)). split; [apply m_uint|]. rewrite Hs, HN. destruct r; cbn; auto with eqt.
    + intros -> E. apply andb_prop in E. destruct E as [_ E]. cbn in E. apply Z.eqb_eq in E. subst hi.
      destruct (q_s w) as [|y t]; cbn in H0; [injection H0 as _ <- _; auto with eqt|].
      destruct (digit_valid b y); [|injection H0 as _ <- _; auto with eqt].
      destruct (num_op _ c0 d) as [c1|]; [|discriminate]. cbn in H0. destruct (num_op _ c1 d); [|discriminate]. discriminate.
  - (* Int *)
    begin. destruct Hok as [Hok _]. cbn [pokr] in Hok. apply andb_prop in Hok. destruct Hok as [Hok H1].
    apply num_fits_ok in Hok. destruct Hok as (HTc & Hb & Hlh). 
    assert (Forall (tok ct_char) (q_s w)) as Tw' by (rewrite <- HTc; exact Tw).
    unfold eqt in Hs. rewrite Ht in Hs. split.
    + pose proof (int_number b lo hi Hb Hlh _ _ _ _ _ _ Tw' H0) as HN.
      exists (number b lo hi (unsigned (trim ws u))). split; [apply m_int|]. rewrite Hs, HN. destruct r; cbn; auto with eqt.
    + intros _ E. apply andb_prop in E. destruct E as [_ E]. cbn in E. rewrite E in H1. discriminate.
  - (* Seq *)
    begin. destruct (IHev ws sk u um) as [(r0 & HJ & HR) HC]; cbn; auto.
    { destruct Hx as [Hx|Hx]; auto. left. cbn in Hx. destruct l; auto. }
    split; [|rewrite andb_false_r; discriminate]. exists r0. split; auto. now apply m_seq.
  - (* Seq: failure *)
    begin. rewrite H in Hx. destruct (IHev ws sk u x) as [(r0 & HJ & HR) HC]; cbn; auto with eqt; try discriminate.
    { destruct Hok as [Hok _]. split; [|discriminate]. cbn in Hok. rewrite forallb_forall in Hok. apply nth_error_In in H. auto. }
    rel r0. split; [|discriminate]. exists None. split; auto. rewrite (skipn_cons _ _ _ H). now apply m_all_no.
  - (* Seq: end *)
    begin. rewrite H in Hx. destruct (IHev ws sk u x) as [(r0 & HJ & HR) HC]; cbn; auto with eqt; try discriminate.
    { destruct Hok as [Hok _]. split; [|discriminate]. cbn in Hok. rewrite forallb_forall in Hok. apply nth_error_In in H. auto. }
    rel r0. split; [|discriminate]. exists (Some l0). split; [|cbn [related']; split; [auto|intros E; apply HE; now rewrite <- (ends_last _ _ _ H H0)]].
    rewrite (skipn_cons _ _ _ H), (skipn_end _ _ H0).
    eapply m_all; [exact HJ|apply m_all_end].
  - (* Seq: next *)
    begin. rewrite H in Hx. pose proof (toks_ev _ _ _ _ _ _ _ _ _ H2 Tx Tw Tx) as Tw1.
    destruct (IHev1 ws sk u x) as [(r0 & HJ & HR) HC]; cbn; auto with eqt; try discriminate.
    { destruct Hok as [Hok _]. split; [|discriminate]. cbn in Hok. rewrite forallb_forall in Hok. apply nth_error_In in H. auto. }
    rel r0. destruct (IHev2 ws sk l0 (q_s w1)) as [(r1 & HJ1 & HR1) HC1]; cbn; auto with eqt.
    split; [|discriminate]. exists r1. split; auto. rewrite (skipn_cons _ _ _ H). eapply m_all; [exact HJ|exact HJ1].
  - (* Alt *)
    begin. destruct (IHev ws sk u um) as [(r0 & HJ & HR) HC]; cbn; auto.
    { destruct Hx as [Hx|Hx]; auto. left. cbn in Hx. destruct l; auto. }
    split; auto. exists r0. split; auto. now apply m_alt.
  - (* Alt: match *)
    begin. rewrite H in Hx. destruct (IHev ws sk u x) as [(r0 & HJ & HR) HC]; cbn; auto with eqt; try discriminate.
    { destruct Hok as [Hok _]. split; [|discriminate]. cbn in Hok. rewrite forallb_forall in Hok. apply nth_error_In in H. auto. }
    rel r0. split; [|discriminate]. exists (Some l0). split; [|split; auto; intros E; eauto using ends_alt].
    rewrite (skipn_cons _ _ _ H). now apply m_any.
  - (* Alt: end *)
    begin. rewrite H in Hx. destruct (IHev ws sk u x) as [(r0 & HJ & HR) HC]; cbn; auto with eqt; try discriminate.
    { destruct Hok as [Hok _]. split; [|discriminate]. cbn in Hok. rewrite forallb_forall in Hok. apply nth_error_In in H. auto. }
    rel r0. split; auto. exists None. split; auto. rewrite (skipn_cons _ _ _ H), (skipn_end _ _ H0).
    apply m_any_next; [exact HJ|apply m_any_end].
  - (* Alt: next *)
    begin. rewrite H in Hx. pose proof (toks_ev _ _ _ _ _ _ _ _ _ H1 Tx Tw Tx) as Tw1.
    destruct (IHev1 ws sk u x) as [(r0 & HJ & HR) HC]; cbn; auto with eqt; try discriminate.
    { destruct Hok as [Hok _]. split; [|discriminate]. cbn in Hok. rewrite forallb_forall in Hok. apply nth_error_In in H. auto. }
    rel r0. specialize (HC eq_refl eq_refl).
    destruct (IHev2 ws sk u (q_s w1)) as [(r1 & HJ1 & HR1) HC1]; cbn; auto with eqt; [eauto with eqt|].
    split; [|eauto with eqt]. exists r1. split; auto. rewrite (skipn_cons _ _ _ H). now apply m_any_next.
  - (* Repeat *)
    begin. destruct (IHev ws sk u um) as [(r0 & HJ & HR) HC]; cbn; auto; [lia|].
    split; [|rewrite andb_false_r; discriminate]. exists r0. split; auto. now apply m_repeat.
  - (* Repeat: stop *)
    begin. destruct Hok as [Hok _]. cbn [pokr] in Hok. apply andb_prop in Hok. destruct Hok as [Hlh Hok].
    destruct (IHev ws sk u x) as [(r0 & HJ & HR) HC]; cbn; auto with eqt; try discriminate.
    { split; auto. discriminate. }
    rel r0. split; [|discriminate]. exists (if lo <=? n then Some u else None). split; [now apply m_times_stop|].
    destruct (Nat.leb_spec lo n); cbn; auto. split.
    + apply (eqt_trans _ _ _ _ Hs). apply eqt_sym. apply HC; auto. cbn.
      destruct (Nat.eqb_spec lo hi); cbn; auto. apply Nat.eqb_eq. lia.
    + intros E. change ((0 <? hi) && (lo =? hi) && ends q = true) in E. rewrite !andb_true_iff, Nat.ltb_lt, Nat.eqb_eq in E. lia.
  - (* Repeat: full *)
    begin. destruct Hok as [Hok _]. cbn [pokr] in Hok. apply andb_prop in Hok. destruct Hok as [Hlh Hok].
    destruct (IHev ws sk u x) as [(r0 & HJ & HR) HC]; cbn; auto with eqt; try discriminate.
    { split; auto. discriminate. }
    rel r0. split; [|discriminate]. exists (Some l). split.
    + apply m_times_full; auto. apply andb_prop in H0. now apply Nat.eqb_eq.
    + split; auto. cbn. intros E. apply andb_prop in E. apply HE. apply E.
  - (* Repeat: more *)
    begin. assert (Hok' := Hok). destruct Hok as [Hok _]. cbn [pokr] in Hok. apply andb_prop in Hok. destruct Hok as [Hlh Hok].
    pose proof (toks_ev _ _ _ _ _ _ _ _ _ H Tx Tw Tx) as Tw1.
    destruct (IHev1 ws sk u x) as [(r0 & HJ & HR) HC]; cbn; auto with eqt; try discriminate.
    { split; auto. discriminate. }
    rel r0. assert (S n <> hi) as Hn.
    { intros <-. rewrite Nat.eqb_refl in H0. discriminate. }
    destruct (IHev2 ws sk l (q_s w1)) as [(r1 & HJ1 & HR1) HC1]; cbn; auto with eqt; [lia|].
    split; [|discriminate]. exists r1. split; auto. now apply (m_times env ws lo hi n q u l).
  - (* Not *)
    begin. destruct Hok as [Hok _]. destruct Hx as [Hx|Hx]; [discriminate|].
    destruct (IHev ws sk u x) as [(r0 & HJ & HR) HC]; cbn; auto with eqt; try discriminate.
    { split; auto. discriminate. }
    split; [|auto]. destruct r; rel r0.
    + exists None. split; [|exact I]. eapply m_not. exact HJ.
    + exists (Some u). split; [now apply m_not_no|]. cbn. split; [eauto with eqt|discriminate].
  - (* Opt: match *)
    begin. destruct Hok as [Hok _]. destruct Hx as [Hx|Hx]; [discriminate|].
    destruct (IHev ws sk u x) as [(r0 & HJ & HR) HC]; cbn; auto with eqt; try discriminate.
    { split; auto. discriminate. }
    split; [|discriminate]. rel r0. exists (Some l). split; [now apply m_opt|]. split; [auto|discriminate].
  - (* Opt: no match *)
    begin. destruct Hok as [Hok _]. destruct Hx as [Hx|Hx]; [discriminate|].
    destruct (IHev ws sk u x) as [(r0 & HJ & HR) HC]; cbn; auto with eqt; try discriminate.
    { split; auto. discriminate. }
    split; [|discriminate]. rel r0. exists (Some u). split; [now apply m_opt_no|]. cbn. split; [eauto with eqt|discriminate].
  - (* Discard *)
    begin. destruct (IHev ws sk u x) as [(r0 & HJ & HR) HC]; cbn; auto with eqt.
    split; [exists r0; split; auto; now apply m_discard|]. intros -> E. apply HC; auto. now rewrite andb_true_r in E.
  - (* Lexeme *)
    begin. destruct Hok as [Hok Hr]. cbn [pokr] in Hok. apply andb_prop in Hok. destruct Hok as [Hl Hok].
    assert (trim ws u = q_s w) as Eu by (unfold eqt in Hs; congruence).
    destruct (IHev nows false (trim ws u) x) as [(r0 & HJ & HR) HC]; cbn; auto with eqt.
    { destruct sk; cbn in Hl; auto. rewrite (Hnw eq_refl) in Hx. exact Hx. }
    { intros _. apply trim_nows. }
    { rewrite Eu. auto with eqt. }
    split.
    + exists r0. split; [now apply m_lexeme|]. destruct r; rel r0; auto. apply eqt_nows in HR. subst. auto with eqt.
    + intros -> E. rewrite andb_true_r in E. specialize (HC eq_refl E). apply eqt_nows in HC. rewrite HC. auto with eqt.
  - (* WithSkipper *)
    begin. destruct Hok as [Hok Hr]. cbn [pokr] in Hok. 
    rewrite !andb_true_iff, !negb_true_iff in Hok. destruct Hok as (Hf & (((Hcl & Hrc) & He) & Hl) & Hok).
    assert (trim ws u = q_s w) as Eu by (unfold eqt in Hs; congruence).
    destruct (IHev (passes s) true (trim ws u) x) as [(r0 & HJ & HR) HC]; cbn; auto with eqt.
    { exact (skips_passes s (c_bound c) Hf). }
    { discriminate. }
    { destruct sk; cbn in Hl; auto. rewrite (Hnw eq_refl) in Hx. destruct Hx as [Hx|Hx]; [auto|]. apply eqt_nows in Hx. rewrite Hx. auto with eqt. }
    { congruence. }
    { rewrite Eu. auto with eqt. }
    split.
    + exists r0. split; [now apply m_skipper|]. destruct r; rel r0; auto. rewrite (HE He). auto with eqt.
    + rewrite Hcl. discriminate.
  - (* BindDst *)
    begin. destruct Hok as [Hok _]. destruct (IHev ws sk u x) as [(r0 & HJ & HR) HC]; cbn; auto with eqt; try discriminate.
    { split; auto. discriminate. }
    split; [exists r0; split; auto; now apply m_bind|]. intros -> E. apply HC; auto. now rewrite andb_true_r in E.
  - (* Construct: match *)
    begin. destruct Hok as [Hok _]. destruct (IHev ws sk u x) as [(r0 & HJ & HR) HC]; cbn; auto with eqt; try discriminate.
    { split; auto. discriminate. }
    split; [exists r0; split; auto; now apply m_construct|]. discriminate.
  - (* Construct: no match *)
    begin. destruct Hok as [Hok _]. destruct (IHev ws sk u x) as [(r0 & HJ & HR) HC]; cbn; auto with eqt; try discriminate.
    { split; auto. discriminate. }
    split; [exists r0; split; auto; now apply m_construct|]. intros _ E. apply HC; auto. now rewrite andb_true_r in E.
  - (* Act: match *)
    begin. destruct Hok as [Hok _]. destruct (IHev ws sk u x) as [(r0 & HJ & HR) HC]; cbn; auto with eqt; try discriminate.
    { split; auto. discriminate. }
    split; [|discriminate]. exists r0. split; [now apply m_act|].
    unfold act_run in H1. destruct (act_dispatch a v d c _) as [[uu wu]|]; [|discriminate]. injection H1 as <-. exact HR.
  - (* Act: no match *)
    begin. destruct Hok as [Hok _]. destruct (IHev ws sk u x) as [(r0 & HJ & HR) HC]; cbn; auto with eqt; try discriminate.
    { split; auto. discriminate. }
    split; [exists r0; split; auto; now apply m_act|]. intros _ E. apply HC; auto. now rewrite andb_true_r in E.
  - (* Except: hit *)
    begin. destruct Hok as [Hok _]. cbn [pokr] in Hok. apply andb_prop in Hok. destruct Hok as [Hok1 Hok2].
    destruct (IHev ws sk u x) as [(r0 & HJ & HR) HC]; cbn; auto with eqt; try discriminate.
    { split; auto. discriminate. }
    rel r0. split; [|rewrite andb_false_r; discriminate]. exists None. split; [|exact I]. eapply m_except. exact HJ.
  - (* Except: go *)
    begin. destruct Hok as [Hok _]. cbn [pokr] in Hok. apply andb_prop in Hok. destruct Hok as [Hok1 Hok2].
    pose proof (toks_ev _ _ _ _ _ _ _ _ _ H Tx Tw Tx) as Tw1.
    destruct (IHev1 ws sk u x) as [(r0 & HJ & HR) HC]; cbn; auto with eqt; try discriminate.
    { split; auto. discriminate. }
    rel r0. specialize (HC eq_refl eq_refl).
    destruct (IHev2 ws sk u (q_s w1)) as [(r1 & HJ1 & HR1) HC1]; cbn; auto with eqt; try discriminate.
    { split; auto. discriminate. }
    { eauto with eqt. }
    split; [|rewrite andb_false_r; discriminate]. exists r1. split; auto. now apply m_except_no.
  - (* PList *)
    begin. destruct Hx as [Hx|Hx]; [discriminate|].
    destruct (IHev ws sk u u) as [(r0 & HJ & HR) HC]; cbn; auto with eqt; [eauto with eqt|].
    destruct HJ as [[HJ ->]|(s1 & HJ & HM)].
    + split; [exists (Some u); split; auto; now apply m_list_none|]. intros ->. contradiction.
    + split; [exists r0; split; auto; now apply (m_list env ws q sep u s1)|].
      intros ->. rel r0. now apply more_some in HM.
  - (* list: element missing *)
    begin. destruct Hok as [Hok _]. cbn [pokr] in Hok. apply andb_prop in Hok. destruct Hok as [Hok1 Hok2].
    destruct (IHev ws sk u x) as [(r0 & HJ & HR) HC]; cbn; auto with eqt; try discriminate.
    { split; auto. discriminate. }
    rel r0. split; [|discriminate]. exists (Some um). split; auto. split; [auto|discriminate].
  - (* list: element *)
    begin. assert (Hok' := Hok). destruct Hok as [Hok _]. cbn [pokr] in Hok. apply andb_prop in Hok. destruct Hok as [Hok1 Hok2].
    pose proof (toks_ev _ _ _ _ _ _ _ _ _ H Tx Tw Tx) as Tw1.
    destruct (IHev1 ws sk u x) as [(r0 & HJ & HR) HC]; cbn; auto with eqt; try discriminate.
    { split; auto. discriminate. }
    rel r0. destruct (IHev2 ws sk l (q_s w1)) as [(r1 & HJ1 & HR1) HC1]; cbn; auto with eqt.
    split; [|discriminate]. exists r1. split; auto. right. exists l. auto.
  - (* list: separator missing *)
    begin. destruct Hok as [Hok _]. cbn [pokr] in Hok. apply andb_prop in Hok. destruct Hok as [Hok1 Hok2].
    destruct (IHev ws sk u x) as [(r0 & HJ & HR) HC]; cbn; auto with eqt; try discriminate.
    { split; auto. discriminate. }
    rel r0. split; [|discriminate]. exists (Some u). split; [now apply m_more_end|]. cbn. split; [eauto with eqt|discriminate].
  - (* list: separator *)
    begin. assert (Hok' := Hok). destruct Hok as [Hok _]. cbn [pokr] in Hok. apply andb_prop in Hok. destruct Hok as [Hok1 Hok2].
    pose proof (toks_ev _ _ _ _ _ _ _ _ _ H Tx Tw Tx) as Tw1.
    destruct (IHev1 ws sk u x) as [(r0 & HJ & HR) HC]; cbn; auto with eqt; try discriminate.
    { split; auto. discriminate. }
    rel r0. destruct (IHev2 ws sk l u) as [(r1 & HJ1 & HR1) HC1]; cbn; auto with eqt; [eauto with eqt|].
    split; [|discriminate]. destruct HJ1 as [[HJ1 ->]|(s2 & HJ1 & HM)].
    + exists (Some u). split; auto. now apply (m_more_trailing env ws q sep u l).
    + exists r1. split; auto. now apply (m_more env ws q sep u l s2).
  - (* Recur *)
    begin. destruct (IHev ws sk u (q_s w)) as [(r0 & HJ & HR) HC]; cbn; auto with eqt.
    { split; [|auto]. destruct sk; [now apply (Henv id)|]. apply peg_ok_mono. now apply (Henv id). }
    split; [|rewrite andb_false_r; discriminate]. exists r0.
    split; [now apply (m_recur env ws id b q)|]. eapply related_weaken; [|exact HR]. discriminate.
Qed.

Definition PS (g : stage) (c : ctx) (rq : req) (p : pat) (x : list Z) (w : sw) (r : bool) (w' : sw) : Prop :=
  forall ws sk s sm,
  skips T c ws -> (sk = false -> ws = nows) -> spok sk g rq p ->
  Forall (tok T) x -> Forall (tok T) (q_s w) -> Forall (tok T) (gmark g x) ->
  (smk0 g rq p = true \/ eqt ws x (q_s w)) -> strimmed ws g rq p (q_s w) ->
  eqt ws s (q_s w) -> eqt ws sm (gmark g x) ->
  (exists r0, J g p ws sm s r0 /\ related ws r0 r (q_s w')) /\
  (r = false -> sclean g rq p = true -> eqt ws (q_s w') (q_s w)).

Theorem sound_all g c rq d p x w r w' : ev env g c rq d p x w r w' -> PS g c rq p x w r w'.
Proof.
  intros H ws sk s sm H1 H2 H3 H4 H5 H6 H7 H8 H9 H10.
  destruct (sound_exact _ _ _ _ _ _ _ _ _ H ws sk s sm) as [(r0 & HJ & HR) HC]; auto.
  split; auto. exists r0. split; auto. destruct r0, r; cbn in *; tauto.
Qed.

End Peg.
