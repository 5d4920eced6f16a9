(** Where the next character decides, the context-free reading and the parsing-expression
    reading are the same (C57). *)
From Coq Require Import List ZArith Bool Arith Lia.
From Verif Require Import Base CharSet Dst Pattern SpecPeg SpecLang Rel PegSound PegTerm Run.
Import ListNotations.

(** ** Texts *)
Local Notation trim w := (SpecPeg.trim (chars w)).
Local Notation eqt w := (PegSound.eqt (chars w)).
Local Notation nows := none.
Local Arguments SpecPeg.trim : simpl never.
Lemma trim_nows s : trim nows s = s.
Proof. apply PegSound.trim_nows. Qed.
Lemma eqt_nows a b : eqt nows a b -> a = b.
Proof. apply PegSound.eqt_nows. Qed.
Lemma trim_false w z t : w z = false -> trim w (z :: t) = z :: t.
Proof. intros E. now rewrite trim_chars, E. Qed.

Lemma over_onechars skp : onechars skp = true -> forall s, over skp s = match s with z :: t => if passes1 skp z then Some t else None | [] => None end.
Proof.
  induction skp using pat_ind'; cbn [onechars]; try discriminate; intros Hs s0; cbn [over passes1]; auto.
  induction H as [|q l Hq _ IH]; [now destruct s0|]. cbn [forallb existsb] in *. apply andb_prop in Hs as [H1 H2]. rewrite (Hq H1).
  destruct s0 as [|z t]; [exact (IH H2)|]. destruct (passes1 q z); auto.
Qed.
Lemma passes_onechars skp : onechars skp = true -> forall s, passes skp s = chars (passes1 skp) s.
Proof.
  intros Hs s. unfold passes. rewrite over_onechars by auto. destruct s as [|z t]; auto. cbn [chars]. destruct (passes1 skp z); auto. cbn [length]. lia.
Qed.

Lemma trim_app_blank ws b s : Forall (fun z => ws z = true) b -> trim ws (b ++ s) = trim ws s.
Proof. induction 1 as [|z b H _ IH]; [reflexivity|]. cbn [app]. now rewrite trim_chars, H. Qed.
Lemma trim_split ws s : exists b, s = b ++ trim ws s /\ Forall (fun z => ws z = true) b.
Proof.
  induction s as [|z s (b & E & H)]; [now exists []|]. rewrite trim_chars. destruct (ws z) eqn:Ez; [|now exists []].
  exists (z :: b). split; [|now constructor]. cbn. now rewrite <- E.
Qed.
Lemma trim_fix_app ws t s : trim ws t = t -> t <> [] -> trim ws (t ++ s) = t ++ s.
Proof.
  destruct t as [|z t]; [congruence|]. cbn [app]. rewrite !trim_chars. destruct (ws z) eqn:E; auto. intros H. exfalso.
  destruct (trim_split ws t) as (b & Eb & _). rewrite H in Eb. apply (f_equal (@length Z)) in Eb. rewrite app_length in Eb. cbn in Eb. lia.
Qed.
Lemma trim_head ws s z t : trim ws s = z :: t -> ws z = false.
Proof. induction s as [|y s IH]; [discriminate|]. rewrite trim_chars. destruct (ws y) eqn:E; auto. intros [= -> ->]. auto. Qed.
(** A prefix of a trimmed text is trimmed. *)
Lemma trim_prefix ws s t r : trim ws s = t ++ r -> trim ws t = t.
Proof. destruct t as [|z t]; [reflexivity|]. intros H. rewrite trim_chars. now rewrite (trim_head _ _ _ _ H). Qed.
Lemma lead_trim ws w tok s : lead ws w tok -> trim ws (w ++ s) = match tok with [] => trim ws s | _ => tok ++ s end.
Proof.
  intros (b & -> & Hb & Ht). rewrite <- app_assoc, trim_app_blank by auto. destruct tok as [|z t]; [reflexivity|]. apply trim_fix_app; auto. discriminate.
Qed.
Lemma lead_of ws s tok t : trim ws s = tok ++ t -> exists w, s = w ++ t /\ lead ws w tok.
Proof.
  intros E. destruct (trim_split ws s) as (b & Es & Hb). exists (b ++ tok). split.
  - rewrite <- app_assoc, <- E. exact Es.
  - exists b. split; auto. split; auto. eapply trim_prefix; eauto.
Qed.
Lemma next_lead ws w tok s : lead ws w tok -> next ws (w ++ s) = match tok with [] => next ws s | z :: _ => Some z end.
Proof. intros H. unfold next. rewrite (lead_trim _ _ _ _ H). now destruct tok. Qed.
Lemma next_eqt ws a b : eqt ws a b -> next ws a = next ws b.
Proof. unfold next, eqt. now intros ->. Qed.

Lemma digits_app b ds s : Forall (fun z => is_digit b z = true) ds -> digits b (ds ++ s) = length ds + digits b s.
Proof. induction 1 as [|z ds H _ IH]; [reflexivity|]. cbn. now rewrite H, IH. Qed.
Lemma digits_prefix b s : Forall (fun z => is_digit b z = true) (firstn (digits b s) s).
Proof. induction s as [|z s IH]; cbn; [constructor|]. destruct (is_digit b z) eqn:E; cbn; constructor; auto. Qed.
Lemma digits_le b s : digits b s <= length s.
Proof. induction s as [|z s IH]; cbn; [lia|]. destruct (is_digit b z); cbn; lia. Qed.
Lemma Forall_firstn {A} (P : A -> Prop) n l : Forall P l -> Forall P (firstn n l).
Proof. revert n. induction l as [|a l IH]; intros [|n] H; cbn; auto. inversion H; subst. constructor; auto. Qed.

(** A number that has been read is digits. *)
Lemma number_reads b lo hi s t : number b lo hi s = Some t -> exists ds, s = ds ++ t /\ Forall (fun z => is_digit b z = true) ds /\
  (lo <= Z.of_nat (length ds))%Z /\ (0 < hi -> Z.of_nat (length ds) <= hi)%Z.
Proof.
  unfold number. destruct (lo <=? Z.of_nat (taken b hi s))%Z eqn:El; [|discriminate]. intros [= <-]. apply Z.leb_le in El.
  assert (Ht : taken b hi s <= digits b s) by (unfold taken; destruct (0 <? hi)%Z; lia).
  pose proof (digits_le b s) as Hd. exists (firstn (taken b hi s) s). split; [symmetry; apply firstn_skipn|].
  assert (HL : length (firstn (taken b hi s) s) = taken b hi s) by (apply firstn_length_le; lia). rewrite HL. split; [|split; [lia|]].
  - replace (taken b hi s) with (Nat.min (taken b hi s) (digits b s)) by lia. rewrite <- firstn_firstn. apply Forall_firstn, digits_prefix.
  - intros Hh. unfold taken. apply Z.ltb_lt in Hh. rewrite Hh. apply Z.ltb_lt in Hh. lia.
Qed.
(** ... and digits are read, if no more of them follow or no more are wanted. *)
Lemma number_is_read b lo hi ds s : Forall (fun z => is_digit b z = true) ds ->
  (lo <= Z.of_nat (length ds))%Z -> (0 < hi -> Z.of_nat (length ds) <= hi)%Z ->
  ((0 < hi /\ lo = hi)%Z \/ digits b s = 0) -> number b lo hi (ds ++ s) = Some s.
Proof.
  intros Hd Hlo Hhi Hs. unfold number.
  assert (Et : taken b hi (ds ++ s) = length ds).
  { unfold taken. rewrite digits_app by auto. destruct (0 <? hi)%Z eqn:Eh; [apply Z.ltb_lt in Eh|apply Z.ltb_ge in Eh]; lia. }
  rewrite Et, (proj2 (Z.leb_le _ _) Hlo). f_equal. rewrite skipn_app, skipn_all, Nat.sub_diag. reflexivity.
Qed.

Lemma in_set_dec cs z : in_set cs z \/ ~ in_set cs z.
Proof.
  induction cs; cbn; try tauto; try lia.
  - destruct (in_dec Z.eq_dec z l); tauto.
  - destruct (f z); [tauto|right; discriminate].
Qed.
Lemma among_dec cs o : among cs o \/ ~ among cs o.
Proof.
  destruct o as [z|]; [|right; intros (y & E & _); discriminate]. destruct (in_set_dec cs z) as [H|H]; [left; exists z; auto|].
  right. intros (y & [= <-] & Hy). auto.
Qed.

Section Thms.
Context (env : nat -> option pat).
Local Notation m w := (m env (chars w)).
Local Notation lang := (lang env).

Lemma onechar_m ws q cs s : onechar q = Some cs ->
  (among cs (next ws s) -> exists t, m ws (One q) s (Some t)) /\ (~ among cs (next ws s) -> m ws (One q) s None).
Proof.
  revert cs. induction q using pat_ind'; intros c E; try discriminate; cbn in E.
  - injection E as ->. unfold next. split.
    + intros (y & Ey & Hy). destruct (trim ws s) as [|z t] eqn:Et; [discriminate|]. injection Ey as ->. exists t. eapply m_char; eauto.
    + intros H. apply m_char_no. intros y t Et Hy. apply H. exists y. now rewrite Et.
  - destruct (IHq _ E) as [H1 H2]. split; [intros H; destruct (H1 H) as [t Ht]; exists t; now constructor|intros H; constructor; auto].
  - destruct (IHq _ E) as [H1 H2]. split; [intros H; destruct (H1 H) as [t Ht]; exists t; now constructor|intros H; constructor; auto].
  - destruct (IHq _ E) as [H1 H2]. split; [intros H; destruct (H1 H) as [t Ht]; exists t; now constructor|intros H; constructor; auto].
Qed.

(** ** What is read can be written *)
(** MIN <= MAX. *)
Fixpoint sane (p : pat) : bool :=
  match p with
  | Repeat lo hi q => ((hi =? 0) || (lo <=? hi)) && sane q
  | Seq l | Alt l => forallb sane l
  | Not q | Opt q | Discard q | Lexeme q | BindDst q | Construct _ q | Act _ q | Except q _ => sane q
  | WithSkipper q k => onechars k && sane q
  | PList q sep => sane q && sane sep
  | _ => true
  end.
Definition sane_goal (g : goal) : bool :=
  match g with
  | One p => sane p
  | All l | Any l => forallb sane l
  | Times lo hi _ p => ((hi =? 0) || (lo <=? hi)) && sane p
  | More p sep => sane p && sane sep
  end.
Context (Hsane : forall id q, env id = Some q -> sane q = true).

Definition reads (ws : Z -> bool) (g : goal) (s : list Z) (r : option (list Z)) : Prop :=
  match r with
  | None => True
  | Some s' =>
    exists w, s = w ++ s' /\
    match g with
    | One p => lang ws (FOne p) w
    | All l => lang ws (FAll l) w
    | Any l => exists p, In p l /\ lang ws (FOne p) w
    | Times lo hi n p => (hi = 0 \/ n < hi) -> exists k, lang ws (FRow k p) w /\ lo <= n + k /\ (hi <> 0 -> n + k <= hi)
    | More p sep => lang ws (FMore p sep) w
    end
  end.

Lemma next_app ws w s : next ws (w ++ s) = match next ws w with Some y => Some y | None => next ws s end.
Proof.
  destruct (trim_split ws w) as (b & E & Hb). rewrite E at 1. rewrite <- app_assoc. unfold next. rewrite trim_app_blank by auto.
  destruct (trim ws w) as [|z t] eqn:Et; [reflexivity|]. cbn [app]. now rewrite (trim_false _ _ _ (trim_head _ _ _ _ Et)).
Qed.

Ltac sn := repeat match goal with H : _ && _ = true |- _ => apply andb_prop in H as [? ?] end.
Lemma m_reads gp g s r : SpecPeg.m env gp g s r -> forall ws, (forall s, gp s = chars ws s) -> sane_goal g = true -> reads ws g s r.
Proof.
  assert (HE : forall gp ws s, (forall s, gp s = chars ws s) -> SpecPeg.trim gp s = trim ws s).
  { intros gp0 ws0 s0 E. apply (trim_in (fun _ => True)); auto. }
  induction 1; intros w0 Hg; rename ws into g0; rename w0 into ws;
    repeat match goal with K : forall s, ?g s = chars ?w s, IH : forall w, (forall s, ?g s = chars w s) -> _ |- _ => specialize (IH w K) end;
    try match goal with K : forall s, ?g s = chars ?w s |- _ => rewrite !(HE g w _ K) in * end; cbn [sane_goal sane forallb] in *; intros HS;
    repeat match goal with IH : ?b = true -> reads _ _ _ _, H : ?b = true |- _ => specialize (IH H) end; sn;
    repeat match goal with IH : ?b = true -> reads _ _ _ _, H : ?b = true |- _ => specialize (IH H) end; cbn [reads] in *; auto.
  - destruct (lead_of ws s [y] t H) as (w & -> & Hw). exists w. split; auto. econstructor; eauto.
  - destruct (lead_of ws s [] [] H) as (w & -> & Hw). exists w. split; auto. now constructor.
  - exists []. split; auto. constructor.
  - destruct (lead_of ws s l t H) as (w & -> & Hw). exists w. split; auto. now constructor.
  - destruct (lead_of ws s k t H) as (w & -> & Hw). exists w. split; auto. econstructor; eauto.
  - destruct (number b lo hi (trim ws s)) as [t|] eqn:E; cbn; auto. destruct (number_reads _ _ _ _ _ E) as (ds & Es & Hd & Hl & Hh).
    destruct (lead_of ws s ds t Es) as (w & -> & Hw). exists w. split; auto. econstructor; eauto.
  - destruct (number b lo hi (unsigned (trim ws s))) as [t|] eqn:E; cbn; auto. destruct (number_reads _ _ _ _ _ E) as (ds & Es & Hd & Hl & Hh).
    assert (exists sg, trim ws s = (sg ++ ds) ++ t /\ (sg = [] \/ sg = [45%Z] \/ sg = [43%Z])) as (sg & Et & Hsg).
    { unfold unsigned in Es. destruct (trim ws s) as [|z u]; [now exists []; auto|].
      destruct ((z =? 45) || (z =? 43))%Z eqn:Ez; [|exists []; auto]. apply orb_prop in Ez as [Ez|Ez]; apply Z.eqb_eq in Ez; subst z; rewrite Es; [exists [45%Z]|exists [43%Z]]; auto. }
    destruct (lead_of ws s (sg ++ ds) t Et) as (w & -> & Hw). exists w. split; auto. econstructor; eauto.
  - destruct r as [s'|]; cbn in *; auto. destruct IHm as (w & -> & Hw). exists w. split; auto. now constructor.
  - exists []. split; auto. constructor.
  - destruct r as [s'|]; cbn in *; auto. destruct IHm1 as (w1 & -> & L1), IHm2 as (w2 & -> & L2). exists (w1 ++ w2). split; [apply app_assoc|]. now constructor.
  - destruct r as [s'|]; cbn in *; auto. destruct IHm as (w & -> & p & Hp & Hw). exists w. split; auto. econstructor; eauto.
  - destruct IHm as (w & -> & Hw). exists w. split; auto. exists p. split; auto. now left.
  - destruct r as [s'|]; cbn in *; auto. destruct IHm2 as (w & -> & q & Hq & Hw). exists w. split; auto. exists q. split; auto.
  - destruct r as [s'|]; cbn in *; auto. destruct IHm as (w & -> & Hw). exists w. split; auto. destruct (Hw ltac:(lia)) as (k & L1 & L2 & L3). econstructor; eauto.
  - destruct (lo <=? n) eqn:E; cbn; auto. apply Nat.leb_le in E. exists []. split; auto. intros Hn. exists 0. split; [constructor|lia].
  - destruct IHm as (w & -> & Hw). exists w. split; auto. intros Hn. exists 1. match goal with H : _ || _ = true |- _ => apply orb_prop in H; rewrite Nat.eqb_eq, Nat.leb_le in H end. split; [|lia]. rewrite <- (app_nil_r w). constructor; auto. constructor.
  - destruct r as [s'|]; cbn in *; auto. destruct IHm1 as (w1 & -> & L1), IHm2 as (w2 & -> & L2). exists (w1 ++ w2). split; [apply app_assoc|].
    intros Hn. destruct (L2 ltac:(lia)) as (k & L3 & L4). exists (S k). split; [now constructor|lia].
  - exists []. split; auto. constructor.
  - destruct IHm as (w & -> & Hw). exists w. split; auto. now apply l_opt.
  - exists []. split; auto. constructor.
  - destruct r as [s'|]; cbn in *; auto. destruct IHm2 as (w & -> & Hw). exists w. split; auto. constructor; auto.
    intros cs Ec Ha. destruct (onechar_m ws q cs (w ++ s') Ec) as [L1 _].
    assert (Hn : among cs (next ws (w ++ s'))).
    { rewrite next_app. destruct Ha as (y & Ey & Hy). rewrite Ey. exists y. auto. }
    destruct (L1 Hn) as [t Ht]. destruct (m_ext_in env (fun _ => True) (fun _ _ _ => I) _ _ _ _ H (chars ws)) as [H' _]; auto.
    pose proof (m_det _ _ _ _ _ H' _ Ht). discriminate.
  - exists []. split; auto. constructor.
  - destruct r as [s'|]; cbn in *; auto. destruct IHm1 as (w1 & -> & L1), IHm2 as (w2 & -> & L2). exists (w1 ++ w2). split; [apply app_assoc|]. now constructor.
  - exists []. split; auto. constructor.
  - exists []. split; auto. constructor.
  - destruct r as [s'|]; cbn in *; auto. destruct IHm1 as (w1 & -> & L1), IHm2 as (w2 & -> & L2), IHm3 as (w3 & -> & L3). exists (w1 ++ w2 ++ w3). split; [now rewrite <- !app_assoc|]. now constructor.
  - specialize (IHm nows (fun _ => eq_refl) HS). destruct r as [s'|]; cbn in *; auto. destruct IHm as (w' & E & Hw). destruct (lead_of ws s w' s' E) as (w & -> & Hl). exists w. split; auto. econstructor; eauto.
  - specialize (IHm (passes1 skp) (passes_onechars _ H0) H1). destruct r as [s'|]; cbn in *; auto. destruct IHm as (w' & E & Hw). destruct (lead_of ws s w' s' E) as (w & -> & Hl). exists w. split; auto. econstructor; eauto.
  - destruct r as [s'|]; cbn in *; auto. destruct IHm as (w & -> & Hw). exists w. split; auto. now constructor.
  - destruct r as [s'|]; cbn in *; auto. destruct IHm as (w & -> & Hw). exists w. split; auto. now constructor.
  - destruct r as [s'|]; cbn in *; auto. destruct IHm as (w & -> & Hw). exists w. split; auto. now constructor.
  - destruct r as [s'|]; cbn in *; auto. destruct IHm as (w & -> & Hw). exists w. split; auto. now constructor.
  - destruct r as [s'|]; cbn in *; auto. specialize (IHm (Hsane _ _ H)). cbn in IHm. destruct IHm as (w & -> & Hw). exists w. split; auto. econstructor; eauto.
Qed.
End Thms.

(** ** The next character decides *)
Section Ahead.
Context (env : nat -> option pat) (nul : nat -> bool) (fst_of : nat -> option Z -> Prop) (fol : bool -> nat -> option Z -> Prop) (rank : nat -> nat) (ws : Z -> bool).
Local Notation m w := (m env (chars w)).
Local Notation lang := (lang env).
Local Notation null := (null nul).
Local Notation fst_set := (fst_set nul fst_of).
Local Notation fst_all := (fst_all nul fst_of).
Local Notation ahead := (ahead nul fst_of).
Local Notation ll := (ll nul fst_of fol env ws).
Local Notation front := (front nul rank).
Context (Hall : all_ll nul fst_of fol rank env ws).
Definition skip (lex : bool) : Z -> bool := if lex then nows else ws.

Definition ll_all (lex : bool) (K : option Z -> Prop) : list pat -> Prop :=
  fix go (l : list pat) : Prop := match l with [] => True | q :: t => ll lex q (ahead t K) /\ go t end.
Definition ll_any (lex : bool) (K : option Z -> Prop) : list pat -> Prop :=
  fix go (l : list pat) : Prop :=
    match l with
    | [] => True
    | q :: t => ll lex q K /\ (t <> [] -> null q = false) /\
                (forall q', In q' t -> apart (fst_set q) (fun o => fst_set q' o \/ null q' = true /\ K o)) /\ go t
    end.
Definition front_all (k : nat) : list pat -> bool :=
  fix go (l : list pat) : bool := match l with [] => true | q :: t => front k q && (if null q || look q then go t else true) end.

Lemma ll_seq lex l K : ll lex (Seq l) K = ll_all lex K l. Proof. reflexivity. Qed.
Lemma ll_alt lex l K : ll lex (Alt l) K = ll_any lex K l. Proof. reflexivity. Qed.
Lemma fst_all_cons q l o : fst_all (q :: l) o =
  if look q then fst_set q o /\ (forallb null l = true \/ fst_all l o) else fst_set q o \/ null q = true /\ fst_all l o.
Proof. reflexivity. Qed.
Lemma look_dec q o K lex : look q = true -> ll lex q K -> fst_set q o \/ ~ fst_set q o.
Proof.
  destruct q; try discriminate. intros _ (cs & E & _). cbn. rewrite E. destruct (among_dec cs o); tauto.
Qed.
Lemma null_look q : look q = true -> null q = false.
Proof. now destruct q. Qed.

(** Without a character to start with: nothing is read, or there is no match. *)
Definition idle (lex : bool) (p : pat) (s : list Z) : Prop :=
  if null p then exists s', m (skip lex) (One p) s (Some s') /\ eqt (skip lex) s' s else m (skip lex) (One p) s None.

Lemma idle_m k : forall p, front k p = true -> forall lex K s, ll lex p K -> ~ fst_set p (next (skip lex) s) -> idle lex p s.
Proof.
  induction k as [k IHk] using lt_wf_ind. induction p using pat_ind'; intros HF lex K u HL HN; unfold idle; cbn [SpecLang.null].
  - (* Char *) apply m_char_no. intros y t E Hy. apply HN. exists y. unfold next. now rewrite E.
  - (* CharSymbol *) destruct HL.
  - (* Eoi *) apply m_eoi_no. intros E. apply HN. unfold next. cbn. now rewrite E.
  - (* Pass *) exists u. split; [constructor|reflexivity].
  - (* Fail *) constructor.
  - (* Lit *) destruct s as [|z l]; cbn [length Nat.eqb].
    + exists (trim (skip lex) u). split; [now constructor|apply eqt_trim].
    + apply m_lit_no. intros t E. apply HN. unfold next. cbn. rewrite E. cbn. split; [discriminate|reflexivity].
  - (* Symbol *) apply m_sym_no. intros k0 v t E Hi. destruct k0 as [|z k0]; [now apply (proj1 HL v)|]. apply HN. exists (z :: k0), v. split; auto. unfold next. rewrite E. cbn. split; [discriminate|reflexivity].
  - (* UInt *)
    assert (Ed : digits b (trim (skip lex) u) = 0).
    { destruct (trim (skip lex) u) as [|z t] eqn:E; [reflexivity|]. cbn. destruct (is_digit b z) eqn:Ez; auto. exfalso. apply HN. exists z. unfold next. now rewrite E. }
    assert (Et : taken b hi (trim (skip lex) u) = 0) by (unfold taken; rewrite Ed; destruct (0 <? hi)%Z; lia).
    pose proof (m_uint env (chars (skip lex)) b lo hi u) as HM. unfold number in HM. rewrite Et in HM. cbn [Z.of_nat skipn] in HM.
    destruct (lo <=? 0)%Z; [|exact HM]. eexists. split; [exact HM|apply eqt_trim].
  - (* Int *)
    assert (Eu : unsigned (trim (skip lex) u) = trim (skip lex) u /\ digits b (trim (skip lex) u) = 0).
    { destruct (trim (skip lex) u) as [|z t] eqn:E; [auto|]. cbn. assert (next (skip lex) u = Some z) as En by (unfold next; now rewrite E). rewrite En in HN. split.
      - destruct ((z =? 45) || (z =? 43))%Z eqn:Ez; auto. exfalso. apply HN. exists z. split; auto. apply orb_prop in Ez. rewrite !Z.eqb_eq in Ez. tauto.
      - destruct (is_digit b z) eqn:Ez; auto. exfalso. apply HN. exists z. auto. }
    destruct Eu as [Eu Ed]. assert (Et : taken b hi (trim (skip lex) u) = 0) by (unfold taken; rewrite Ed; destruct (0 <? hi)%Z; lia).
    pose proof (m_int env (chars (skip lex)) b lo hi u) as HM. rewrite Eu in HM. unfold number in HM. rewrite Et in HM. cbn [Z.of_nat] in HM. destruct HL as [Hlo _].
    destruct (lo <=? 0)%Z eqn:El; [apply Z.leb_le in El; lia|exact HM].
  - (* Seq *) rewrite ll_seq in HL. change (front_all k l = true) in HF. change (~ fst_all l (next (skip lex) u)) in HN.
    assert (G : if forallb null l then exists s', m (skip lex) (All l) u (Some s') /\ eqt (skip lex) s' u else m (skip lex) (All l) u None).
    { revert u HN HF HL. induction H as [|q l Hq Hl IHl]; intros u HN HF HL; [exists u; split; [constructor|reflexivity]|].
      rewrite fst_all_cons in HN. cbn [front_all] in HF. apply andb_prop in HF as [HF1 HF2]. destruct HL as [HL1 HL2]. cbn [forallb].
      destruct (look q) eqn:Elk.
      - rewrite (null_look q Elk). rewrite orb_true_r in HF2. destruct (look_dec q (next (skip lex) u) _ _ Elk HL1) as [Hf|Hf].
        + assert (HN' : ~ (forallb null l = true) /\ ~ fst_all l (next (skip lex) u)) by tauto. destruct HN' as [N1 N2].
          specialize (IHl u N2 HF2 HL2). destruct (forallb null l); [congruence|]. cbn. eapply m_all; [|exact IHl].
          destruct q; try discriminate. apply m_not_no. cbn in HL1. destruct HL1 as (cs & Ec & _). eapply onechar_m; eauto. cbn in Hf. rewrite Ec in Hf. exact Hf.
        + specialize (Hq HF1 lex _ u HL1 Hf). unfold idle in Hq. rewrite (null_look q Elk) in Hq. cbn. now apply m_all_no.
      - rewrite orb_false_r in HF2. assert (N1 : ~ fst_set q (next (skip lex) u)) by tauto. specialize (Hq HF1 lex _ u HL1 N1). unfold idle in Hq.
        destruct (null q); cbn [andb].
        + destruct Hq as (s1 & M1 & E1). specialize (IHl s1). rewrite (next_eqt _ _ _ E1) in IHl. assert (N2 : ~ fst_all l (next (skip lex) u)) by tauto.
          specialize (IHl N2 HF2 HL2). destruct (forallb null l).
          * destruct IHl as (s2 & M2 & E2). exists s2. split; [eapply m_all; eauto|eapply eqt_trans; eauto].
          * eapply m_all; eauto.
        + now apply m_all_no. }
    destruct (forallb null l); [destruct G as (s' & G & E); exists s'; split; auto; now constructor|now constructor].
  - (* Alt *) rewrite ll_alt in HL. cbn in HF, HN.
    assert (G : if existsb null l then exists s', m (skip lex) (Any l) u (Some s') /\ eqt (skip lex) s' u else m (skip lex) (Any l) u None).
    { revert HN HF HL. induction H as [|q l Hq Hl IHl]; intros HN HF HL; [constructor|].
      cbn [forallb] in HF. apply andb_prop in HF as [HF1 HF2]. destruct HL as (HL1 & HL2 & _ & HL3). cbn [existsb].
      assert (N1 : ~ fst_set q (next (skip lex) u)) by tauto. specialize (Hq HF1 lex _ u HL1 N1). unfold idle in Hq.
      destruct (null q); cbn [orb].
      - destruct Hq as (s1 & M1 & E1). exists s1. split; auto. now apply m_any.
      - assert (N2 : ~ (fix go (l : list pat) : Prop := match l with [] => False | q :: t => fst_set q (next (skip lex) u) \/ go t end) l) by tauto.
        specialize (IHl N2 HF2 HL3). destruct (existsb null l).
        + destruct IHl as (s2 & M2 & E2). exists s2. split; auto. now apply m_any_next.
        + now apply m_any_next. }
    destruct (existsb null l); [destruct G as (s' & G & E); exists s'; split; auto; now constructor|now constructor].
  - (* Repeat *) cbn in HF, HN. destruct HL as (HL1 & Hn & _). specialize (IHp HF lex _ u HL1 HN). unfold idle in IHp. rewrite Hn in IHp.
    pose proof (m_repeat env (chars (skip lex)) lo hi p u _ (m_times_stop env (chars (skip lex)) lo hi 0 p u IHp)) as M. destruct lo; cbn in *; auto. exists u. split; auto. reflexivity.
  - (* Not *) destruct HL as (cs & E & _). cbn in HN. rewrite E in HN. destruct (among_dec cs (next (skip lex) u)) as [Ha|Ha]; [|tauto].
    destruct (onechar_m env (skip lex) p cs u E) as [H1 _]. destruct (H1 Ha) as [t Ht]. eapply m_not; eauto.
  - (* Opt *) cbn in HF, HN. destruct HL as (HL1 & _). specialize (IHp HF lex _ u HL1 HN). unfold idle in IHp. destruct (null p).
    + destruct IHp as (s' & M & E). exists s'. split; auto. now apply m_opt.
    + exists u. split; [now apply m_opt_no|reflexivity].
  - (* Discard *) cbn in HF, HN, HL. specialize (IHp HF lex _ u HL HN). unfold idle in IHp. destruct (null p); [destruct IHp as (s' & M & E); exists s'; split; auto|]; now constructor.
  - (* Lexeme *) cbn in HF, HN, HL. specialize (IHp HF true _ (trim (skip lex) u) HL). unfold next at 1 in IHp. unfold next in HN. cbn [skip] in IHp. rewrite trim_nows in IHp. specialize (IHp HN).
    unfold idle in IHp. destruct (null p).
    + destruct IHp as (s' & M & E). apply eqt_nows in E. subst s'. exists (trim (skip lex) u). split; [now constructor|apply eqt_trim].
    + now constructor.
  - (* WithSkipper *) destruct HL.
  - (* BindDst *) cbn in HF, HN, HL. specialize (IHp HF lex _ u HL HN). unfold idle in IHp. destruct (null p); [destruct IHp as (s' & M & E); exists s'; split; auto|]; now constructor.
  - (* Construct *) cbn in HF, HN, HL. specialize (IHp HF lex _ u HL HN). unfold idle in IHp. destruct (null p); [destruct IHp as (s' & M & E); exists s'; split; auto|]; now constructor.
  - (* Act *) cbn in HF, HN, HL. specialize (IHp HF lex _ u HL HN). unfold idle in IHp. destruct (null p); [destruct IHp as (s' & M & E); exists s'; split; auto|]; now constructor.
  - (* Except *) cbn in HF, HN. destruct HL as (HL1 & Hn & _ & cs & E). rewrite E in HN. rewrite Hn. destruct (among_dec cs (next (skip lex) u)) as [Ha|Ha].
    + destruct (onechar_m env (skip lex) p2 cs u E) as [H1 _]. destruct (H1 Ha) as [t Ht]. eapply m_except; eauto.
    + apply m_except_no; [eapply onechar_m; eauto|]. assert (N1 : ~ fst_set p1 (next (skip lex) u)) by tauto.
      specialize (IHp1 HF lex _ u HL1 N1). unfold idle in IHp1. now rewrite Hn in IHp1.
  - (* PList *) cbn in HF, HN. destruct HL as (HL1 & _ & Hn & _). specialize (IHp1 HF lex _ u HL1 HN). unfold idle in IHp1. rewrite Hn in IHp1.
    exists u. split; [now apply m_list_none|reflexivity].
  - (* Recur *) cbn in HF, HN. destruct HL as (HD & _). destruct (env id) as [q|] eqn:E; [|congruence]. destruct (Hall id q E) as (Hn & Hf & Hfr & Hl).
    apply Nat.ltb_lt in HF. assert (N1 : ~ fst_set q (next (skip lex) u)) by (intros H; apply HN; auto).
    pose proof (IHk _ HF q Hfr lex _ u (Hl lex) N1) as G. unfold idle in G. rewrite Hn. destruct (null q); [destruct G as (s' & M & E'); exists s'; split; auto|]; eapply m_recur; eauto.
Qed.
(** Every pattern is in front of some place of the order. *)
Lemma front_ex p : exists k, forall k', k <= k' -> front k' p = true.
Proof.
  induction p using pat_ind'; cbn [SpecLang.front]; try (exists 0; intros; reflexivity); try assumption.
  - assert (G : exists k, forall k', k <= k' -> front_all k' l = true).
    { induction H as [|q l [k1 H1] _ [k2 H2]]; [exists 0; reflexivity|]. exists (Nat.max k1 k2). intros k' Hk. cbn [front_all]. rewrite H1 by lia. rewrite H2 by lia. now destruct (_ || _). }
    exact G.
  - induction H as [|q l [k1 H1] _ [k2 H2]]; [exists 0; reflexivity|]. exists (Nat.max k1 k2). intros k' Hk. cbn [forallb]. now rewrite H1, H2 by lia.
  - exists (S (rank id)). intros k' Hk. apply Nat.ltb_lt. lia.
Qed.

Lemma idle_any p lex K s : ll lex p K -> ~ fst_set p (next (skip lex) s) -> idle lex p s.
Proof. intros HL HN. destruct (front_ex p) as [k Hk]. apply (idle_m k p (Hk k (le_n k)) lex K s HL HN). Qed.
Lemma idle_no p lex K s : ll lex p K -> null p = false -> ~ fst_set p (next (skip lex) s) -> m (skip lex) (One p) s None.
Proof. intros HL Hn HN. pose proof (idle_any p lex K s HL HN) as H. unfold idle in H. now rewrite Hn in H. Qed.

(** ** What can be written is read *)
Definition starts (lex : bool) (F : option Z -> Prop) (n : bool) (w rest : list Z) : Prop :=
  F (next (skip lex) (w ++ rest)) \/ n = true /\ trim (skip lex) w = [].

Definition written (lex : bool) (f : form) (w : list Z) : Prop :=
  forall (K : option Z -> Prop) rest s, K (next (skip lex) rest) -> eqt (skip lex) s (w ++ rest) ->
  match f with
  | FOne p => ll lex p K -> starts lex (fst_set p) (null p) w rest /\ exists s', m (skip lex) (One p) s (Some s') /\ eqt (skip lex) s' rest
  | FAll l => ll_all lex K l -> starts lex (fst_all l) (forallb null l) w rest /\ exists s', m (skip lex) (All l) s (Some s') /\ eqt (skip lex) s' rest
  | FRow n p => ll lex p (fun o => fst_set p o \/ K o) -> null p = false ->
      starts lex (fst_set p) (n =? 0) w rest /\
      forall lo hi j, (hi = 0 \/ j < hi) -> lo <= j + n -> (hi <> 0 -> j + n <= hi) -> ((hi <> 0 /\ lo = hi) \/ apart (fst_set p) K) ->
      exists s', m (skip lex) (Times lo hi j p) s (Some s') /\ eqt (skip lex) s' rest
  | FMore p sep =>
      ll lex p (fun o => fst_set sep o \/ null sep = true /\ fst_set p o \/ K o) -> ll lex sep (fst_set p) -> null p = false ->
      apart (fst_set p) K -> apart (fst_set sep) K ->
      starts lex (fun o => fst_set sep o \/ null sep = true /\ fst_set p o) true w rest /\
      exists s', m (skip lex) (More p sep) s (Some s') /\ eqt (skip lex) s' rest
  end.

Lemma blank_next lex w rest : trim (skip lex) w = [] -> next (skip lex) (w ++ rest) = next (skip lex) rest.
Proof. intros E. rewrite next_app. unfold next at 1. now rewrite E. Qed.
Lemma blank_app lex a b : trim (skip lex) a = [] -> trim (skip lex) b = [] -> trim (skip lex) (a ++ b) = [].
Proof. intros E. destruct (trim_split (skip lex) a) as (x & Ea & Hx). rewrite E, app_nil_r in Ea. subst x. now rewrite trim_app_blank. Qed.
Lemma lead_blank lex w : lead (skip lex) w [] -> trim (skip lex) w = [].
Proof. intros (b & -> & Hb & _). now rewrite trim_app_blank. Qed.

Lemma next_some_l lex a b : next (skip lex) a <> None -> next (skip lex) (a ++ b) <> None.
Proof. rewrite next_app. destruct (next (skip lex) a); congruence. Qed.
Lemma next_some_r lex a b : next (skip lex) b <> None -> next (skip lex) (a ++ b) <> None.
Proof. rewrite next_app. destruct (next (skip lex) a); congruence. Qed.
Lemma lead_some s w z t : lead s w (z :: t) -> next s w <> None.
Proof. intros H. rewrite <- (app_nil_r w), (next_lead _ _ _ _ H). discriminate. Qed.

Lemma lang_takes s f w : lang s f w ->
  match f with
  | FOne p => takes p = true -> next s w <> None
  | FAll l => existsb takes l = true -> next s w <> None
  | FRow n p => 1 <= n -> takes p = true -> next s w <> None
  | FMore _ _ => True
  end.
Proof.
  induction 1; cbn [takes]; try discriminate; auto.
  - intros _. eapply lead_some; eauto.
  - destruct l; [discriminate|]. intros _. eapply lead_some; eauto.
  - intros El. apply Z.leb_le in El. destruct ds; [cbn in *; lia|]. eapply lead_some; eauto.
  - intros El. apply Z.leb_le in El. destruct H0 as [->|[->| ->]]; [|eapply lead_some; eauto|eapply lead_some; eauto]. destruct ds; [cbn in *; lia|]. eapply lead_some; eauto.
  - cbn [existsb]. intros E. apply orb_prop in E. rewrite next_app. destruct (next ws0 w1) eqn:En; [discriminate|]. destruct E as [E|E]; auto. now specialize (IHlang1 E).
  - intros E. rewrite forallb_forall in E. auto.
  - intros E. apply andb_prop in E as [E1 E2]. apply Nat.leb_le in E1. apply IHlang; auto. lia.
  - lia.
  - intros _ E. rewrite next_app. destruct (next ws0 w1) eqn:En; [discriminate|]. now specialize (IHlang1 E).
  - intros E. specialize (IHlang E). destruct H as (b & -> & Hb & Ht). unfold next in *. rewrite trim_app_blank, Ht by auto. now rewrite trim_nows in IHlang.
Qed.

Lemma lead_s lex w tok rest s : lead (skip lex) w tok -> eqt (skip lex) s (w ++ rest) ->
  exists rest', trim (skip lex) s = tok ++ rest' /\ eqt (skip lex) rest' rest /\
    rest' = match tok with [] => trim (skip lex) rest | _ => rest end.
Proof.
  intros HL E. unfold eqt in E. rewrite (lead_trim _ _ _ rest HL) in E. destruct tok as [|z t].
  - exists (trim (skip lex) rest). rewrite E. repeat split; auto. apply eqt_trim.
  - exists rest. rewrite E. repeat split; auto.
Qed.

(** The character in front of what follows. *)
Lemma rest_head lex (K : option Z -> Prop) rest (tok : list Z) rest' y t : K (next (skip lex) rest) ->
  rest' = match tok with [] => trim (skip lex) rest | _ => rest end -> rest' = y :: t -> not_next (skip lex) K y -> False.
Proof.
  intros HK HR -> [Hs Hn]. apply Hn. unfold next in HK. destruct tok.
  - rewrite <- HR in HK. exact HK.
  - rewrite <- HR in HK. rewrite (trim_false _ _ _ Hs) in HK. exact HK.
Qed.

Lemma digits_stop lex b lo hi (K : option Z -> Prop) rest (tok : list Z) rest' : K (next (skip lex) rest) ->
  rest' = match tok with [] => trim (skip lex) rest | _ => rest end ->
  ((0 < hi /\ lo = hi)%Z \/ forall y, is_digit b y = true -> not_next (skip lex) K y) ->
  (0 < hi /\ lo = hi)%Z \/ digits b rest' = 0.
Proof.
  intros HK HR [H|H]; auto. right. destruct rest' as [|y t]; [reflexivity|]. cbn. destruct (is_digit b y) eqn:E; auto. exfalso. eapply rest_head; eauto.
Qed.

Lemma ahead_next lex l (K : option Z -> Prop) w rest : starts lex (fst_all l) (forallb null l) w rest -> K (next (skip lex) rest) ->
  ahead l K (next (skip lex) (w ++ rest)).
Proof. intros [H|[H E]] HK; [now left|right]. split; auto. now rewrite blank_next. Qed.

Lemma lang_written w0 f w : lang w0 f w -> forall lex, w0 = skip lex -> written lex f w.
Proof.
  induction 1; intros lex ->; unfold written; intros K rest s HK HE.
  - (* Char *) intros HL. destruct (lead_s lex w [y] rest s H HE) as (r' & Et & Er & _). split.
    + left. rewrite (next_lead _ _ _ rest H). exists y. auto.
    + exists r'. split; auto. eapply m_char; eauto.
  - (* Eoi *) intros HL. assert (En : next (skip lex) (w ++ rest) = None) by (rewrite (next_lead _ _ _ rest H); auto). split; [left; exact En|].
    exists []. rewrite (next_lead _ _ _ rest H) in En. unfold next in En. destruct (trim (skip lex) rest) as [|z t] eqn:Er; [|discriminate]. split.
    + apply m_eoi. rewrite HE, (lead_trim _ _ _ rest H). exact Er.
    + unfold eqt. rewrite Er. reflexivity.
  - (* Pass *) intros HL. split; [right; auto|]. exists s. split; [constructor|exact HE].
  - (* Lit *) intros HL. destruct (lead_s lex w l rest s H HE) as (r' & Et & Er & _). split.
    + unfold starts. rewrite (next_lead _ _ _ rest H). destruct l; [right; split; auto; now apply lead_blank|left]. split; [discriminate|reflexivity].
    + exists r'. split; auto. now apply m_lit.
  - (* Symbol *) intros [HL1 HL2]. destruct (lead_s lex w k rest s H HE) as (r' & Et & Er & Hr). split.
    + left. rewrite (next_lead _ _ _ rest H). destruct k as [|z k]; [destruct (HL1 v); auto|]. exists (z :: k), v. split; auto. split; [discriminate|reflexivity].
    + exists r'. split; auto. eapply m_sym; eauto. intros k' v' t' Et' Hi. destruct (le_lt_dec (length k') (length k)) as [Hle|Hlt]; auto. exfalso.
      assert (exists c u, k' = k ++ c :: u) as (c & u & Ek).
      { rewrite Et in Et'. clear - Et' Hlt. revert k' Et' Hlt. induction k as [|z k IH]; intros [|z' k'] E Hlt; cbn in *; try lia.
        - eauto.
        - injection E as -> E. destruct (IH k' E ltac:(lia)) as (c & u & ->). eauto. }
      subst k'. rewrite Et, <- app_assoc in Et'. apply app_inv_head in Et'. cbn in Et'. eapply rest_head; eauto.
  - (* UInt *) intros HL. destruct (lead_s lex w ds rest s H HE) as (r' & Et & Er & Hr). split.
    + unfold starts. rewrite (next_lead _ _ _ rest H). destruct ds as [|z ds]; [right; split; [cbn in *; apply Z.leb_le; lia|now apply lead_blank]|left]. exists z. split; auto. now inversion H0.
    + exists r'. split; auto. rewrite <- (number_is_read b lo hi ds r'); auto; [|eapply digits_stop; eauto]. rewrite <- Et. apply m_uint.
  - (* Int *) intros [HL0 HL]. destruct (lead_s lex w (sg ++ ds) rest s H HE) as (r' & Et & Er & Hr). split.
    + left. rewrite (next_lead _ _ _ rest H). destruct H0 as [->|[->| ->]]; cbn [app]; [|exists 45%Z; auto|exists 43%Z; auto].
      destruct ds as [|z ds]; [cbn in *; lia|]. exists z. split; auto. left. now inversion H1.
    + exists r'. split; auto. rewrite <- (number_is_read b lo hi ds r'); auto; [|eapply digits_stop; eauto].
      assert (Eu : ds ++ r' = unsigned (trim (skip lex) s)).
      { rewrite Et. destruct H0 as [->|[->| ->]]; [|reflexivity|reflexivity]. cbn [app]. destruct ds as [|z ds]; [cbn in *; lia|]. cbn.
        destruct ((z =? 45) || (z =? 43))%Z eqn:Ez; auto. exfalso. inversion H1; subst. apply orb_prop in Ez as [Ez|Ez]; apply Z.eqb_eq in Ez; subst z; discriminate. }
      rewrite Eu. apply m_int.
  - (* Seq *) intros HL. rewrite ll_seq in HL. destruct (IHlang lex eq_refl K rest s HK HE HL) as [H1 (s' & H2 & H3)]. split; [exact H1|]. exists s'. split; auto. now constructor.
  - (* [] *) intros _. split; [right; auto|]. exists s. split; [constructor|exact HE].
  - (* p :: l *) intros [HL1 HL2]. destruct (IHlang2 lex eq_refl K rest (w2 ++ rest) HK eq_refl HL2) as [S2 _]. rewrite <- app_assoc in HE.
    pose proof (ahead_next lex l K w2 rest S2 HK) as HA.
    destruct (IHlang1 lex eq_refl (ahead l K) (w2 ++ rest) s HA HE HL1) as [S1 (s1 & M1 & E1)].
    destruct (IHlang2 lex eq_refl K rest s1 HK E1 HL2) as [_ (s2 & M2 & E2)]. split.
    + unfold starts in *. rewrite fst_all_cons, <- app_assoc. cbn [forallb]. destruct (look p) eqn:El.
      * rewrite (null_look p El) in *. left. destruct S1 as [S1|[S1 _]]; [|discriminate]. split; auto.
        assert (Ew : w1 = []) by (destruct p; try discriminate; inversion H; auto). subst w1. cbn [app] in *. destruct S2 as [S2|[S2 _]]; auto.
      * destruct S1 as [S1|[S1 En]]; [left; now left|]. rewrite (blank_next lex w1) by auto. destruct S2 as [S2|[S2 En2]]; [left; right; auto|right]. rewrite S1, S2. split; auto. now apply blank_app.
    + exists s2. split; auto. eapply m_all; eauto.
  - (* Alt *) intros HL. rewrite ll_alt in HL.
    assert (HLp : ll lex p K) by (clear - H HL; induction l as [|q l IH]; [destruct H|]; destruct HL as (L1 & _ & _ & L2); destruct H as [->|H]; auto).
    destruct (IHlang lex eq_refl K rest s HK HE HLp) as [S1 (s' & M1 & E1)].
    assert (En : next (skip lex) s = next (skip lex) (w ++ rest)) by now apply next_eqt.
    split.
    + clear - H S1. unfold starts in *. cbn [SpecLang.fst_set SpecLang.null]. destruct S1 as [S1|[S1 E]].
      * left. induction l as [|q l IH]; [destruct H|]. destruct H as [->|H]; [now left|right; exact (IH H)].
      * right. split; auto. apply existsb_exists. eauto.
    + exists s'. split; auto. apply m_alt. clear HLp IHlang H0. induction l as [|q l IH]; [destruct H|]. destruct HL as (L1 & L2 & L3 & L4). destruct H as [->|H]; [now apply m_any|].
      apply m_any_next; auto. apply (idle_no q lex K s L1).
      * apply L2. intros ->. destruct H.
      * intros Hq. apply (L3 p H _ Hq). rewrite En. destruct S1 as [S1|[S1 Er]]; auto. right. rewrite blank_next; auto.
  - (* Repeat *) intros (HL1 & Hn & Hb & Hs). destruct (IHlang lex eq_refl K rest s HK HE HL1 Hn) as [S1 G].
    destruct (G lo hi 0 ltac:(lia) H0 H1 Hs) as (s' & M1 & E1). split.
    + destruct S1 as [S1|[S1 E]]; [now left|right]. split; auto. cbn. apply Nat.eqb_eq in S1. apply Nat.eqb_eq. lia.
    + exists s'. split; auto. now constructor.
  - (* row 0 *) intros HL Hn. split; [right; auto|]. intros lo hi j Hj Hlo Hhi Hs.
    assert (M1 : m (skip lex) (One p) s None).
    { apply (idle_no p lex _ s HL Hn). rewrite (next_eqt _ _ _ HE). cbn [app]. intros Hf. destruct Hs as [Hs|Hs]; [lia|]. eapply Hs; eauto. }
    exists s. split; [|exact HE]. pose proof (m_times_stop env (chars (skip lex)) lo hi j p s M1) as M. destruct (lo <=? j) eqn:El; auto. apply Nat.leb_gt in El. lia.
  - (* row S *) intros HL Hn. destruct (IHlang2 lex eq_refl K rest (w2 ++ rest) HK eq_refl HL Hn) as [S2 _]. rewrite <- app_assoc in HE.
    assert (HA : fst_set p (next (skip lex) (w2 ++ rest)) \/ K (next (skip lex) (w2 ++ rest))) by (destruct S2 as [S2|[_ E]]; [now left|right; now rewrite blank_next]).
    destruct (IHlang1 lex eq_refl (fun o => fst_set p o \/ K o) (w2 ++ rest) s HA HE HL) as [S1 (s1 & M1 & E1)].
    split; [destruct S1 as [S1|[S1 _]]; [left; now rewrite <- app_assoc|congruence]|].
    intros lo hi j Hj Hlo Hhi Hs. destruct (Nat.eq_dec (S j) hi) as [Ej|Ej].
    + assert (n = 0) as -> by lia. inversion H0; subst. exists s1. split; auto. eapply m_times_full; eauto.
    + destruct (IHlang2 lex eq_refl K rest s1 HK E1 HL Hn) as [_ G]. destruct (G lo hi (S j) ltac:(lia) ltac:(lia) ltac:(lia) Hs) as (s2 & M2 & E2).
      exists s2. split; auto. eapply m_times; eauto.
  - (* Opt, nothing *) intros [HL Hap]. split; [right; auto|].
    assert (N1 : ~ fst_set p (next (skip lex) s)) by (rewrite (next_eqt _ _ _ HE); intros Hf; eapply Hap; eauto).
    pose proof (idle_any p lex K s HL N1) as G. unfold idle in G. destruct (null p).
    + destruct G as (s' & M & E). exists s'. split; [now apply m_opt|]. eapply eqt_trans; eauto.
    + exists s. split; [now apply m_opt_no|exact HE].
  - (* Opt *) intros [HL Hap]. destruct (IHlang lex eq_refl K rest s HK HE HL) as [S1 (s' & M1 & E1)]. split.
    + destruct S1 as [S1|[S1 E]]; [now left|right; auto].
    + exists s'. split; auto. now apply m_opt.
  - (* list, nothing *) intros (HL1 & HL2 & Hn & Hap & _). split; [right; auto|]. exists s. split; [|exact HE]. apply m_list_none. apply (idle_no p lex _ s HL1 Hn).
    rewrite (next_eqt _ _ _ HE). intros Hf. eapply Hap; eauto.
  - (* list *) intros (HL1 & HL2 & Hn & Hap & Hap'). destruct (IHlang2 lex eq_refl K rest (w2 ++ rest) HK eq_refl HL1 HL2 Hn Hap Hap') as [S2 _]. rewrite <- app_assoc in HE.
    assert (HA : (fun o => fst_set sep o \/ null sep = true /\ fst_set p o \/ K o) (next (skip lex) (w2 ++ rest))).
    { destruct S2 as [[S2|S2]|[_ E]]; [now left|right; now left|right; right; now rewrite blank_next]. }
    destruct (IHlang1 lex eq_refl _ (w2 ++ rest) s HA HE HL1) as [S1 (s1 & M1 & E1)].
    destruct (IHlang2 lex eq_refl K rest s1 HK E1 HL1 HL2 Hn Hap Hap') as [_ (s2 & M2 & E2)].
    split; [destruct S1 as [S1|[S1 _]]; [left; now rewrite <- app_assoc|congruence]|]. exists s2. split; auto. eapply m_list; eauto.
  - (* no more *) intros HL1 HL2 Hn Hap Hap'. split; [right; auto|]. cbn [app] in HE.
    assert (N1 : ~ fst_set sep (next (skip lex) s)) by (rewrite (next_eqt _ _ _ HE); intros Hf; eapply Hap'; eauto).
    assert (N2 : ~ fst_set p (next (skip lex) s)) by (rewrite (next_eqt _ _ _ HE); intros Hf; eapply Hap; eauto).
    exists s. split; [|exact HE]. pose proof (idle_any sep lex _ s HL2 N1) as G. unfold idle in G. destruct (null sep).
    + destruct G as (s1 & M1 & E1). eapply m_more_trailing; eauto. apply (idle_no p lex _ s1 HL1 Hn). now rewrite (next_eqt _ _ _ E1).
    + now apply m_more_end.
  - (* one more *) intros HL1 HL2 Hn Hap Hap'. destruct (IHlang3 lex eq_refl K rest (w3 ++ rest) HK eq_refl HL1 HL2 Hn Hap Hap') as [S3 _]. rewrite <- !app_assoc in HE.
    assert (HA : (fun o => fst_set sep o \/ null sep = true /\ fst_set p o \/ K o) (next (skip lex) (w3 ++ rest))).
    { destruct S3 as [[S3|S3]|[_ E]]; [now left|right; now left|right; right; now rewrite blank_next]. }
    destruct (IHlang2 lex eq_refl _ (w3 ++ rest) (w2 ++ w3 ++ rest) HA eq_refl HL1) as [S2 _].
    assert (F2 : fst_set p (next (skip lex) (w2 ++ w3 ++ rest))) by (destruct S2 as [S2|[S2 _]]; [exact S2|congruence]).
    destruct (IHlang1 lex eq_refl (fst_set p) (w2 ++ w3 ++ rest) s F2 HE HL2) as [S1 (s1 & M1 & E1)].
    destruct (IHlang2 lex eq_refl _ (w3 ++ rest) s1 HA E1 HL1) as [_ (s2 & M2 & E2)].
    destruct (IHlang3 lex eq_refl K rest s2 HK E2 HL1 HL2 Hn Hap Hap') as [_ (s3 & M3 & E3)]. split.
    + left. rewrite <- !app_assoc. destruct S1 as [S1|[S1 E]]; [now left|right]. split; auto. now rewrite blank_next.
    + exists s3. split; auto. eapply m_more; eauto.
  - (* Not *) intros (cs & E & Hap). cbn [app] in HE.
    assert (N1 : ~ among cs (next (skip lex) rest)) by (intros Hf; eapply Hap; eauto). split.
    + left. cbn. now rewrite E.
    + exists s. split; [|exact HE]. apply m_not_no. eapply onechar_m; eauto. now rewrite (next_eqt _ _ _ HE).
  - (* Except *) intros (HL & Hn & Ht & cs & E). destruct (IHlang lex eq_refl K rest s HK HE HL) as [S1 (s' & M1 & E1)].
    destruct S1 as [S1|[S1 _]]; [|congruence].
    assert (N1 : ~ among cs (next (skip lex) (w ++ rest))).
    { rewrite next_app. pose proof (lang_takes _ _ _ H Ht) as Hw. destruct (next (skip lex) w) as [y|] eqn:Ey; [now apply H0|congruence]. }
    split; [left; cbn; rewrite E; auto|]. exists s'. split; auto. apply m_except_no; auto. eapply onechar_m; eauto. now rewrite (next_eqt _ _ _ HE).
  - (* WithSkipper *) intros HL. destruct HL.
  - (* Lexeme *) intros HL. cbn in HL. destruct (lead_s lex w w' rest s H HE) as (r' & Et & Er & Hr). specialize (IHlang true eq_refl).
    assert (HA : (fun o => K o \/ lex = false /\ exists y, o = Some y /\ ws y = true) (next nows r')).
    { unfold next. rewrite trim_nows. unfold next in HK. destruct w'; subst r'; [now left|]. destruct rest as [|y t]; [now left|]. rewrite trim_chars in HK. cbn [hd_error].
      destruct (skip lex y) eqn:Ey; [right|now left]. destruct lex; [discriminate|]. split; auto. exists y. auto. }
    destruct (IHlang _ r' (w' ++ r') HA eq_refl HL) as [S1 (s' & M1 & E1)]. apply eqt_nows in E1. subst s'. split.
    + unfold starts in *. cbn [SpecLang.fst_set SpecLang.null]. rewrite (next_lead _ _ _ rest H). unfold next in S1. cbn [skip] in S1. rewrite !trim_nows in S1. destruct w' as [|z w'].
      * destruct S1 as [S1|[S1 _]]; [left|right; split; auto; now apply lead_blank]. subst r'. exact S1.
      * destruct S1 as [S1|[_ E]]; [left; exact S1|discriminate].
    + exists r'. split; auto. apply m_lexeme. rewrite Et. exact M1.
  - intros HL. cbn in HL. destruct (IHlang lex eq_refl K rest s HK HE HL) as [S1 (s' & M1 & E1)]. split; [exact S1|]. exists s'. split; auto. now constructor.
  - intros HL. cbn in HL. destruct (IHlang lex eq_refl K rest s HK HE HL) as [S1 (s' & M1 & E1)]. split; [exact S1|]. exists s'. split; auto. now constructor.
  - intros HL. cbn in HL. destruct (IHlang lex eq_refl K rest s HK HE HL) as [S1 (s' & M1 & E1)]. split; [exact S1|]. exists s'. split; auto. now constructor.
  - intros HL. cbn in HL. destruct (IHlang lex eq_refl K rest s HK HE HL) as [S1 (s' & M1 & E1)]. split; [exact S1|]. exists s'. split; auto. now constructor.
  - (* Recur *) intros (_ & HF). destruct (Hall id q H) as (Hn & Hf & _ & Hl). destruct (IHlang lex eq_refl (fol lex id) rest s (HF _ HK) HE (Hl lex)) as [S1 (s' & M1 & E1)]. split.
    + destruct S1 as [S1|[S1 E]]; [left; now apply Hf|right]. split; auto. cbn. congruence.
    + exists s'. split; auto. eapply m_recur; eauto.
Qed.
End Ahead.
