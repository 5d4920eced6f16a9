(** JSON with comments into objects: texts of a value are written for its object, and nothing
    else is read (C59). *)
From Coq Require Import String List ZArith Bool Arith Lia.
From Verif Require Import Base CharSet Source Dst Pattern Parser Session Demo SpecSession SpecPeg SpecRun SpecTerm SpecLeaf SpecValue SpecType SpecAttr SpecLang SpecSpell SpecWrite SpecSpellValue.
From Verif Require Import Leaf LeafThms PegSound Run Comb LangDemo SpecJson SpellThms SpellRun SpellValueRun JsonDemo JsonComments.
Import ListNotations.

Definition cquoted : pat := Lexeme (Seq jquoted).
Definition cfield_p : pat := Seq [cquoted; Lit (txt ":"); Recur 0 false].
Definition cclass (n : nat) (q : pat) : pat := Construct [TUser n] (Seq [q; Pass]).
Definition calts : list pat :=
  [Construct [] (Lit (txt "null"));
   cclass 1 (Construct [] (Lit (txt "true")));
   cclass 2 (Construct [] (Lit (txt "false")));
   Construct [int32] (Seq [int_; Pass]);
   cclass 3 (Construct [TColl char8] cquoted);
   cclass 4 (Construct [TColl (TUser 0)] (Seq [Lit (txt "["); PList (Recur 0 false) (Lit (txt ",")); Lit (txt "]")]));
   cclass 5 (Construct [TColl (TTuple [TColl char8; TUser 0])] (Seq [Lit (txt "{"); PList cfield_p (Lit (txt ",")); Lit (txt "}")]))].
Definition cenv : nat -> option pat := fun id => match id with 0 => Some (Alt calts) | _ => None end.
Definition cbody : pat := Seq [Recur 0 false; Eoi].
Definition cdoc : pat := WithSkipper cbody PropertiesGrammar.comments.

Definition cstarts (z : Z) : bool := existsb (Z.eqb z) [32; 9; 13; 10; 47]%Z.
Lemma cstarts_all z : begins PropertiesGrammar.comments z = true -> cstarts z = true.
Proof.
  unfold cstarts. cbn [begins PropertiesGrammar.comments existsb]. cbn. intros H.
  repeat match goal with H : _ || _ = true |- _ => apply orb_prop in H as [H|H] end; try discriminate; rewrite ?Z.eqb_eq in *; subst; reflexivity.
Qed.
Ltac blankless ::= cbv [none blank cstarts existsb]; repeat match goal with |- context [Z.eqb ?a ?b] => destruct (Z.eqb_spec a b); [lia|] end; reflexivity.

Lemma cll : all_ll (fun _ => false) (fun _ => json_first) (fun _ _ => json_follow) (fun _ => 1) cenv cstarts.
Proof.
  intros [|id] q E; [|discriminate]. injection E as <-. unfold json_first, json_follow. split; [reflexivity|split; [|split; [reflexivity|]]].
  - let x := eval vm_compute in (Alt calts) in change (Alt calts) with x. ll_part.
  - intros lex. destruct lex; ll_auto (Alt calts).
Qed.
Lemma ctidy : all_tidy (fun _ => false) (fun _ t _ => juser t) (fun _ t => juser t) cenv.
Proof.
  intros [|id] q [= <-]. split.
  - intros t waste E. destruct t; try discriminate. destruct id; [|discriminate]. destruct waste; reflexivity.
  - intros t E. destruct t; try discriminate. destruct id; [|discriminate]. reflexivity.
Qed.
Lemma cahead : one_ahead_for cenv cstarts cbody (TUser 0) (fun o => o = None).
Proof.
  do 6 eexists. split; [exact cll|]. split; [|split; [exact ctidy|reflexivity]].
  unfold json_first, json_follow. let x := eval vm_compute in cbody in change cbody with x; cbn; repeat split; try discriminate; try ll_part.
  intros o [[]|[_ H]]. exact H.
Qed.
Lemma cknown : known ct_char cenv.
Proof. split; [discriminate|]. split; intros [|id] q H; [injection H as <-; reflexivity|discriminate|injection H as <-; reflexivity|discriminate]. Qed.
Lemma csimple : all_simple cenv.
Proof. intros [|id] q [= <-]. reflexivity. Qed.
Lemma cclass_ok : inclass ct_char true cbody = true /\ simple cbody = true /\ skipper ct_char PropertiesGrammar.comments = true.
Proof. repeat split; reflexivity. Qed.

Notation V := (sv cenv cgap).
Notation V0 := (sv cenv SpecPeg.nows).
(** A text, however long the gap in front of it and with any gap behind it. *)
Definition R (f : vform) (t : ty) (v : val) (u : list Z) (v' : val) : Prop :=
  forall s r, eqt cgap s (u ++ r) -> exists s', V f t v s s' v' [] /\ eqt cgap s' r.

Lemma r_all_quiet i q l t v x w1 w2 v' : ignores q = true -> R (WOne false q) TNil VNil w1 x -> R (WAll i l) t v w2 v' ->
  R (WAll i (q :: l)) t v (w1 ++ w2) v'.
Proof.
  intros E H1 H2 s r Es. rewrite <- app_assoc in Es. destruct (H1 _ _ Es) as (s1 & V1 & E1). destruct (H2 _ _ E1) as (s2 & V2 & E2). exists s2. split; auto.
  eapply (sv_all _ _ i q l t v TNil VNil x v s s1 [] s2 v' []); [now apply pat_quiet|exact V1|]. unfold after. now rewrite E.
Qed.
Lemma r_all_slot i q l ts vs tq vq x w1 w2 v' : ignores q = false -> nth_error ts i = Some tq -> tq <> TNil -> nth_error vs i = Some vq ->
  R (WOne false q) tq vq w1 x -> R (WAll (S i) l) (TTuple ts) (VTuple (upd vs i x)) w2 v' ->
  R (WAll i (q :: l)) (TTuple ts) (VTuple vs) (w1 ++ w2) v'.
Proof.
  intros E N Ht Nv H1 H2 s r Es. rewrite <- app_assoc in Es. destruct (H1 _ _ Es) as (s1 & V1 & E1). destruct (H2 _ _ E1) as (s2 & V2 & E2). exists s2. split; auto.
  eapply (sv_all _ _ i q l _ _ tq vq x _ s s1 [] s2 v' []); [now apply pat_slot|exact V1|]. unfold after. now rewrite E.
Qed.
Lemma r_all_whole i q l t v x w1 w2 v' : ignores q = false -> (forall ts, t <> TTuple ts) -> R (WOne false q) t v w1 x ->
  R (WAll (S i) l) t x w2 v' -> R (WAll i (q :: l)) t v (w1 ++ w2) v'.
Proof.
  intros E Ht H1 H2 s r Es. rewrite <- app_assoc in Es. destruct (H1 _ _ Es) as (s1 & V1 & E1). destruct (H2 _ _ E1) as (s2 & V2 & E2). exists s2. split; auto.
  eapply (sv_all _ _ i q l _ _ t v x _ s s1 [] s2 v' []); [now apply pat_whole|exact V1|]. unfold after. now rewrite E.
Qed.
Lemma r_all_end i t v : R (WAll i []) t v [] v.
Proof. intros s r Es. exists s. split; [constructor|exact Es]. Qed.
Lemma r_seq l t v u v' : R (WAll 0 l) t v u v' -> R (WOne false (Seq l)) t v u v'.
Proof. intros H s r Es. destruct (H _ _ Es) as (s' & HV & E). exists s'. split; auto. now constructor. Qed.
Lemma r_pass i t v : R (WAll i [Pass]) t v [] v.
Proof. change (@nil Z) with (@nil Z ++ []). eapply (r_all_quiet _ _ _ _ _ VNil); [reflexivity| |apply r_all_end]. intros s r Es. exists s. split; [constructor|exact Es]. Qed.

(** What does not begin like a gap. *)
Lemma fresh z s : cstarts z = false -> trim cgap (z :: s) = z :: s.
Proof.
  intros H. rewrite trim_eq. destruct (cgap (z :: s)) eqn:E; [reflexivity|].
  rewrite (begins_starters _ _ cstarts_all z s) in H; [discriminate|]. congruence.
Qed.
Lemma gap_behind b r : commented b -> eqt cgap (b ++ r) r.
Proof. intros H. now apply trim_gap. Qed.

Definition sound (x : string) : bool := match txt x with z :: _ => negb (cstarts z) | [] => false end.
Lemma r_word x u t v : sound x = true -> gword commented x u -> R (WOne false (Lit (txt x))) t v u v.
Proof.
  intros Hx (b & Hb & ->) s r Es. exists (b ++ r). split; [|now apply gap_behind]. constructor. unfold eqt in Es. rewrite Es, <- app_assoc.
  unfold sound in Hx. destruct (txt x) as [|z l]; [discriminate|]. cbn [app]. apply fresh. now apply negb_true_iff.
Qed.
Lemma r_lit x t v : sound x = true -> R (WOne false (Lit (txt x))) t v (txt x) v.
Proof. intros Hx. apply r_word; auto. exists []. split; [constructor|now rewrite app_nil_r]. Qed.
Lemma r_num sg ds b v : sg = [] \/ sg = txt "-" \/ sg = txt "+" -> digits10_of ds -> (- 2 ^ 31 < signed sg ds < 2 ^ 31)%Z -> commented b ->
  R (WOne false int_) int32 v (sg ++ ds ++ b) (VNum (signed sg ds)).
Proof.
  intros Hs [Dg Hn] Hz Hb s r Es. exists (b ++ r). split; [|now apply gap_behind].
  unfold signed in *. assert (Hp : (0 <= value 10 ds)%Z) by (apply value_nonneg; lia).
  assert (Es0 : negative (sg ++ ds) = negative sg).
  { destruct Hs as [->|[->| ->]]; try reflexivity. destruct ds as [|d ds]; [reflexivity|]. apply Forall_inv in Dg. apply digit10 in Dg. cbn.
    apply Z.eqb_neq. lia. }
  eapply (sv_int _ _ 10 1 0 int32 v sg ds); [|exact Hs|exact Dg| |lia|].
  - unfold eqt in Es. rewrite Es, <- !app_assoc. destruct Hs as [->|[->| ->]]; [|apply fresh; reflexivity|apply fresh; reflexivity].
    destruct ds as [|d ds]; [congruence|]. cbn [app]. apply fresh. apply Forall_inv, digit10 in Dg. unfold cstarts, existsb.
    repeat match goal with |- context [Z.eqb ?a ?b] => destruct (Z.eqb_spec a b); [lia|] end. reflexivity.
  - destruct ds; [congruence|]. cbn [List.length]. lia.
  - rewrite Es0. set (z := (if negative sg then _ else _)%Z) in *.
    replace (VNum z) with (VNum (wrap true 32 z)); [apply cnt_num; intros _; unfold ty_max; subst z; destruct (negative sg); lia|].
    f_equal. apply wrap_id; [lia|]. unfold in_range, ty_min, ty_max. apply andb_true_intro. split; apply Z.leb_le; lia.
Qed.

(** Strings: nothing is skipped inside. *)
Lemma v0_lc o x t v z s : txt x = [z] -> V0 (WOne o (lc x)) t v (z :: s) s v [].
Proof.
  intros E. eapply sv_discard. eapply sv_char; [apply trim_nows| |apply sto_nil]. cbn. unfold chr. now rewrite E.
Qed.
Lemma v0_row s c : jchars s c -> Forall (tok ct_char) c -> forall acc r,
  exists n, V0 (WRow n (Alt [Except any (Char (CSet ct_char [34; 92]%Z)); Seq [lc "\"; any]])) (TColl char8) (ints acc) (c ++ r) r (ints (acc ++ s)) [].
Proof.
  assert (A : forall z, in_set (CAny ct_char) z) by (intros; exact I).
  assert (St : forall acc z, tok ct_char z -> stored (TColl char8) (ints acc) (VNum z) (ints (acc ++ [z]))).
  { intros acc z H. unfold ints. rewrite map_app. apply sto_coll. now apply conv_char. }
  induction 1 as [|z s c N1 N2 _ IH|z s c _ IH]; intros Ht acc r.
  - exists 0. rewrite app_nil_r. constructor.
  - apply Forall_cons_iff in Ht as [Hz Hc]. destruct (IH Hc (acc ++ [z]) r) as (n & HR). exists (S n).
    rewrite <- app_assoc in HR. eapply (sv_row _ _ _ _ _ _ _ (c ++ r) _ [] _ _ []); [|exact HR].
    eapply sv_alt; [left; reflexivity|]. apply sv_except; [eapply sv_char; [apply trim_nows|apply A|now apply St]|].
    intros cs [= <-] (y & Ey & Hy). unfold upcoming in Ey. rewrite trim_nows in Ey. injection Ey as <-. cbn in Hy, N1, N2. destruct Hy as [<-|[<-|[]]]; [now apply N1|now apply N2].
  - apply Forall_cons_iff in Ht as [_ Ht]. apply Forall_cons_iff in Ht as [Hz Hc]. destruct (IH Hc (acc ++ [z]) r) as (n & HR). exists (Datatypes.S n).
    rewrite <- app_assoc in HR. eapply (sv_row _ _ _ _ _ _ _ (c ++ r) _ [] _ _ []); [|exact HR].
    eapply sv_alt; [right; left; reflexivity|]. eapply sv_one; [reflexivity| |apply St; exact Hz]. apply sv_seq.
    eapply (sv_all _ _ 0 _ _ _ _ TNil VNil VNil _ _ _ [] _ _ []); [now apply pat_quiet|now apply (v0_lc false "\")|].
    eapply (sv_all _ _ 0 _ _ _ _ _ _ (VNum z) _ _ (c ++ r) [] _ _ []); [apply pat_whole; [reflexivity|discriminate]| |constructor].
    eapply sv_char; [apply trim_nows|apply A|]. apply sto_value; [discriminate|discriminate|now apply conv_char].
Qed.
Lemma v0_quoted s c r : jchars s c -> Forall (tok ct_char) c ->
  V0 (WOne false (Seq jquoted)) (TColl char8) (VColl []) (txt """" ++ c ++ txt """" ++ r) r (ints s) [] /\
  V0 (WOne false (Seq jquoted)) (TTuple [TColl char8]) (VTuple [VColl []]) (txt """" ++ c ++ txt """" ++ r) r (VTuple [ints s]) [].
Proof.
  intros Hc Ht. destruct (v0_row s c Hc Ht [] (txt """" ++ r)) as (n & HR). split; apply sv_seq.
  - eapply (sv_all _ _ 0 _ _ _ _ TNil VNil VNil _ _ _ [] _ _ []); [now apply pat_quiet|now apply (v0_lc false """")|].
    eapply (sv_all _ _ 0 _ _ _ _ _ _ _ _ _ _ [] _ _ []); [apply pat_whole; [reflexivity|discriminate]|eapply sv_repeat; [exact HR|lia|lia]|].
    eapply (sv_all _ _ 1 _ _ _ _ TNil VNil VNil _ _ _ [] _ _ []); [now apply pat_quiet|now apply (v0_lc false """")|constructor].
  - eapply (sv_all _ _ 0 _ _ _ _ TNil VNil VNil _ _ _ [] _ _ []); [now apply pat_quiet|now apply (v0_lc false """")|].
    eapply (sv_all _ _ 0 _ _ _ _ _ _ _ _ _ _ [] _ _ []); [apply pat_slot; [reflexivity|reflexivity|discriminate|reflexivity]|eapply sv_repeat; [exact HR|lia|lia]|].
    eapply (sv_all _ _ 1 _ _ _ _ TNil VNil VNil _ _ _ [] _ _ []); [now apply pat_quiet|now apply (v0_lc false """")|constructor].
Qed.
Lemma r_string s u : gstring commented s u -> Forall (tok ct_char) u ->
  R (WOne false cquoted) (TColl char8) (VColl []) u (ints s) /\
  R (WOne false cquoted) (TTuple [TColl char8]) (VTuple [VColl []]) u (VTuple [ints s]).
Proof.
  intros (c & b & Hc & Hb & ->) Ht. toks.
  split; intros s0 r Es; exists (b ++ r); (split; [|now apply gap_behind]); apply sv_lexeme; unfold eqt in Es;
    rewrite Es, <- !app_assoc, (fresh 34 (c ++ txt """" ++ b ++ r) eq_refl : trim _ (txt """" ++ _) = _); now apply (v0_quoted s c (b ++ r)).
Qed.

Lemma r_value k q v u y : nth_error calts k = Some q -> R (WOne false q) (TUser 0) v u y -> R (WOne false (Recur 0 false)) (TUser 0) v u y.
Proof.
  intros E H s r Es. destruct (H _ _ Es) as (s' & HV & E'). exists s'. split; auto. eapply sv_recur; [reflexivity|]. eapply sv_alt; [eapply nth_error_In; exact E|exact HV].
Qed.
Lemma r_construct m args q v u xs : R (WOne false q) (TTuple args) (value_init (TTuple args)) u (VTuple xs) ->
  R (WOne false (Construct args q)) (TUser m) v u (VUser m xs).
Proof.
  intros H s r Es. destruct (H _ _ Es) as (s' & HV & E'). exists s'. split; auto.
  eapply sv_construct; [exact HV|apply mad_user|]. apply sto_value; [discriminate|discriminate|]. cbn. now rewrite Nat.eqb_refl.
Qed.
Lemma r_class n args q u v xs : R (WOne false q) (TTuple args) (value_init (TTuple args)) u (VTuple xs) ->
  R (WOne false (cclass n (Construct args q))) (TUser 0) v u (VUser 0 [VUser n xs]).
Proof.
  intros H. apply r_construct, r_seq. rewrite <- (app_nil_r u).
  eapply (r_all_slot 0 _ _ [TUser n] [VUser n []] (TUser n) _ (VUser n xs)); [reflexivity|reflexivity|discriminate|reflexivity| |apply r_pass].
  now apply r_construct.
Qed.
Lemma r_item l p t u x : atom p = false -> conv t x = Done x -> R (WOne false p) (value_ty (TColl t)) (default_init (value_ty (TColl t))) u x ->
  R (WOne true p) (TColl t) (VColl l) u (VColl (l ++ [x])).
Proof.
  intros A C H s r Es. destruct (H _ _ Es) as (s' & HV & E'). exists s'. split; auto. eapply sv_one; [exact A|apply HV|now apply sto_coll].
Qed.
Lemma r_list_no p sep t v : R (WOne false (PList p sep)) t v [] v.
Proof. intros s r Es. exists s. split; [constructor|exact Es]. Qed.
Lemma r_list p sep t v u v1 w v' : R (WOne true p) t v u v1 -> R (WMore p sep) t v1 w v' -> R (WOne false (PList p sep)) t v (u ++ w) v'.
Proof.
  intros H1 H2 s r Es. rewrite <- app_assoc in Es. destruct (H1 _ _ Es) as (s1 & V1 & E1). destruct (H2 _ _ E1) as (s2 & V2 & E2). exists s2. split; auto.
  eapply (sv_list _ _ _ _ _ _ _ s1 v1 [] s2 v' []); eauto.
Qed.
Lemma r_more_end p sep t v : R (WMore p sep) t v [] v.
Proof. intros s r Es. exists s. split; [constructor|exact Es]. Qed.
Lemma r_more p sep t v a x u v1 w v' : R (WOne false sep) TNil VNil a x -> R (WOne true p) t v u v1 -> R (WMore p sep) t v1 w v' ->
  R (WMore p sep) t v (a ++ u ++ w) v'.
Proof.
  intros H0 H1 H2 s r Es. rewrite <- !app_assoc in Es. destruct (H0 _ _ Es) as (s0 & V0' & E0).
  destruct (H1 _ _ E0) as (s1 & V1 & E1). destruct (H2 _ _ E1) as (s2 & V2 & E2). exists s2. split; auto.
  eapply (sv_more _ _ _ _ _ _ _ s0 x [] s1 v1 [] s2 v' []); eauto.
Qed.

Lemma cwrite :
  (forall j u, gtext commented j u -> jfits j -> Forall (tok ct_char) u -> forall v, R (WOne false (Recur 0 false)) (TUser 0) v u (jval j)) /\
  (forall l u, gtail commented l u -> fold_right and True (map jfits l) -> Forall (tok ct_char) u -> forall acc,
     R (WMore (Recur 0 false) (Lit (txt ","))) (TColl (TUser 0)) (VColl acc) u (VColl (acc ++ map jval l))) /\
  (forall f u, gfield commented f u -> jfits (snd f) -> Forall (tok ct_char) u ->
     R (WOne false cfield_p) (TTuple [TColl char8; TUser 0]) (default_init (TTuple [TColl char8; TUser 0])) u (fval f) /\
     conv (TTuple [TColl char8; TUser 0]) (fval f) = Done (fval f)) /\
  (forall l u, gftail commented l u -> fold_right and True (map (fun f => jfits (snd f)) l) -> Forall (tok ct_char) u -> forall acc,
     R (WMore cfield_p (Lit (txt ","))) (TColl (TTuple [TColl char8; TUser 0])) (VColl acc) u (VColl (acc ++ map fval l))).
Proof.
  apply jtext_mutual; cbn [jfits map fold_right snd]; intros.
  - apply (r_value 0 _ _ _ _ eq_refl). now apply r_construct, (r_word "null").
  - apply (r_value 1 _ _ _ _ eq_refl). now apply r_class, (r_word "true").
  - apply (r_value 2 _ _ _ _ eq_refl). now apply r_class, (r_word "false").
  - apply (r_value 3 _ _ _ _ eq_refl). apply r_construct, r_seq. rewrite <- (app_nil_r (sg ++ ds ++ b)).
    eapply (r_all_slot 0 _ _ [int32] [VNum 0] int32 _ (VNum (signed sg ds))); [reflexivity|reflexivity|discriminate|reflexivity|now apply r_num|apply r_pass].
  - apply (r_value 4 _ _ _ _ eq_refl). apply r_class. now apply r_string.
  - rewrite <- (app_nil_r c). apply (r_value 5 _ _ _ _ eq_refl). apply r_class, r_seq.
    eapply (r_all_quiet _ _ _ _ _ VNil a); [reflexivity|now apply (r_word "[")|]. change (c ++ []) with ([] ++ c ++ []).
    eapply (r_all_slot 0 _ _ [TColl (TUser 0)] [VColl []] _ _ (VColl [])); [reflexivity|reflexivity|discriminate|reflexivity|apply r_list_no|].
    eapply (r_all_quiet _ _ _ _ _ VNil c); [reflexivity|now apply (r_word "]")|apply r_all_end].
  - toks. destruct (jval_user j) as (xs & Ej). rewrite <- (app_nil_r c), (app_assoc u). apply (r_value 5 _ _ _ _ eq_refl). apply r_class, r_seq.
    eapply (r_all_quiet _ _ _ _ _ VNil a); [reflexivity|now apply (r_word "[")|].
    eapply (r_all_slot 0 _ _ [TColl (TUser 0)] [VColl []] _ _ (VColl (jval j :: map jval l)) (u ++ w)); [reflexivity|reflexivity|discriminate|reflexivity| |].
    + eapply r_list; [|apply (H3 ltac:(tauto) ltac:(assumption) [jval j])].
      apply (r_item [] _ _ u (jval j)); [reflexivity|now rewrite Ej|now apply H1].
    + eapply (r_all_quiet _ _ _ _ _ VNil c); [reflexivity|now apply (r_word "]")|apply r_all_end].
  - rewrite <- (app_nil_r c). apply (r_value 6 _ _ _ _ eq_refl). apply r_class, r_seq.
    eapply (r_all_quiet _ _ _ _ _ VNil a); [reflexivity|now apply (r_word "{")|]. change (c ++ []) with ([] ++ c ++ []).
    eapply (r_all_slot 0 _ _ [TColl (TTuple [TColl char8; TUser 0])] [VColl []] _ _ (VColl [])); [reflexivity|reflexivity|discriminate|reflexivity|apply r_list_no|].
    eapply (r_all_quiet _ _ _ _ _ VNil c); [reflexivity|now apply (r_word "}")|apply r_all_end].
  - toks. rewrite <- (app_nil_r c), (app_assoc u). apply (r_value 6 _ _ _ _ eq_refl). apply r_class, r_seq.
    destruct (H1 ltac:(tauto) ltac:(assumption)) as [HW HC].
    eapply (r_all_quiet _ _ _ _ _ VNil a); [reflexivity|now apply (r_word "{")|].
    eapply (r_all_slot 0 _ _ [TColl (TTuple [TColl char8; TUser 0])] [VColl []] _ _ (VColl (fval f :: map fval l)) (u ++ w)); [reflexivity|reflexivity|discriminate|reflexivity| |].
    + eapply r_list; [|apply (H3 ltac:(tauto) ltac:(assumption) [fval f])].
      apply (r_item [] _ _ u (fval f)); [reflexivity|exact HC|exact HW].
    + eapply (r_all_quiet _ _ _ _ _ VNil c); [reflexivity|now apply (r_word "}")|apply r_all_end].
  - rewrite app_nil_r. apply r_more_end.
  - toks. destruct (jval_user j) as (xs & Ej).
    eapply (r_more _ _ _ _ _ VNil); [now apply (r_word ",")| |].
    + apply (r_item acc _ _ u (jval j)); [reflexivity|now rewrite Ej|now apply H1].
    + specialize (H3 ltac:(tauto) ltac:(assumption) (acc ++ [jval j])). now rewrite <- app_assoc in H3.
  - pose proof H as (c & b & Hc & Hb & Eu). toks. destruct (jval_user j) as (xs & Ej). split.
    + rewrite <- (app_nil_r w). apply r_seq.
      eapply (r_all_slot 0 _ _ [TColl char8; TUser 0] [VColl []; VUser 0 []] _ _ (ints s) u); [reflexivity|reflexivity|discriminate|reflexivity|now apply r_string|].
      eapply (r_all_quiet _ _ _ _ _ VNil a); [reflexivity|now apply (r_word ":")|].
      eapply (r_all_slot 1 _ _ [TColl char8; TUser 0] [ints s; VUser 0 []] _ _ (jval j) w []); [reflexivity|reflexivity|discriminate|reflexivity|now apply H2|apply r_all_end].
    + subst u. toks. pose proof (ints_char s (jchars_tok s c Hc ltac:(assumption))) as Hs.
      unfold fval. cbn [fst snd]. rewrite Ej.
      change ((if has_ty (TColl char8) (ints s) && (true && true) then Done (VTuple [ints s; VUser 0 xs]) else Err EType) = Done (VTuple [ints s; VUser 0 xs])).
      now rewrite Hs.
  - rewrite app_nil_r. apply r_more_end.
  - toks. destruct (H1 ltac:(tauto) ltac:(assumption)) as [HW HC].
    eapply (r_more _ _ _ _ _ VNil); [now apply (r_word ",")| |].
    + apply (r_item acc _ _ u (fval f)); [reflexivity|exact HC|exact HW].
    + specialize (H3 ltac:(tauto) ltac:(assumption) (acc ++ [fval f])). now rewrite <- app_assoc in H3.
Qed.

Lemma cdoc_write j u b v s : gtext commented j u -> jfits j -> commented b -> s = b ++ u -> Forall (tok ct_char) s ->
  V (WOne false cbody) (TUser 0) v s [] (jval j) [].
Proof.
  intros H Hj Hb -> Ht. toks. destruct ((proj1 cwrite) j u H Hj ltac:(assumption) v (b ++ u) []) as (s' & HV & Es).
  { rewrite app_nil_r. now apply gap_behind. }
  apply sv_seq. eapply (sv_all _ _ 0 _ _ _ _ _ _ _ _ _ s' [] _ _ []); [apply pat_whole; [reflexivity|discriminate]|exact HV|].
  eapply (sv_all _ _ 1 _ _ _ _ TNil VNil VNil _ _ [] [] _ _ []); [now apply pat_quiet|apply sv_eoi; exact Es|constructor].
Qed.

Theorem commented_read j u b v l : gtext commented j u -> jfits j -> commented b -> complete l -> fed l = b ++ u -> Forall (tok ct_char) (fed l) ->
  shaped (TUser 0) v = true -> delivers cenv cdoc (TUser 0) v l SUCCESS (jval j) [].
Proof.
  intros H Hj Hb Hl El Ht Hv. destruct cclass_ok as (C1 & C2 & C3).
  apply (spelt_delivers ct_char cenv cknown csimple _ C3 cstarts cbody (TUser 0) v (fun o => o = None) l [] (jval j) []); auto.
  - exact cstarts_all.
  - exact cahead.
  - eapply cdoc_write; eauto.
Qed.
Theorem commented_unique j1 b1 u1 j2 b2 u2 : b1 ++ u1 = b2 ++ u2 -> commented b1 -> commented b2 -> gtext commented j1 u1 -> gtext commented j2 u2 ->
  jfits j1 -> jfits j2 -> Forall (tok ct_char) (b1 ++ u1) -> j1 = j2.
Proof.
  intros E B1 B2 H1 H2 F1 F2 Ht. apply jval_inj. destruct cclass_ok as (C1 & C2 & C3).
  destruct (spelt_one ct_char cenv cknown csimple _ C3 cstarts cbody (TUser 0) (VUser 0 []) (fun o => o = None) (b1 ++ u1) [] (jval j1) [] [] (jval j2) []) as (_ & Ev & _); auto.
  - exact cstarts_all.
  - exact cahead.
  - exact (cdoc_write j1 u1 b1 _ _ H1 F1 B1 eq_refl Ht).
  - exact (cdoc_write j2 u2 b2 _ _ H2 F2 B2 E Ht).
Qed.

(** ** What is read is JSON with comments *)
Notation P := (spells cenv cgap).
Notation P0 := (spells cenv SpecPeg.nows).
Ltac unp := repeat match goal with
  | H : P (FOne (Seq _)) _ _ |- _ => inversion H; subst; clear H
  | H : P (FAll []) _ _ |- _ => inversion H; subst; clear H
  | H : P (FAll (_ :: _)) _ _ |- _ => inversion H; subst; clear H
  | H : P (FOne (Construct _ _)) _ _ |- _ => inversion H; subst; clear H
  | H : P (FOne (Lit _)) _ _ |- _ => inversion H; subst; clear H
  | H : P (FOne Pass) _ _ |- _ => inversion H; subst; clear H
  | H : P0 (FOne (Seq _)) _ _ |- _ => inversion H; subst; clear H
  | H : P0 (FAll []) _ _ |- _ => inversion H; subst; clear H
  | H : P0 (FAll (_ :: _)) _ _ |- _ => inversion H; subst; clear H
  | H : context [trim SpecPeg.nows _] |- _ => rewrite trim_nows in H
  end.
Lemma p0_lc x z s t : txt x = [z] -> P0 (FOne (lc x)) s t -> s = z :: t.
Proof.
  intros E H. inversion H; subst; clear H. match goal with H : P0 _ _ _ |- _ => inversion H; subst; clear H end. unp.
  match goal with H : in_set _ _ |- _ => cbn in H end. unfold chr in *. rewrite E in *. now subst.
Qed.
Lemma p0_chars n s t : P0 (FRow n (Alt [Except any (Char (CSet ct_char [34; 92]%Z)); Seq [lc "\"; any]])) s t -> exists x c, jchars x c /\ s = c ++ t.
Proof.
  revert s. induction n as [|n IH]; intros s H; inversion H; subst; clear H; [exists [], []; split; [constructor|reflexivity]|].
  match goal with H : P0 (FRow _ _) _ _ |- _ => destruct (IH _ H) as (x & c & Hs & ->) end.
  match goal with H : P0 (FOne (Alt _)) _ _ |- _ => inversion H; subst; clear H end.
  match goal with H : In _ _ |- _ => destruct H as [<-|[<-|[]]] end.
  - match goal with H : P0 (FOne (Except _ _)) _ _ |- _ => inversion H; subst; clear H end.
    match goal with H : P0 (FOne any) _ _ |- _ => inversion H; subst; clear H end. unp. subst. exists (y :: x), (y :: c). split; [|reflexivity].
    match goal with H : forall cs, _ |- _ => specialize (H _ eq_refl); rename H into N end. unfold upcoming in N. rewrite trim_nows in N.
    constructor; auto; intros ->; apply N; eexists; (split; [reflexivity|cbn; auto]).
  - unp. match goal with H : P0 (FOne (lc _)) _ _ |- _ => apply (p0_lc "\" 92%Z) in H; [subst|reflexivity] end.
    match goal with H : P0 (FOne any) _ _ |- _ => inversion H; subst; clear H end. unp. subst. exists (y :: x), (92%Z :: y :: c). split; [|reflexivity]. now constructor.
Qed.
(** Behind what is read there is a gap. *)
Lemma p_string s t : P (FOne cquoted) s t -> exists x u, gstring commented x u /\ trim cgap s = u ++ trim cgap t.
Proof.
  intros H. inversion H; subst; clear H. unfold jquoted in *. unp.
  repeat match goal with H : P0 (FOne (lc _)) _ _ |- _ => apply (p0_lc """" 34%Z) in H; [subst|reflexivity] end.
  match goal with H : P0 (FOne (star _)) _ _ |- _ => inversion H; subst; clear H end.
  match goal with H : P0 (FRow _ _) _ _ |- _ => destruct (p0_chars _ _ _ H) as (x & c & Hs & ->) end.
  match goal with H : trim cgap s = _ |- _ => rewrite H end. destruct (trim_gap_inv t) as (b & Et & Hb).
  exists x, (txt """" ++ c ++ txt """" ++ b). split; [exists c, b; auto|]. rewrite Et at 1. now rewrite <- !app_assoc.
Qed.
Lemma p_word x s t : trim cgap s = txt x ++ t -> exists u, gword commented x u /\ trim cgap s = u ++ trim cgap t.
Proof.
  intros E. destruct (trim_gap_inv t) as (b & Et & Hb). exists (txt x ++ b). split; [now exists b|]. rewrite E, <- app_assoc. now rewrite <- Et.
Qed.
Lemma word_long x u : sound x = true -> gword commented x u -> 1 <= List.length u.
Proof. unfold sound. intros Hx (b & _ & ->). destruct (txt x); [discriminate|]. cbn. lia. Qed.
Lemma text_long j u : gtext commented j u -> 1 <= List.length u.
Proof.
  intros H. destruct H; rewrite ?app_length;
    try match goal with H : gword commented ?x _ |- _ => pose proof (word_long x _ eq_refl H); lia end.
  - match goal with H : digits10_of _ |- _ => destruct H as [_ H]; destruct ds; [congruence|cbn [List.length]; lia] end.
  - destruct H as (c & b & _ & _ & ->). cbn. lia.
Qed.

Lemma commented_inv n : forall s t, List.length (trim cgap s) < n -> P (FOne (Recur 0 false)) s t ->
  exists j u, gtext commented j u /\ trim cgap s = u ++ trim cgap t.
Proof.
  induction n as [|n IH]; intros s t Hn H; [lia|].
  assert (More : forall s, List.length (trim cgap s) < n -> forall t, P (FMore (Recur 0 false) (Lit (txt ","))) s t ->
    exists l w, gtail commented l w /\ trim cgap s = w ++ trim cgap t).
  { clear s t Hn H. intros s. remember (List.length (trim cgap s)) as m eqn:Em. assert (Hm : List.length (trim cgap s) <= m) by lia. clear Em. revert s Hm.
    induction m as [m IHm] using lt_wf_ind. intros s Hm Hn t H. inversion H; subst; clear H; [exists [], []; split; [constructor|reflexivity]|].
    unp. match goal with H : trim cgap s = txt "," ++ _ |- _ => apply (p_word ",") in H as (a & Ha & Ea) end. pose proof (word_long "," a eq_refl Ha) as La.
    rewrite Ea, app_length in Hm. match goal with H : P (FOne (Recur 0 false)) ?x ?y |- _ => destruct (IH x y) as (j & u & Hj & Eu); [lia|exact H|] end.
    pose proof (text_long _ _ Hj). rewrite Eu, app_length in Hm.
    match goal with H : P (FMore _ _) ?x t |- _ => destruct (IHm (List.length (trim cgap x)) ltac:(lia) x ltac:(lia) ltac:(lia) t H) as (l & w & Hl & Ew) end.
    exists (j :: l), (a ++ u ++ w). split; [now constructor|]. now rewrite Ea, Eu, Ew, <- !app_assoc. }
  assert (Field : forall s t, List.length (trim cgap s) < n -> P (FOne cfield_p) s t -> exists f u, gfield commented f u /\ 1 <= List.length u /\ trim cgap s = u ++ trim cgap t).
  { clear s t Hn H More. intros s t Hs H. unfold cfield_p in H. unp.
    match goal with H : P (FOne cquoted) _ _ |- _ => apply p_string in H as (x & u & Hu & Eu) end.
    match goal with H : trim cgap _ = txt ":" ++ _ |- _ => apply (p_word ":") in H as (a & Ha & Ea) end. pose proof (word_long ":" a eq_refl Ha) as La.
    rewrite Eu, Ea, !app_length in Hs.
    match goal with H : P (FOne (Recur 0 false)) ?x ?y |- _ => destruct (IH x y) as (j & w & Hj & Ew); [lia|exact H|] end.
    exists (x, j), (u ++ a ++ w). split; [now constructor|]. split; [rewrite !app_length; lia|]. now rewrite Eu, Ea, Ew, <- !app_assoc. }
  assert (FMore' : forall s, List.length (trim cgap s) < n -> forall t, P (FMore cfield_p (Lit (txt ","))) s t ->
    exists l w, gftail commented l w /\ trim cgap s = w ++ trim cgap t).
  { clear s t Hn H More. intros s. remember (List.length (trim cgap s)) as m eqn:Em. assert (Hm : List.length (trim cgap s) <= m) by lia. clear Em. revert s Hm.
    induction m as [m IHm] using lt_wf_ind. intros s Hm Hn t H. inversion H; subst; clear H; [exists [], []; split; [constructor|reflexivity]|].
    match goal with H : P (FOne (Lit _)) _ _ |- _ => inversion H; subst; clear H end.
    match goal with H : trim cgap s = txt "," ++ _ |- _ => apply (p_word ",") in H as (a & Ha & Ea) end. pose proof (word_long "," a eq_refl Ha) as La.
    rewrite Ea, app_length in Hm. match goal with H : P (FOne cfield_p) ?x ?y |- _ => destruct (Field x y) as (j & u & Hj & Lj & Eu); [lia|exact H|] end.
    rewrite Eu, app_length in Hm.
    match goal with H : P (FMore _ _) ?x t |- _ => destruct (IHm (List.length (trim cgap x)) ltac:(lia) x ltac:(lia) ltac:(lia) t H) as (l & w & Hl & Ew) end.
    exists (j :: l), (a ++ u ++ w). split; [now constructor|]. now rewrite Ea, Eu, Ew, <- !app_assoc. }
  inversion H; subst; clear H. match goal with H : cenv 0 = Some _ |- _ => injection H as <- end.
  match goal with H : P (FOne (Alt _)) _ _ |- _ => inversion H; subst; clear H end.
  match goal with H : In _ calts |- _ => repeat destruct H as [<-|H]; [..|destruct H] end; unfold cclass in *.
  - unp. match goal with H : trim cgap s = _ |- _ => apply p_word in H as (u & Hu & Eu) end. exists JNull, u. split; [now constructor|exact Eu].
  - unp. match goal with H : trim cgap s = _ |- _ => apply p_word in H as (u & Hu & Eu) end. exists (JBool true), u. split; [now constructor|exact Eu].
  - unp. match goal with H : trim cgap s = _ |- _ => apply p_word in H as (u & Hu & Eu) end. exists (JBool false), u. split; [now constructor|exact Eu].
  - unp. match goal with H : P (FOne int_) _ _ |- _ => inversion H; subst; clear H end. destruct (trim_gap_inv t) as (b & Et & Hb).
    exists (JNum (signed sg ds)), (sg ++ ds ++ b). split; [apply jt_num; auto; split; auto; intros ->; cbn in *; lia|].
    match goal with H : trim cgap s = _ |- _ => rewrite H end. rewrite <- !app_assoc. now rewrite <- Et.
  - unp. match goal with H : P (FOne cquoted) _ _ |- _ => apply p_string in H as (x & u & Hu & Eu) end. exists (JStr x), u. split; [now constructor|exact Eu].
  - unp. match goal with H : trim cgap s = txt "[" ++ _ |- _ => apply (p_word "[") in H as (a & Ha & Ea) end. pose proof (word_long "[" a eq_refl Ha) as La.
    match goal with H : trim cgap _ = txt "]" ++ t |- _ => apply (p_word "]") in H as (c & Hc & Ec) end. rewrite Ea, app_length in Hn.
    match goal with H : P (FOne (PList _ _)) _ _ |- _ => inversion H; subst; clear H end.
    + exists (JArr []), (a ++ c). split; [now constructor|]. now rewrite Ea, Ec, <- app_assoc.
    + match goal with H : P (FOne (Recur 0 false)) ?x ?y |- _ => destruct (IH x y) as (j & u & Hj & Eu); [lia|exact H|] end. pose proof (text_long _ _ Hj).
      rewrite Eu, app_length in Hn. match goal with H : P (FMore _ _) ?x ?y |- _ => destruct (More x ltac:(lia) y H) as (l & w & Hl & Ew) end.
      exists (JArr (j :: l)), (a ++ u ++ w ++ c). split; [now constructor|]. now rewrite Ea, Eu, Ew, Ec, <- !app_assoc.
  - match goal with H : P (FOne (Construct _ _)) _ _ |- _ => inversion H; subst; clear H end.
    match goal with H : P (FOne (Seq _)) _ _ |- _ => inversion H; subst; clear H end. do 2 match goal with H : P (FAll (_ :: _)) _ _ |- _ => inversion H; subst; clear H end.
    match goal with H : P (FAll []) _ _ |- _ => inversion H; subst; clear H end. match goal with H : P (FOne Pass) _ _ |- _ => inversion H; subst; clear H end.
    match goal with H : P (FOne (Construct _ _)) _ _ |- _ => inversion H; subst; clear H end.
    match goal with H : P (FOne (Seq _)) _ _ |- _ => inversion H; subst; clear H end. do 3 match goal with H : P (FAll (_ :: _)) _ _ |- _ => inversion H; subst; clear H end.
    match goal with H : P (FAll []) _ _ |- _ => inversion H; subst; clear H end. do 2 match goal with H : P (FOne (Lit _)) _ _ |- _ => inversion H; subst; clear H end.
    match goal with H : trim cgap s = txt "{" ++ _ |- _ => apply (p_word "{") in H as (a & Ha & Ea) end. pose proof (word_long "{" a eq_refl Ha) as La.
    match goal with H : trim cgap _ = txt "}" ++ t |- _ => apply (p_word "}") in H as (c & Hc & Ec) end. rewrite Ea, app_length in Hn.
    match goal with H : P (FOne (PList _ _)) _ _ |- _ => inversion H; subst; clear H end.
    + exists (JObj []), (a ++ c). split; [now constructor|]. now rewrite Ea, Ec, <- app_assoc.
    + match goal with H : P (FOne cfield_p) ?x ?y |- _ => destruct (Field x y) as (j & u & Hj & Lj & Eu); [lia|exact H|] end.
      rewrite Eu, app_length in Hn. match goal with H : P (FMore _ _) ?x ?y |- _ => destruct (FMore' x ltac:(lia) y H) as (l & w & Hl & Ew) end.
      exists (JObj (j :: l)), (a ++ u ++ w ++ c). split; [now constructor|]. now rewrite Ea, Eu, Ew, Ec, <- !app_assoc.
Qed.

Lemma cguarded : all_guarded (fun _ => true) (fun _ => 0) cenv.
Proof. intros [|id] q [= <-]. split; reflexivity. Qed.
Lemma cahead1 : one_ahead cenv cstarts (Recur 0 false) (fun o => o = None).
Proof. do 4 eexists. split; [exact cll|]. unfold json_first, json_follow. ll_auto (Recur 0 false). Qed.
Theorem commented_refused l : complete l -> Forall (tok ct_char) (fed l) ->
  (forall j b u, fed l = b ++ u -> commented b -> ~ gtext commented j u) -> session_obeys cenv cdoc l FAILURE.
Proof.
  intros Hl Ht N. destruct cclass_ok as (C1 & C2 & C3).
  apply (whole_spelt_pieces ct_char cenv cknown PropertiesGrammar.comments C3 cstarts (Recur 0 false) l (fun _ => true) (fun _ => 0)
    Hl cstarts_all eq_refl eq_refl cahead1 cguarded eq_refl Ht).
  intros (s & H1 & H2). destruct (commented_inv _ _ _ (Nat.lt_succ_diag_r _) H1) as (j & u & Hj & Eu). rewrite H2, app_nil_r in Eu.
  destruct (trim_gap_inv (fed l)) as (b & Eb & Hb). rewrite Eu in Eb. exact (N j b u Eb Hb Hj).
Qed.
