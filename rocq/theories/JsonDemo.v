(** JSON into objects, the grammar for C59: texts of a value are written for its object. *)
From Coq Require Import String List ZArith Bool Arith Lia.
From Verif Require Import Base CharSet Source Dst Pattern Parser Session Demo SpecSession SpecPeg SpecRun SpecLeaf SpecValue SpecType SpecAttr SpecLang SpecWrite.
From Verif Require Import Leaf LeafThms PegSound Run Comb LangDemo SpecJson WriteRun.
Import ListNotations.

(** >> and | make one sequence and one choice of their operands (Pattern.v). *)
Definition jquoted : list pat :=
  [lc """"; star (Alt [Except any (Char (CSet ct_char [34; 92]%Z)); Seq [lc "\"; any]]); lc """"].
Definition jfield_p : pat := Seq (jquoted ++ [sp; Lit (txt ":"); sp; Recur 0 false]).
Definition jclass (n : nat) (q : pat) : pat := Construct [TUser n] (Seq [q; sp]).
Definition jalts : list pat :=
  [Construct [] (word "null");
   jclass 1 (Construct [] (Lit (txt "true")));
   jclass 2 (Construct [] (Lit (txt "false")));
   Construct [int32] (Seq [int_; sp]);
   jclass 3 (Construct [TColl char8] (Seq jquoted));
   jclass 4 (Construct [TColl (TUser 0)] (Seq [Lit (txt "["); sp; PList (Recur 0 false) (word ","); Lit (txt "]")]));
   jclass 5 (Construct [TColl (TTuple [TColl char8; TUser 0])] (Seq [Lit (txt "{"); sp; PList jfield_p (word ","); Lit (txt "}")]))].
Definition jenv : nat -> option pat := fun id => match id with 0 => Some (Alt jalts) | _ => None end.
Definition jdoc : pat := Seq [sp; Recur 0 false; Eoi].

Lemma jll : all_ll (fun _ => false) (fun _ => json_first) (fun _ _ => json_follow) (fun _ => 1) jenv none.
Proof.
  intros [|id] q E; [|discriminate]. injection E as <-. unfold json_first, json_follow. split; [reflexivity|split; [|split; [reflexivity|]]].
  - let x := eval vm_compute in (Alt jalts) in change (Alt jalts) with x. ll_part.
  - intros lex. destruct lex; ll_auto (Alt jalts).
Qed.
Definition juser (t : ty) : bool := match t with TUser 0 => true | _ => false end.
Lemma jtidy : all_tidy (fun _ => false) (fun _ t _ => juser t) (fun _ t => juser t) jenv.
Proof.
  intros [|id] q [= <-]. split.
  - intros t waste E. destruct t; try discriminate. destruct id; [|discriminate]. destruct waste; reflexivity.
  - intros t E. destruct t; try discriminate. destruct id; [|discriminate]. reflexivity.
Qed.
Lemma jahead : one_ahead_for jenv none jdoc (TUser 0) (fun o => o = None).
Proof.
  do 6 eexists. split; [exact jll|]. split; [|split; [exact jtidy|reflexivity]].
  unfold json_first, json_follow. let x := eval vm_compute in jdoc in change jdoc with x; cbn; repeat split; try discriminate; try ll_part.
  intros o [[]|[_ H]]. exact H.
Qed.
Lemma jknown : known ct_char jenv.
Proof. split; [discriminate|]. split; intros [|id] q H; [injection H as <-; reflexivity|discriminate|injection H as <-; reflexivity|discriminate]. Qed.
Lemma jsimple : all_simple jenv.
Proof. intros [|id] q [= <-]. reflexivity. Qed.

Notation W := (wv jenv none).

Lemma all_quiet i q l t v x w1 w2 v' k : ignores q = true -> W (WOne false q) TNil VNil w1 x [] -> W (WAll i l) t v w2 v' k ->
  W (WAll i (q :: l)) t v (w1 ++ w2) v' k.
Proof. intros E H1 H2. eapply (w_all _ _ i q l t v TNil VNil x v w1 [] w2 v' k); [now apply pat_quiet|exact H1|]. unfold after. now rewrite E. Qed.
Lemma all_slot i q l ts vs tq vq x w1 w2 v' k : ignores q = false -> nth_error ts i = Some tq -> tq <> TNil -> nth_error vs i = Some vq ->
  W (WOne false q) tq vq w1 x [] -> W (WAll (S i) l) (TTuple ts) (VTuple (upd vs i x)) w2 v' k ->
  W (WAll i (q :: l)) (TTuple ts) (VTuple vs) (w1 ++ w2) v' k.
Proof.
  intros E N Ht Nv H1 H2. eapply (w_all _ _ i q l _ _ tq vq x _ w1 [] w2 v' k); [now apply pat_slot|exact H1|]. unfold after. now rewrite E.
Qed.
Lemma all_whole i q l t v x w1 w2 v' k : ignores q = false -> (forall ts, t <> TTuple ts) -> W (WOne false q) t v w1 x [] ->
  W (WAll (S i) l) t x w2 v' k -> W (WAll i (q :: l)) t v (w1 ++ w2) v' k.
Proof. intros E Ht H1 H2. eapply (w_all _ _ i q l _ _ t v x _ w1 [] w2 v' k); [now apply pat_whole|exact H1|]. unfold after. now rewrite E. Qed.

Lemma lit_w o l t v : W (WOne o (Lit l)) t v l v [].
Proof. apply w_lit, lead_none. Qed.
Lemma lc_w o s t v z : txt s = [z] -> W (WOne o (lc s)) t v [z] v [].
Proof.
  intros E. eapply w_discard. eapply w_char; [apply lead_none| |apply sto_nil]. cbn. unfold chr. now rewrite E.
Qed.
Lemma sp_w o b t v : blanks b -> W (WOne o sp) t v b v [].
Proof.
  intros H. assert (R : W (WRow (List.length b) ws) TNil VNil b VNil []).
  { induction H as [|z b Hz _ IH]; [constructor|]. apply (w_row _ _ _ _ _ _ [z] VNil [] b VNil []); [|exact IH].
    eapply w_char; [apply lead_none| |apply sto_nil]. unfold white in Hz. apply existsb_exists in Hz as (y & Hy & E). apply Z.eqb_eq in E. now subst. }
  eapply w_discard. destruct o; [|eapply w_repeat; [exact R|lia|lia]].
  eapply w_one; [reflexivity|eapply w_repeat; [exact R|lia|lia]|apply sto_nil].
Qed.
Lemma end_w i t v b : blanks b -> W (WAll i [sp]) t v b v [].
Proof. intros H. rewrite <- (app_nil_r b). eapply all_quiet; [reflexivity|now apply sp_w|constructor]. Qed.
Lemma jword_w s u t v : jword s u -> W (WOne false (word s)) t v u v [].
Proof. intros (b & H & ->). apply w_seq. eapply all_quiet; [reflexivity|apply lit_w|now apply end_w]. Qed.
Lemma jword_all s u l i t v w v' k : jword s u -> W (WAll i l) t v w v' k -> W (WAll i (Lit (txt s) :: sp :: l)) t v (u ++ w) v' k.
Proof.
  intros (b & H & ->) HW. rewrite <- app_assoc. eapply all_quiet; [reflexivity|apply lit_w|]. eapply all_quiet; [reflexivity|now apply sp_w|exact HW].
Qed.
Lemma lit_end s i t v : W (WAll i [Lit (txt s)]) t v (txt s) v [].
Proof. rewrite <- (app_nil_r (txt s)) at 2. eapply all_quiet; [reflexivity|apply lit_w|constructor]. Qed.

Lemma conv_char z : tok ct_char z -> conv char8 (VNum z) = Done (VNum z).
Proof. intros H. unfold conv, char8. rewrite wrap_id; [reflexivity|lia|exact H]. Qed.
Lemma jchars_row s c : jchars s c -> Forall (tok ct_char) c -> forall acc,
  exists n, W (WRow n (Alt [Except any (Char (CSet ct_char [34; 92]%Z)); Seq [lc "\"; any]])) (TColl char8) (ints acc) c (ints (acc ++ s)) [].
Proof.
  assert (A : forall z, in_set (CAny ct_char) z) by (intros; exact I).
  assert (St : forall acc z, tok ct_char z -> stored (TColl char8) (ints acc) (VNum z) (ints (acc ++ [z]))).
  { intros acc z H. unfold ints. rewrite map_app. apply sto_coll. now apply conv_char. }
  induction 1 as [|z s c N1 N2 _ IH|z s c _ IH]; intros Ht acc.
  - exists 0. rewrite app_nil_r. constructor.
  - apply Forall_cons_iff in Ht as [Hz Hc]. destruct (IH Hc (acc ++ [z])) as (n & HR). exists (S n).
    rewrite <- app_assoc in HR. eapply (w_row _ _ _ _ _ _ [z] _ [] c _ []); [|exact HR].
    eapply w_alt; [left; reflexivity|]. apply w_except; [eapply w_char; [apply lead_none|apply A|now apply St]|].
    intros cs [= <-] (y & [= <-] & Hy). cbn in Hy, N1, N2. destruct Hy as [<-|[<-|[]]]; [now apply N1|now apply N2].
  - apply Forall_cons_iff in Ht as [_ Ht]. apply Forall_cons_iff in Ht as [Hz Hc]. destruct (IH Hc (acc ++ [z])) as (n & HR). exists (Datatypes.S n).
    rewrite <- app_assoc in HR. eapply (w_row _ _ _ _ _ _ [chr "\"; z] _ [] c _ []); [|exact HR].
    eapply w_alt; [right; left; reflexivity|]. eapply w_one; [reflexivity| |apply St; exact Hz]. apply w_seq.
    apply (all_quiet 0 (lc "\") _ _ _ VNil [chr "\"] [z]); [reflexivity|now apply (lc_w false "\")|].
    apply (all_whole 0 any _ _ _ (VNum z) [z] []); [reflexivity|discriminate| |constructor].
    eapply w_char; [apply lead_none|apply A|]. apply sto_value; [discriminate|discriminate|now apply conv_char].
Qed.
Lemma jquoted_all s c l i ts vs w v' k : jchars s c -> Forall (tok ct_char) c -> nth_error ts i = Some (TColl char8) -> nth_error vs i = Some (VColl []) ->
  W (WAll (S i) l) (TTuple ts) (VTuple (upd vs i (ints s))) w v' k ->
  W (WAll i (jquoted ++ l)) (TTuple ts) (VTuple vs) (txt """" ++ c ++ txt """" ++ w) v' k.
Proof.
  intros Hc Ht N Nv HW. destruct (jchars_row s c Hc Ht []) as (n & HR). unfold jquoted. cbn [app].
  eapply (all_quiet i _ _ _ _ _ (txt """")); [reflexivity|now apply (lc_w false """")|].
  eapply all_slot; [reflexivity|exact N|discriminate|exact Nv|eapply w_repeat; [exact HR|lia|lia]|].
  eapply (all_quiet (S i) _ _ _ _ _ (txt """")); [reflexivity|now apply (lc_w false """")|exact HW].
Qed.

Lemma num_w sg ds v : sg = [] \/ sg = txt "-" \/ sg = txt "+" -> digits10_of ds -> (- 2 ^ 31 < signed sg ds < 2 ^ 31)%Z ->
  W (WOne false int_) int32 v (sg ++ ds) (VNum (signed sg ds)) [].
Proof.
  intros Hs [Dg Hn] Hz. unfold signed in *. assert (Hp : (0 <= value 10 ds)%Z) by (apply value_nonneg; lia).
  assert (Es : negative (sg ++ ds) = negative sg).
  { destruct Hs as [->|[->| ->]]; try reflexivity. destruct ds as [|d ds]; [reflexivity|]. apply Forall_inv in Dg. apply digit10 in Dg. cbn.
    apply Z.eqb_neq. lia. }
  eapply (w_int _ _ 10 1 0 int32 v sg ds); [apply lead_none|exact Hs|exact Dg| |lia|].
  - destruct ds; [congruence|]. cbn [List.length]. lia.
  - rewrite Es. set (z := (if negative sg then _ else _)%Z) in *.
    replace (VNum z) with (VNum (wrap true 32 z)); [apply cnt_num; intros _; unfold ty_max; subst z; destruct (negative sg); lia|].
    f_equal. apply wrap_id; [lia|]. unfold in_range, ty_min, ty_max. apply andb_true_intro. split; apply Z.leb_le; lia.
Qed.

Scheme jtext_m := Minimality for gtext Sort Prop with jtail_m := Minimality for gtail Sort Prop
  with jfield_m := Minimality for gfield Sort Prop with ftail_m := Minimality for gftail Sort Prop.
Combined Scheme jtext_mutual from jtext_m, jtail_m, jfield_m, ftail_m.

Definition fval (f : list Z * json) : val := VTuple [ints (fst f); jval (snd f)].
Lemma jval_user j : exists xs, jval j = VUser 0 xs.
Proof. destruct j as [|[]| | | |]; cbn; eauto. Qed.
Lemma jchars_tok s c : jchars s c -> Forall (tok ct_char) c -> Forall (tok ct_char) s.
Proof.
  induction 1; intros Ht; auto; apply Forall_cons_iff in Ht as [Hz Ht]; [constructor; auto|].
  apply Forall_cons_iff in Ht as [Hz' Ht]. constructor; auto.
Qed.
Lemma ints_char s : Forall (tok ct_char) s -> has_ty (TColl char8) (ints s) = true.
Proof. intros H. cbn. apply forallb_forall. intros x Hx. apply in_map_iff in Hx as (z & <- & Hz). rewrite Forall_forall in H. exact (H _ Hz). Qed.

Ltac toks := repeat match goal with H : Forall _ (_ ++ _) |- _ => apply Forall_app in H as [? ?] end.

Lemma alt_w k q v u y : nth_error jalts k = Some q -> W (WOne false q) (TUser 0) v u y [] -> W (WOne false (Recur 0 false)) (TUser 0) v u y [].
Proof. intros E H. eapply w_recur; [reflexivity|]. eapply w_alt; [eapply nth_error_In; exact E|exact H]. Qed.
Lemma construct_w m args q v u xs : W (WOne false q) (TTuple args) (value_init (TTuple args)) u (VTuple xs) [] ->
  W (WOne false (Construct args q)) (TUser m) v u (VUser m xs) [].
Proof. intros H. eapply w_construct; [exact H|apply mad_user|]. apply sto_value; [discriminate|discriminate|]. cbn. now rewrite Nat.eqb_refl. Qed.
Lemma class_w n args q u b v xs : blanks b -> W (WOne false q) (TTuple args) (value_init (TTuple args)) u (VTuple xs) [] ->
  W (WOne false (jclass n (Construct args q))) (TUser 0) v (u ++ b) (VUser 0 [VUser n xs]) [].
Proof.
  intros Hb H. apply construct_w, w_seq.
  eapply (all_slot 0 _ _ [TUser n] [VUser n []] (TUser n) _ (VUser n xs)); [reflexivity|reflexivity|discriminate|reflexivity| |now apply end_w].
  now apply construct_w.
Qed.

Lemma item_w l p t u x : atom p = false -> conv t x = Done x -> (forall v0, W (WOne false p) t v0 u x []) ->
  W (WOne true p) (TColl t) (VColl l) u (VColl (l ++ [x])) [].
Proof. intros A C H. eapply w_one; [exact A|apply H|now apply sto_coll]. Qed.

Lemma jwrite :
  (forall j u, jtext j u -> jfits j -> Forall (tok ct_char) u -> forall v, W (WOne false (Recur 0 false)) (TUser 0) v u (jval j) []) /\
  (forall l u, jtail l u -> fold_right and True (map jfits l) -> Forall (tok ct_char) u -> forall acc,
     W (WMore (Recur 0 false) (word ",")) (TColl (TUser 0)) (VColl acc) u (VColl (acc ++ map jval l)) []) /\
  (forall f u, jfield f u -> jfits (snd f) -> Forall (tok ct_char) u ->
     W (WOne false jfield_p) (TTuple [TColl char8; TUser 0]) (default_init (TTuple [TColl char8; TUser 0])) u (fval f) [] /\
     conv (TTuple [TColl char8; TUser 0]) (fval f) = Done (fval f)) /\
  (forall l u, ftail l u -> fold_right and True (map (fun f => jfits (snd f)) l) -> Forall (tok ct_char) u -> forall acc,
     W (WMore jfield_p (word ",")) (TColl (TTuple [TColl char8; TUser 0])) (VColl acc) u (VColl (acc ++ map fval l)) []).
Proof.
  apply jtext_mutual; cbn [jfits map fold_right snd]; intros.
  - apply (alt_w 0 _ _ _ _ eq_refl). now apply construct_w, jword_w.
  - destruct H as (b & Hb & ->). apply (alt_w 1 _ _ _ _ eq_refl). apply class_w; [exact Hb|apply lit_w].
  - destruct H as (b & Hb & ->). apply (alt_w 2 _ _ _ _ eq_refl). apply class_w; [exact Hb|apply lit_w].
  - rewrite app_assoc. apply (alt_w 3 _ _ _ _ eq_refl). apply construct_w, w_seq.
    eapply (all_slot 0 _ _ [int32] [VNum 0] int32 _ (VNum (signed sg ds))); [reflexivity|reflexivity|discriminate|reflexivity|now apply num_w|now apply end_w].
  - destruct H as (c & b & Hc & Hb & ->). toks. rewrite !app_assoc, <- (app_assoc (txt """")). apply (alt_w 4 _ _ _ _ eq_refl).
    apply class_w; [exact Hb|]. apply w_seq. change (txt """" ++ c ++ txt """") with (txt """" ++ c ++ txt """" ++ []). change jquoted with (jquoted ++ []).
    eapply (jquoted_all s c [] 0 _ [VColl []]); [eassumption|eassumption|reflexivity|reflexivity|constructor].
  - destruct H0 as (b & Hb & ->). rewrite app_assoc. apply (alt_w 5 _ _ _ _ eq_refl). apply class_w; [exact Hb|]. apply w_seq. eapply jword_all; eauto.
    eapply (all_slot 0 _ _ [TColl (TUser 0)] [VColl []] _ _ (VColl []) [] (txt "]")); [reflexivity|reflexivity|discriminate|reflexivity|apply w_list_no|apply lit_end].
  - destruct H4 as (b & Hb & ->). toks. destruct (jval_user j) as (xs & Ej). replace (a ++ u ++ w ++ txt "]" ++ b) with ((a ++ (u ++ w) ++ txt "]") ++ b) by now rewrite <- !app_assoc.
    apply (alt_w 5 _ _ _ _ eq_refl). apply class_w; [exact Hb|]. apply w_seq. eapply jword_all; eauto.
    eapply (all_slot 0 _ _ [TColl (TUser 0)] [VColl []] _ _ (VColl (jval j :: map jval l)) (u ++ w) (txt "]")); [reflexivity|reflexivity|discriminate|reflexivity| |apply lit_end].
    eapply (w_list _ _ _ _ _ _ u _ [] w _ []); [|apply (H3 ltac:(tauto) ltac:(assumption) [jval j])].
    apply (item_w [] _ _ u (jval j)); [reflexivity|now rewrite Ej|intros; now apply H1].
  - destruct H0 as (b & Hb & ->). rewrite app_assoc. apply (alt_w 6 _ _ _ _ eq_refl). apply class_w; [exact Hb|]. apply w_seq. eapply jword_all; eauto.
    eapply (all_slot 0 _ _ [TColl (TTuple [TColl char8; TUser 0])] [VColl []] _ _ (VColl []) [] (txt "}")); [reflexivity|reflexivity|discriminate|reflexivity|apply w_list_no|apply lit_end].
  - destruct H4 as (b & Hb & ->). toks. replace (a ++ u ++ w ++ txt "}" ++ b) with ((a ++ (u ++ w) ++ txt "}") ++ b) by now rewrite <- !app_assoc.
    apply (alt_w 6 _ _ _ _ eq_refl). apply class_w; [exact Hb|]. apply w_seq. eapply jword_all; eauto.
    destruct (H1 ltac:(tauto) ltac:(assumption)) as [HW HC].
    eapply (all_slot 0 _ _ [TColl (TTuple [TColl char8; TUser 0])] [VColl []] _ _ (VColl (fval f :: map fval l)) (u ++ w) (txt "}")); [reflexivity|reflexivity|discriminate|reflexivity| |apply lit_end].
    eapply (w_list _ _ _ _ _ _ u _ [] w _ []); [|apply (H3 ltac:(tauto) ltac:(assumption) [fval f])].
    eapply w_one; [reflexivity|exact HW|]. now apply (sto_coll _ [] _ (fval f)).
  - rewrite app_nil_r. constructor.
  - toks. destruct (jval_user j) as (xs & Ej).
    eapply (w_more _ _ _ _ _ _ a _ [] u _ [] w _ []); [now apply jword_w| |].
    + apply (item_w acc _ _ u (jval j)); [reflexivity|now rewrite Ej|intros; now apply H1].
    + specialize (H3 ltac:(tauto) ltac:(assumption) (acc ++ [jval j])). now rewrite <- app_assoc in H3.
  - destruct H as (c & b & Hc & Hb & ->). toks. destruct (jval_user j) as (xs & Ej). split.
    + rewrite <- !app_assoc. apply w_seq. eapply (jquoted_all s c _ 0 _ [VColl []; VUser 0 []]); [eassumption|eassumption|reflexivity|reflexivity|].
      eapply all_quiet; [reflexivity|now apply sp_w|]. eapply jword_all; eauto. rewrite <- (app_nil_r w).
      eapply (all_slot 1 _ _ [TColl char8; TUser 0] [ints s; VUser 0 []] _ _ (jval j) w []); [reflexivity|reflexivity|discriminate|reflexivity|now apply H2|constructor].
    + pose proof (ints_char s (jchars_tok s c Hc ltac:(assumption))) as Hs.
      unfold fval. cbn [fst snd]. rewrite Ej.
      change ((if has_ty (TColl char8) (ints s) && (true && true) then Done (VTuple [ints s; VUser 0 xs]) else Err EType) = Done (VTuple [ints s; VUser 0 xs])).
      now rewrite Hs.
  - rewrite app_nil_r. constructor.
  - toks. destruct (H1 ltac:(tauto) ltac:(assumption)) as [HW HC].
    eapply (w_more _ _ _ _ _ _ a _ [] u _ [] w _ []); [now apply jword_w| |].
    + eapply w_one; [reflexivity|exact HW|]. now apply (sto_coll _ acc _ (fval f)).
    + specialize (H3 ltac:(tauto) ltac:(assumption) (acc ++ [fval f])). now rewrite <- app_assoc in H3.
Qed.

Lemma jdoc_write j u b v : jtext j u -> jfits j -> blanks b -> Forall (tok ct_char) u -> W (WOne false jdoc) (TUser 0) v (b ++ u) (jval j) [].
Proof.
  intros H Hj Hb Ht. apply w_seq. eapply all_quiet; [reflexivity|now apply sp_w|]. rewrite <- (app_nil_r u).
  eapply all_whole; [reflexivity|discriminate|apply (proj1 jwrite); eauto|]. change (@nil Z) with (@nil Z ++ []) at 1.
  eapply all_quiet; [reflexivity|apply w_eoi, lead_none|constructor].
Qed.

Theorem json_read j u b v l : jtext j u -> jfits j -> blanks b -> complete l -> fed l = b ++ u -> Forall (tok ct_char) (fed l) -> shaped (TUser 0) v = true ->
  delivers jenv jdoc (TUser 0) v l SUCCESS (jval j) [].
Proof.
  intros H Hj Hb Hl El Ht Hv. rewrite El in Ht. pose proof (proj2 (proj1 (Forall_app _ _ _) Ht)) as Hu.
  apply (written_delivers ct_char jenv jknown jsimple jdoc (TUser 0) v (fun o => o = None) l (b ++ u) [] (jval j) []); auto.
  - exact jahead.
  - now rewrite app_nil_r.
  - now rewrite El.
  - now apply jdoc_write.
Qed.

(** Different values are held in different objects. *)
Lemma ints_inj a b : ints a = ints b -> a = b.
Proof. intros [= E]. revert b E. induction a as [|x a IH]; intros [|y b] E; try discriminate; auto. injection E as -> E. f_equal. auto. Qed.
Lemma jval_inj : forall j j', jval j = jval j' -> j = j'.
Proof.
  fix IH 1. intros j j' E. destruct j as [|b|z|s|l|l], j' as [|b'|z'|s'|l'|l']; try discriminate; try reflexivity;
    try (destruct b; discriminate); try (destruct b'; discriminate).
  - now destruct b, b'.
  - now injection E as ->.
  - cbn in E. injection E as E. f_equal. apply ints_inj. unfold ints. now f_equal.
  - f_equal. cbn in E. injection E as E. revert l' E. revert l. fix go 1. intros [|x l] [|y l'] E; try discriminate; try reflexivity.
    injection E as E1 E2. f_equal; [now apply IH|now apply go].
  - f_equal. cbn in E. injection E as E. revert l' E. revert l. fix go 1. intros [|[s x] l] [|[s' y] l'] E; try discriminate; try reflexivity.
    injection E as E0 E1 E2. f_equal; [|now apply go]. f_equal; [|now apply IH]. apply ints_inj. unfold ints. now f_equal.
Qed.

Theorem json_unique j1 j2 u : jtext j1 u -> jtext j2 u -> jfits j1 -> jfits j2 -> Forall (tok ct_char) u -> j1 = j2.
Proof.
  intros H1 H2 F1 F2 Ht. apply jval_inj.
  apply (written_one ct_char jenv jknown jsimple jdoc (TUser 0) (VUser 0 []) (fun o => o = None) ([] ++ u) [] (jval j1) [] (jval j2) []); auto.
  - exact jahead.
  - now rewrite app_nil_r.
  - apply jdoc_write; auto. constructor.
  - apply jdoc_write; auto. constructor.
Qed.
