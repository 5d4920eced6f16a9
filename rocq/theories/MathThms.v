(** The math_expression example computes the value of the expression. *)
From Coq Require Import List ZArith Bool Arith Lia String.
From Verif Require Import Base CharSet Source Dst Pattern Parser Session SpecSession SpecPeg SpecRun SpecValue SpecCollect SpecSkip SpecLeaf SpecText SpecFold SpecMath.
From Verif Require Import Big BigLeaf Leaf PegSound Local LocalThms Unary Group LeafThms Fill Atomic Collect Element Gather Under Fold Demo RoundTrip MathDemo.
Import ListNotations.
Local Open Scope Z_scope.

Lemma math_mok : forall id q, math_env id = Some q -> mok true recur_req q = true.
Proof. intros [|id] q E; [|discriminate]. injection E as <-. reflexivity. Qed.
Lemma math_unbound : all_unbound math_env.
Proof. intros [|id] q E; [|discriminate]. injection E as <-. reflexivity. Qed.

Lemma skip_space b rest : Forall is_space b -> Forall (tok ct_char) (b ++ rest) -> (forall z l, rest = z :: l -> ~ is_space z) ->
  skipped math_env space (b ++ rest) rest.
Proof.
  intros Hb. induction Hb as [|z b Hz Hb IH]; cbn [app]; intros Ht Hr.
  - apply skd_end with rest. unfold checks. apply does_discard; [reflexivity|exact math_unbound|]. split; [reflexivity|].
    eapply does_char; [exact ct_char_ok|reflexivity|exact Ht|]. split; [reflexivity|]. right. split; [reflexivity|]. split; [reflexivity|]. split; [reflexivity|].
    intros z l E. exact (Hr z l E).
  - apply skd_more with (b ++ rest).
    + unfold checks. apply does_discard; [reflexivity|exact math_unbound|]. split; [reflexivity|].
      eapply does_char; [exact ct_char_ok|reflexivity|exact Ht|]. split; [reflexivity|]. left. split; [reflexivity|]. exists z. split; [reflexivity|]. split; [exact Hz|constructor].
    + inversion Ht; subst. auto.
Qed.

Lemma space_plain z : is_space z -> is_digit 10 z = false /\ z <> 45 /\ z <> 43.
Proof. intros ->. repeat split; discriminate. Qed.

Lemma conv_num sg w z : 1 <= w -> in_range sg w z = true -> conv (TNum sg w) (VNum z) = Done (VNum z).
Proof. intros Hw Hz. unfold conv. now rewrite wrap_id. Qed.
Lemma conv_pair c y : tok ct_char c -> in_range true 32 y = true -> conv (TTuple [char8; int32]) (VTuple [VNum c; VNum y]) = Done (VTuple [VNum c; VNum y]).
Proof. intros Hc Hy. unfold tok, ct_char in Hc. cbn [ct_signed ct_bits] in Hc. unfold conv. cbn [has_ty]. unfold char8, int32. cbn [has_ty]. now rewrite Hc, Hy. Qed.

(** ** Tokens *)
Lemma spaced_app ts1 : forall ts2 text rest, spaced is_space (ts1 ++ ts2) text rest -> exists mid, spaced is_space ts1 text mid /\ spaced is_space ts2 mid rest.
Proof.
  induction ts1 as [|t ts1 IH]; cbn; intros ts2 text rest H; [exists text; split; [constructor|exact H]|].
  inversion H as [|b t' ts' text' rest' Hb H']; subst. destruct (IH _ _ _ H') as (mid & A & B). exists mid. split; [now constructor|exact B].
Qed.

Lemma spaced_tok ts text rest : spaced is_space ts text rest -> Forall (tok ct_char) text -> Forall (tok ct_char) rest.
Proof. induction 1; auto. intros Ht. rewrite !Forall_app in Ht. tauto. Qed.

Lemma dec_first z : exists x l, dec z = x :: l /\ (is_digit 10 x = true \/ x = 45).
Proof.
  destruct (dec_shape z) as (u & Hu & [[-> _]|[-> _]]); [|eauto].
  destruct (spell_some u Hu) as (x & l & Es & _). pose proof (spell_digits u [] I) as Hs. rewrite Es in *. exists x, l. split; auto. left.
  cbn in Hs. now destruct (is_digit 10 x).
Qed.

Lemma shows_first l e ts : shows l e ts -> exists x t r, ts = (x :: t) :: r /\ ~ is_space x.
Proof.
  induction 1; auto.
  - destruct (dec_first z) as (x & l & -> & H). exists x, l, []. split; auto. intros ->. destruct H; discriminate.
  - eexists _, _, _. split; [reflexivity|]. discriminate.
  - destruct IHshows1 as (x & t & r & -> & Hx). eexists _, _, _. split; [reflexivity|auto].
  - destruct IHshows1 as (x & t & r & -> & Hx). eexists _, _, _. split; [reflexivity|auto].
Qed.

Lemma spaced_skipped l e ts text rest : shows l e ts -> spaced is_space ts text rest -> Forall (tok ct_char) text ->
  exists s0, skipped math_env space text s0 /\ spaced is_space ts s0 rest /\ Forall (tok ct_char) s0.
Proof.
  intros Hs H Ht. destruct (shows_first _ _ _ Hs) as (x & t & r & -> & Hx). inversion H as [|b t' ts' text' rest' Hb H']; subst.
  exists ((x :: t) ++ text'). split; [|split].
  - apply skip_space; auto. intros z l0 E. injection E as <- _. exact Hx.
  - exact (spc_tok is_space [] _ _ _ _ (Forall_nil _) H').
  - rewrite Forall_app in Ht. tauto.
Qed.

(** What begins with the character [x], blanks aside. *)
Lemma spaced_char x ts text rest : spaced is_space ([x] :: ts) text rest -> exists b text', text = b ++ x :: text' /\ Forall is_space b /\ spaced is_space ts text' rest.
Proof. intros H. inversion H as [|b t' ts' text' rest' Hb H']; subst. exists b, text'. split; [reflexivity|]. auto. Qed.

Lemma char_no_digit x b text : Forall is_space b -> is_digit 10 x = false -> no_digit 10 (b ++ x :: text).
Proof. intros [|y b' -> _] Hx; [exact Hx|reflexivity]. Qed.

Lemma split_unique b : forall b' x x' text text', Forall is_space b -> Forall is_space b' -> ~ is_space x -> ~ is_space x' ->
  b ++ x :: text = b' ++ x' :: text' -> x = x'.
Proof.
  induction b as [|y b IH]; intros b' x x' text text' Hb Hb' Hx Hx' E; destruct b' as [|y' b'].
  - now injection E.
  - injection E as -> _. now inversion Hb'.
  - injection E as -> _. now inversion Hb.
  - injection E as _ E. inversion Hb; inversion Hb'; subst. eauto.
Qed.

Lemma char_next_not l x b text : Forall is_space b -> ~ is_space x -> ~ In 32 l -> ~ In x l -> next_not l (b ++ x :: text).
Proof.
  intros Hb Hx Hl Hn b' z r E Hb' Hz. assert (~ is_space z) as Hz2 by (intros ->; auto).
  rewrite <- (split_unique _ _ _ _ _ _ Hb Hb' Hx Hz2 E) in Hz. auto.
Qed.

Lemma split_blanks (s : list Z) : exists b r, s = b ++ r /\ Forall is_space b /\ forall z l, r = z :: l -> ~ is_space z.
Proof.
  induction s as [|z s IH]; [exists [], []; repeat split; auto; discriminate|].
  destruct (Z.eq_dec z 32) as [->|Hz].
  - destruct IH as (b & r & -> & Hb & Hr). exists (32 :: b), r. repeat split; auto. constructor; auto. reflexivity.
  - exists [], (z :: s). repeat split; auto. intros y l E. injection E as <- _. exact Hz.
Qed.

(** ** Rows *)
Section Row.
Context (cs : list Z) (p : pat).
Hypothesis Hcs : forall c, In c cs -> tok ct_char c /\ ~ is_space c /\ c <> 0.
Hypothesis Hfit : cs_fits ct_char (set_of_cstr (cs ++ [0])) = true.
Hypothesis Hub : unbound p = true.
Hypothesis Hig : ignores (under space p) = false.
Notation item := (Seq [Char (set_of_cstr (cs ++ [0])); p]).
Hypothesis Hmok : mok false default_req (under space item) = true.
Hypothesis Hst : steady (under space item) = true.
Hypothesis Hmr : mok false default_req (under space (Seq [Act assign_act p; Repeat 0 0 (Act binop_act item)])) = true.

Lemma cs_no0 : ~ In 0 cs. Proof. intros H. now destruct (Hcs 0 H). Qed.

Notation T := (TTuple [char8; int32]).

Lemma item_does c b text rest y k : In c cs -> Forall is_space b -> Forall (tok ct_char) (b ++ c :: text) ->
  does math_env (under space p) int32 (VNum 0) text SUCCESS rest (VNum y) k ->
  does math_env (under space item) T (default_init T) (b ++ c :: text) SUCCESS rest (VTuple [VNum c; VNum y]) k.
Proof.
  intros Hc Hb Ht H. destruct (Hcs c Hc) as (H1 & H2 & H3). apply (under_inside math_env math_mok space item _ _ _ true); [reflexivity|exact Hmok|]. cbn [inside map].
  apply seq_tuple; [exact math_unbound|discriminate|cbn; cbn in Hub; now rewrite Hub|reflexivity|]. eexists. split; [reflexivity|].
  change k with (@nil event ++ k). eapply spr_next with (s1 := text); [reflexivity| |rewrite <- (app_nil_r k); eapply spr_next; [exact Hig|exact H|constructor]].
  apply (leaf_under math_env math_mok space (Char _) _ _ _ true); [reflexivity|reflexivity|]. exists (c :: text). split.
  - apply skip_space; auto. intros z l E. injection E as <- _. exact H2.
  - eapply does_char; [exact ct_char_ok|exact Hfit|rewrite Forall_app in Ht; tauto|]. split; [reflexivity|]. left. split; [reflexivity|]. exists c.
    split; [reflexivity|]. split; [apply in_cstr; [exact cs_no0|exact Hc]|]. apply sto_value; [discriminate|discriminate|].
    now apply conv_num.
Qed.

Lemma item_declines s : next_not cs s -> Forall (tok ct_char) s -> exists s1, declines math_env binop_act (under space item) s s1 [].
Proof.
  intros Hn Ht. destruct (split_blanks s) as (b & r & -> & Hb & Hr). exists r. unfold declines. cbn [ac_land binop_act]. eexists.
  apply (under_inside math_env math_mok space item _ _ _ false); [reflexivity|exact Hmok|]. cbn [inside map].
  apply seq_tuple; [exact math_unbound|discriminate|cbn; cbn in Hub; now rewrite Hub|reflexivity|]. eexists. split; [reflexivity|].
  eapply spr_no; [reflexivity|]. apply (leaf_under math_env math_mok space (Char _) _ _ _ false); [reflexivity|reflexivity|]. exists r. split; [now apply skip_space|].
  eapply does_char; [exact ct_char_ok|exact Hfit|rewrite Forall_app in Ht; tauto|]. split; [reflexivity|]. right. split; [reflexivity|]. split; [reflexivity|]. split; [reflexivity|].
  intros z l -> Hz. apply (in_cstr cs [] z cs_no0) in Hz. exact (Hn b z l eq_refl Hb Hz).
Qed.

Lemma item_performs o c b text rest x y z k : In c cs -> sign o = [c] -> Forall is_space b -> Forall (tok ct_char) (b ++ c :: text) ->
  in_range true 32 y = true -> apply_op o x y = Some z ->
  does math_env (under space p) int32 (VNum 0) text SUCCESS rest (VNum y) k ->
  exists k', performs math_env binop_act (under space item) int32 (VNum x) (b ++ c :: text) rest (VNum z) k'.
Proof.
  intros Hc Ho Hb Ht Hy Hz H. destruct (Hcs c Hc) as (H1 & _). eexists. exists (VTuple [VNum c; VNum y]), (VTuple [VNum c; VNum y]), k. cbn [ac_land binop_act ac_id].
  split; [now apply item_does|]. split; [|split; [|reflexivity]].
  - now apply conv_pair.
  - assert (binop c x y = VNum z /\ in_range true 32 z = true) as [E Hr].
    { destruct o; injection Ho as <-; unfold apply_op in Hz.
      - change (binop 43 x y) with (int_result (x + y)). unfold int_result. destruct (in_range true 32 _) eqn:E in Hz; [|discriminate]; injection Hz as <-. now rewrite E.
      - change (binop 45 x y) with (int_result (x - y)). unfold int_result. destruct (in_range true 32 _) eqn:E in Hz; [|discriminate]; injection Hz as <-. now rewrite E.
      - change (binop 42 x y) with (int_result (x * y)). unfold int_result. destruct (in_range true 32 _) eqn:E in Hz; [|discriminate]; injection Hz as <-. now rewrite E.
      - change (binop 47 x y) with (if y =? 0 then VUndef else int_result (Z.quot x y)). destruct (y =? 0); [discriminate|]. unfold int_result.
        destruct (in_range true 32 _) eqn:E in Hz; [|discriminate]; injection Hz as <-. now rewrite E. }
    rewrite <- E. eapply (cal_bound_void binop_act int32); [reflexivity|reflexivity|reflexivity|]. intros _. rewrite E. exact Hr.
Qed.

(** The beginning of a row, as far as [mid], worth [z]: however it goes on. *)
Definition begun (text mid : list Z) (z : Z) : Prop :=
  forall v, exists s1 v1 k1, performs math_env assign_act (under space p) int32 v text s1 v1 k1 /\
  forall rest z' k', folded math_env binop_act (under space item) int32 (VNum z) mid rest z' k' ->
    exists k2, folded math_env binop_act (under space item) int32 v1 s1 rest z' k2.

Lemma begun_first text mid z : in_range true 32 z = true ->
  (forall v, exists k, does math_env (under space p) int32 v text SUCCESS mid (VNum z) k) -> begun text mid z.
Proof.
  intros Hz H v. destruct (H (default_init int32)) as [k Hk]. exists mid, (VNum z). eexists. split; [|eauto].
  exists (VNum z), (VNum z), k. split; [exact Hk|]. split; [now apply conv_num|]. split; [|reflexivity].
  exact (cal_bound_void assign_act int32 v (VNum z) VNil (VNum z) eq_refl eq_refl eq_refl (fun _ => Hz)).
Qed.

Lemma begun_more o c text b text' mid x y z : begun text (b ++ c :: text') x -> In c cs -> sign o = [c] -> Forall is_space b -> Forall (tok ct_char) (b ++ c :: text') ->
  in_range true 32 y = true -> apply_op o x y = Some z ->
  (forall v, exists k, does math_env (under space p) int32 v text' SUCCESS mid (VNum y) k) -> begun text mid z.
Proof.
  intros HB Hc Ho Hb Ht Hy Hz H v. destruct (HB v) as (s1 & v1 & k1 & HP & HK). exists s1, v1, k1. split; [exact HP|].
  intros rest z' k' HF. destruct (H (VNum 0)) as [k Hk]. destruct (item_performs o c b text' mid x y z k Hc Ho Hb Ht Hy Hz Hk) as [k'' HQ].
  eapply HK. eapply fld_more; [exact HQ|exact HF].
Qed.

Lemma begun_end text mid z : begun text mid z -> next_not cs mid -> Forall (tok ct_char) mid ->
  forall v, exists k, does math_env (under space (row cs p)) int32 v text SUCCESS mid (VNum z) k.
Proof.
  intros HB Hn Ht v. destruct (HB v) as (s1 & v1 & k1 & HP & HK). destruct (item_declines mid Hn Ht) as (s2 & HD).
  destruct (HK mid (VNum z) []) as [k2 HF]; [eapply fld_end; eauto|]. exists (k1 ++ k2).
  apply (left_fold math_env math_mok math_unbound space int32 assign_act p binop_act item v text true); auto; [cbn; cbn in Hub; now rewrite Hub|].
  right. split; [reflexivity|]. exists s1, v1, k1, k2. auto.
Qed.
End Row.

(** ** Expressions *)
Lemma eval_range e z : eval e = Some z -> in_range true 32 z = true.
Proof.
  destruct e as [z'|o a b]; cbn [eval].
  - unfold writable. destruct (in_range true 32 z') eqn:E; cbn; [|discriminate]. destruct (negb _); [|discriminate]. now intros [= <-].
  - destruct (eval a) as [x|]; [|discriminate]. destruct (eval b) as [y|]; [|discriminate]. unfold apply_op.
    destruct o; try destruct (y =? 0); try discriminate; destruct (in_range true 32 _) eqn:E; try discriminate; now intros [= <-].
Qed.

Notation md := (txt "*/").
Notation pm := (txt "+-").
Lemma md_chars c : In c md -> tok ct_char c /\ ~ is_space c /\ c <> 0.
Proof. intros [<-|[<-|[]]]; repeat split; discriminate. Qed.
Lemma pm_chars c : In c pm -> tok ct_char c /\ ~ is_space c /\ c <> 0.
Proof. intros [<-|[<-|[]]]; repeat split; discriminate. Qed.

Definition end_product := begun_end md primary md_chars eq_refl eq_refl eq_refl eq_refl eq_refl.
Definition end_sum := begun_end pm muldiv pm_chars eq_refl eq_refl eq_refl eq_refl eq_refl.

Lemma lit_char x b rest t v : tok ct_char x -> ~ is_space x -> Forall is_space b -> Forall (tok ct_char) (b ++ x :: rest) ->
  does math_env (under space (lit_c x)) t v (b ++ x :: rest) SUCCESS rest v [].
Proof.
  intros Hx Hn Hb Ht. rewrite Forall_app in Ht. destruct Ht as [Ht1 Ht2]. inversion Ht2; subst.
  apply (lit_here math_env math_mok math_unbound space is_space eq_refl skip_space); auto.
Qed.

Theorem shows_does l e ts : shows l e ts -> forall text rest z, spaced is_space ts text rest -> Forall (tok ct_char) text -> no_digit 10 rest -> eval e = Some z ->
  match l with
  | Prim => forall v, exists k, does math_env (under space primary) int32 v text SUCCESS rest (VNum z) k
  | Prod => begun md primary text rest z
  | Sum => next_not md rest -> begun pm muldiv text rest z
  end.
Proof.
  induction 1 as [z0|e ts Hs IH|e ts Hs IH|o a b ta tb Ho Ha IHa Hb IHb|e ts Hs IH|o a b ta tb Ho Ha IHa Hb IHb]; intros text rest z H Ht Hd Hz.
  - (* a number *)
    intros v. exists []. inversion H as [|b t' ts' text' rest' Hb H']; subst. inversion H'; subst.
    apply (under_inside math_env math_mok space primary _ _ _ true); [reflexivity|reflexivity|]. cbn [inside map primary].
    apply (alt_law math_env math_mok) with (r := true); [discriminate|reflexivity|reflexivity|]. apply try_this.
    assert (readable true 32 z0 /\ z0 = z) as [Hr <-].
    { cbn [eval] in Hz. destruct (writable z0) eqn:E; [|discriminate]. injection Hz as ->. split; [|reflexivity]. unfold writable in E. apply andb_true_iff in E as [E1 E2].
      split; [exact E1|]. intros _ ->. now rewrite Z.eqb_refl in E2. }
    apply (int_here math_env math_mok space is_space eq_refl skip_space space_plain true 32 ltac:(lia)); auto.
  - (* parentheses *)
    intros v. change (txt "(" :: ts ++ [txt ")"]) with ([40] :: ts ++ [[41]]) in H.
    apply spaced_char in H. destruct H as (b1 & t1 & -> & Hb1 & H). apply spaced_app in H. destruct H as (mid & H & H2).
    apply spaced_char in H2. destruct H2 as (b2 & t2 & -> & Hb2 & H2). inversion H2; subst. clear H2.
    assert (Forall (tok ct_char) t1) as Ht1 by (rewrite Forall_app in Ht; destruct Ht as [_ Ht]; now inversion Ht).
    pose proof (spaced_tok _ _ _ H Ht1) as Ht2.
    assert (exists k, does math_env (under space expr_) int32 (VNum 0) t1 SUCCESS (b2 ++ 41 :: rest) (VNum z) k) as [k Hk].
    { destruct (spaced_skipped _ _ _ _ _ Hs H Ht1) as (s0 & Hsk & H0 & Ht0).
      destruct (end_sum s0 (b2 ++ 41 :: rest) z) with (v := VNum 0) as [k Hk].
      - apply IH; auto; [apply char_no_digit; auto|]. apply char_next_not; auto; cbn; unfold is_space; intuition discriminate.
      - apply char_next_not; auto; cbn; unfold is_space; intuition discriminate.
      - exact Ht2.
      - exists k. apply (recur_under math_env math_mok space 0 false addsub _ _ _ true); [reflexivity|reflexivity|reflexivity|reflexivity|]. exists s0. split; [exact Hsk|exact Hk]. }
    eexists. apply (under_inside math_env math_mok space primary _ _ _ true); [reflexivity|reflexivity|]. cbn [inside map primary].
    apply (alt_law math_env math_mok) with (r := true); [discriminate|reflexivity|reflexivity|].
    eapply try_next.
    { apply (int_not_here math_env math_mok space is_space eq_refl skip_space true 32 ltac:(lia)); auto; try reflexivity; discriminate. }
    apply try_this. apply (under_inside math_env math_mok space (Seq [lc "("; expr_; lc ")"]) _ _ _ true); [reflexivity|reflexivity|]. cbn [inside map].
    apply seq_one; [exact math_unbound|discriminate|reflexivity|split; discriminate|].
    eapply chn_quiet; [reflexivity|apply (lit_char 40); auto; [reflexivity|discriminate]|].
    eapply chn_next; [reflexivity|exact Hk|].
    eapply chn_quiet; [reflexivity|apply (lit_char 41); auto; [reflexivity|discriminate]|]. constructor.
  - apply begun_first; [now apply (eval_range e)|]. now apply IH.
  - (* a product *)
    cbn [eval] in Hz. destruct (eval a) as [x|] eqn:Ea; [|discriminate]. destruct (eval b) as [y|] eqn:Eb; [|discriminate].
    apply spaced_app in H. destruct H as (mid & H & H2).
    assert (exists c, sign o = [c] /\ In c md /\ is_digit 10 c = false) as (c & Eo & Hc & Hdc) by (destruct Ho; subst o; eexists; repeat split; cbn; auto).
    rewrite Eo in H2. apply spaced_char in H2. destruct H2 as (b1 & t1 & -> & Hb1 & H2).
    pose proof (spaced_tok _ _ _ H Ht) as Ht2.
    eapply (begun_more md primary md_chars); eauto; try reflexivity; [|now apply (eval_range b)|].
    + apply IHa; auto. now apply char_no_digit.
    + apply IHb; auto. rewrite Forall_app in Ht2. destruct Ht2 as [_ Ht2]. now inversion Ht2.
  - intros Hn. apply begun_first; [now apply (eval_range e)|]. apply end_product; auto. now apply (spaced_tok _ _ _ H).
  - (* a sum *)
    intros Hn. cbn [eval] in Hz. destruct (eval a) as [x|] eqn:Ea; [|discriminate]. destruct (eval b) as [y|] eqn:Eb; [|discriminate].
    apply spaced_app in H. destruct H as (mid & H & H2).
    assert (exists c, sign o = [c] /\ In c pm /\ is_digit 10 c = false /\ ~ In c md) as (c & Eo & Hc & Hdc & Hnc).
    { destruct Ho; subst o; eexists; repeat split; cbn; auto; intuition discriminate. }
    rewrite Eo in H2. apply spaced_char in H2. destruct H2 as (b1 & t1 & -> & Hb1 & H2).
    pose proof (spaced_tok _ _ _ H Ht) as Ht2.
    assert (Forall (tok ct_char) t1) as Ht3 by (rewrite Forall_app in Ht2; destruct Ht2 as [_ Ht2]; now inversion Ht2).
    eapply (begun_more pm muldiv pm_chars); eauto; try reflexivity; [|now apply (eval_range b)|].
    + apply IHa; auto; [now apply char_no_digit|]. apply char_next_not; auto; [now apply pm_chars|cbn; intuition discriminate].
    + apply end_product; auto. now apply (spaced_tok _ _ _ H2).
Qed.

Theorem math_value e ts z text rest v : shows Sum e ts -> eval e = Some z -> spaced is_space ts text rest -> Forall (tok ct_char) text ->
  no_digit 10 rest -> next_not (txt "+-*/") rest ->
  exists k, does math_env math int32 v text SUCCESS rest (VNum z) k.
Proof.
  intros Hs Hz H Ht Hd Hn. destruct (spaced_skipped _ _ _ _ _ Hs H Ht) as (s0 & Hsk & H0 & Ht0).
  assert (next_not md rest /\ next_not pm rest) as [N1 N2].
  { split; intros b y r E Hb Hy; apply (Hn b y r E Hb); cbn in *; tauto. }
  destruct (end_sum s0 rest z) with (v := v) as [k Hk]; auto.
  - exact (shows_does _ _ _ Hs s0 rest z H0 Ht0 Hd Hz N1).
  - now apply (spaced_tok _ _ _ H).
  - exists k. apply (recur_under math_env math_mok space 0 false addsub _ _ _ true); [reflexivity|reflexivity|reflexivity|reflexivity|]. exists s0. split; [exact Hsk|exact Hk].
Qed.
