(** Tokens behind white space, and the README's list of integers. *)
From Coq Require Import List ZArith Bool Arith Lia String.
From Verif Require Import Base CharSet Source Dst Pattern Parser Session SpecSession SpecPeg SpecRun SpecValue SpecCollect SpecSkip SpecLeaf SpecText.
From Verif Require Import Big BigLeaf Leaf Local LocalThms Unary Group LeafThms Fill Atomic Collect Element Gather Under Demo.
Import ListNotations.

Definition readable (sg : bool) (w z : Z) : Prop := in_range sg w z = true /\ (wide sg w = true -> z <> ty_min sg w).

Section Text.
Context (env : nat -> option pat).
Hypothesis Hmok : forall id q, env id = Some q -> mok true recur_req q = true.
Hypothesis Hub : all_unbound env.

Lemma blank_set z : in_set (set_of_cstr [32; 9; 13; 10; 0]%Z) z <-> is_blank z.
Proof. exact (in_cstr [32; 9; 13; 10]%Z [] z ltac:(cbn; intuition discriminate)). Qed.

Lemma stored_nil v x : stored TNil v x v. Proof. constructor. Qed.

Lemma ct_char_ok : ct_ok ct_char. Proof. unfold ct_ok. cbn. lia. Qed.

Lemma skip_blank b rest : Forall is_blank b -> Forall (tok ct_char) (b ++ rest) -> (forall z l, rest = z :: l -> ~ is_blank z) ->
  skipped env ws (b ++ rest) rest.
Proof.
  intros Hb. induction Hb as [|z b Hz Hb IH]; cbn [app]; intros Ht Hr.
  - apply skd_end with rest. unfold checks, ws. eapply does_char; [exact ct_char_ok|reflexivity|exact Ht|]. split; [reflexivity|]. right. split; [reflexivity|]. split; [reflexivity|]. split; [reflexivity|].
    intros z l E. rewrite blank_set. eauto.
  - apply skd_more with (b ++ rest).
    + unfold checks, ws. eapply does_char; [exact ct_char_ok|reflexivity|exact Ht|]. split; [reflexivity|]. left. split; [reflexivity|]. exists z. rewrite blank_set. split; [reflexivity|]. split; [exact Hz|constructor].
    + inversion Ht; subst. auto.
Qed.

(** ** Tokens behind what a skipper skips *)
Section Tokens.
Context (sk : pat) (bl : Z -> Prop).
Hypothesis Hsf : sfree sk = true.
Hypothesis Hskip : forall b rest, Forall bl b -> Forall (tok ct_char) (b ++ rest) -> (forall z l, rest = z :: l -> ~ bl z) ->
  skipped env sk (b ++ rest) rest.

Lemma lit_here x t v b rest : tok ct_char x -> ~ bl x -> Forall bl b -> Forall (tok ct_char) rest -> Forall (tok ct_char) b ->
  does env (under sk (lit_c x)) t v (b ++ x :: rest) SUCCESS rest v [].
Proof.
  intros Hx Hn Hb Hr Htb. apply (under_inside env Hmok sk (lit_c x) t v _ true); [reflexivity|cbn; rewrite Hsf, orb_true_r; reflexivity|]. cbn [inside lit_c].
  apply does_discard; auto. split; auto. apply (leaf_under env Hmok sk (Char (CSingle ct_char x)) _ _ _ true); [reflexivity|rewrite Hsf; apply orb_true_r|].
  exists (x :: rest). split.
  - apply Hskip; auto; [apply Forall_app; auto|]. intros z l E. injection E as <- <-. exact Hn.
  - eapply does_char; [exact ct_char_ok| |constructor; eauto|].
    + reflexivity.
    + split; [reflexivity|]. left. split; [reflexivity|]. exists x. split; [reflexivity|]. split; [reflexivity|constructor].
Qed.

Lemma lit_not_here x y t v b rest : tok ct_char x -> y <> x -> ~ bl y -> Forall bl b -> Forall (tok ct_char) (y :: rest) -> Forall (tok ct_char) b ->
  does env (under sk (lit_c x)) t v (b ++ y :: rest) FAILURE (y :: rest) v [].
Proof.
  intros Hx Hne Hn Hb Hr Htb. apply (under_inside env Hmok sk (lit_c x) t v _ false); [reflexivity|cbn; rewrite Hsf, orb_true_r; reflexivity|]. cbn [inside lit_c].
  apply does_discard; auto. split; auto. apply (leaf_under env Hmok sk (Char (CSingle ct_char x)) _ _ _ false); [reflexivity|rewrite Hsf; apply orb_true_r|].
  exists (y :: rest). split.
  - apply Hskip; auto; [apply Forall_app; auto|]. intros z l E. injection E as <- <-. exact Hn.
  - eapply does_char; [exact ct_char_ok| |eauto|].
    + reflexivity.
    + split; [reflexivity|]. right. split; [reflexivity|]. split; [reflexivity|]. split; [reflexivity|]. intros z l E. injection E as <- <-. exact Hne.
Qed.

Hypothesis Hbl : forall z, bl z -> is_digit 10 z = false /\ z <> 45%Z /\ z <> 43%Z.
Context (sg : bool) (w : Z) (Hw : (1 <= w)%Z).

Lemma int_here z v b rest : readable sg w z -> Forall bl b -> Forall (tok ct_char) (b ++ dec z ++ rest) -> no_digit 10 rest ->
  does env (under sk int_) (TNum sg w) v (b ++ dec z ++ rest) SUCCESS rest (VNum z) [].
Proof.
  intros [Hz Hm] Hb Ht Hn. apply (leaf_under env Hmok sk int_ _ _ _ true); [reflexivity|rewrite Hsf; apply orb_true_r|].
  exists (dec z ++ rest). assert (Forall (tok ct_char) rest) as Hr by (rewrite !Forall_app in Ht; tauto). split.
  - apply Hskip; auto. intros y l E Hy. destruct (dec_shape z) as (u & Hu & [[Ed _]|[Ed _]]); rewrite Ed in E.
    + destruct (spell_some u Hu) as (x & l' & Es & _). pose proof (spell_digits u [] I) as Hs. rewrite Es in E, Hs. injection E as -> _. cbn in Hs.
      destruct (Hbl _ Hy) as (D & _). now rewrite D in Hs.
    + injection E as <- _. now destruct (Hbl _ Hy) as (_ & N & _).
  - now apply int_roundtrip.
Qed.

Lemma int_not_here y v b rest : is_digit 10 y = false -> y <> 45%Z -> y <> 43%Z -> ~ bl y -> Forall bl b -> Forall (tok ct_char) (b ++ y :: rest) ->
  does env (under sk int_) (TNum sg w) v (b ++ y :: rest) FAILURE (y :: rest) (VNum 0) [].
Proof.
  intros Hy H1 H2 Hn Hb Ht. apply (leaf_under env Hmok sk int_ _ _ _ false); [reflexivity|rewrite Hsf; apply orb_true_r|].
  exists (y :: rest). split.
  - apply Hskip; auto. intros z l E. injection E as <- _. exact Hn.
  - assert (Forall (tok ct_char) (y :: rest)) as Ht2 by (rewrite Forall_app in Ht; tauto).
    apply Z.eqb_neq in H1. apply Z.eqb_neq in H2.
    apply does_int; auto; try lia. unfold unsigned, negative, taken. rewrite H1, H2. cbn. rewrite Hy. cbn. unfold value, value_from. cbn.
    repeat split; auto. unfold safe. intros _. unfold ty_max. destruct sg; cbn; [pose proof (Z.pow_pos_nonneg 2 (w - 1))|pose proof (Z.pow_pos_nonneg 2 w)]; lia.
    rewrite wrap_id; auto. now apply zero_in.
Qed.

End Tokens.

Lemma blank_plain z : is_blank z -> is_digit 10 z = false /\ z <> 45%Z /\ z <> 43%Z.
Proof. unfold is_blank. cbn. intros H. decompose [or] H; subst; try contradiction; repeat split; discriminate. Qed.

Section Readme.
Context (sg : bool) (w : Z) (Hw : (1 <= w)%Z).

Lemma spaced_more_digit zs text rest : spaced is_blank (more_items zs) text rest -> no_digit 10 text.
Proof.
  intros H. assert (exists x ts, (x = 44 \/ x = 93)%Z /\ more_items zs = [x] :: ts) as (x & ts & Hx & E) by (destruct zs; cbn; eauto).
  rewrite E in H. inversion H as [|b t ts' text1 rest' Hb H1]; subst. destruct Hb as [|y b Hy Hb]; cbn.
  - destruct Hx; subst; reflexivity.
  - unfold is_blank in Hy. cbn in Hy. decompose [or] Hy; subst; try reflexivity; contradiction.
Qed.

Lemma spaced_items zs : forall z m text rest, Forall (readable sg w) (z :: zs) -> Forall (tok ct_char) text -> spaced is_blank (dec z :: more_items zs) text rest ->
  exists b, Forall is_blank b /\ Forall (tok ct_char) (b ++ 93%Z :: rest) /\
  separated env (under ws int_) (under ws (lc ",")) (TNum sg w) m text (map VNum (z :: zs)) (b ++ 93%Z :: rest) [].
Proof.
  assert (forall z, readable sg w z -> conv (TNum sg w) (VNum z) = Done (VNum z)) as HC.
  { intros z [Hz _]. cbn. now rewrite wrap_id by (auto; lia). }
  induction zs as [|z' zs IH]; intros z m text rest Hz Ht H; inversion H as [|b t ts text1 rest' Hb H1]; subst; clear H; inversion Hz as [|? ? Hz1 Hz2]; subst.
  - cbn [more_items] in H1. pose proof (spaced_more_digit [] _ _ H1) as Hd. inversion H1 as [|b1 t1 ts1 text2 rest2 Hb1 H2]; subst. inversion H2; subst. clear H1 H2.
    change (txt "]") with [93%Z] in *. cbn [app] in *. exists b1.
    assert (Forall (tok ct_char) (b1 ++ 93%Z :: rest)) as Hr by (rewrite !Forall_app in Ht; rewrite Forall_app; tauto).
    split; [auto|split; [auto|]]. change (@nil event) with (@nil event ++ []). eapply spt_last with (s2 := 93%Z :: rest).
    + apply (int_here ws is_blank eq_refl skip_blank blank_plain); auto.
    + auto.
    + apply (lit_not_here ws is_blank eq_refl skip_blank); auto; try reflexivity; try discriminate; try (rewrite Forall_app in Hr; tauto).
      unfold is_blank; cbn; intuition discriminate.
  - cbn [more_items] in H1. pose proof (spaced_more_digit (z' :: zs) _ _ H1) as Hd. inversion H1 as [|b1 t1 ts1 text2 rest2 Hb1 H2]; subst. clear H1.
    change (txt ",") with [44%Z] in *. cbn [app] in *.
    assert (Forall (tok ct_char) text2) as Ht2 by (rewrite !Forall_app in Ht; destruct Ht as (_ & _ & _ & Ht); now inversion Ht).
    destruct (IH z' (b1 ++ 44%Z :: text2) text2 rest Hz2 Ht2 H2) as (b2 & Hb2 & Hr & HS). exists b2. split; [auto|split; [auto|]].
    change (@nil event) with (@nil event ++ [] ++ []). cbn [map]. eapply spt_next with (s2 := text2).
    + apply (int_here ws is_blank eq_refl skip_blank blank_plain); auto.
    + auto.
    + apply (lit_here ws is_blank eq_refl skip_blank); auto; try reflexivity; try (rewrite !Forall_app in Ht; tauto). unfold is_blank; cbn; intuition discriminate.
    + exact HS.
Qed.

Theorem readme_list zs l0 text rest : Forall (readable sg w) zs -> Forall (tok ct_char) text -> spaced is_blank (bracketed zs) text rest ->
  (forall id q, env id = Some q -> plain q = true) ->
  does env readme (TColl (TNum sg w)) (ints l0) text SUCCESS rest (ints (l0 ++ zs)) [].
Proof.
  intros Hz Ht H Hplain. apply (under_inside env Hmok ws (Seq [lc "["; PList int_ (lc ","); lc "]"]) _ _ _ true); [reflexivity|reflexivity|].
  cbn [inside map]. apply seq_one; auto; try discriminate; [split; discriminate|].
  unfold bracketed in H. inversion H as [|b t ts text1 rest' Hb H1]; subst. clear H. change (txt "[") with [91%Z] in *. cbn [app] in *.
  assert (Forall (tok ct_char) text1) as Ht1 by (rewrite !Forall_app in Ht; destruct Ht as (_ & Ht); now inversion Ht).
  change (@nil event) with (@nil event ++ ([] ++ ([] ++ []))).
  assert (exists b1, Forall is_blank b1 /\ Forall (tok ct_char) (b1 ++ 93%Z :: rest) /\
    separated env (under ws int_) (under ws (lc ",")) (TNum sg w) text1 text1 (map VNum zs) (b1 ++ 93%Z :: rest) []) as (b1 & Hb1 & Hr & HS).
  { destruct zs as [|z zs]; [|now apply spaced_items].
    inversion H1 as [|b1 t1 ts1 text2 rest2 Hb1 H2]; subst. inversion H2; subst. change (txt "]") with [93%Z] in *. cbn [app] in *.
    exists b1. split; [auto|split; [auto|]]. apply spt_stop. eexists _, _. apply (int_not_here ws is_blank eq_refl skip_blank); auto; try reflexivity; try discriminate. unfold is_blank; cbn; intuition discriminate. }
  eapply chn_quiet with (s1 := text1) (v1 := VNil); [reflexivity| |].
  { apply (lit_here ws is_blank eq_refl skip_blank); auto; try reflexivity; try (rewrite !Forall_app in Ht; tauto). unfold is_blank; cbn; intuition discriminate. }
  eapply chn_next with (s1 := b1 ++ 93%Z :: rest) (v1 := ints (l0 ++ zs)); [reflexivity| |].
  { unfold ints at 1. apply (list_appends env Hmok Hplain (fun _ => false)) with (r := true); auto.
    - intros id q E D. discriminate.
    - split; [reflexivity|]. right. cbn. split; [discriminate|]. split; [now apply Z.leb_le|reflexivity].
    - split; auto. exists (map VNum zs). split; auto. unfold ints. now rewrite map_app. }
  eapply chn_quiet with (s1 := rest) (v1 := VNil); [reflexivity| |constructor].
  apply (lit_here ws is_blank eq_refl skip_blank); auto; try reflexivity; try (rewrite !Forall_app in Hr; destruct Hr as [Hr1 Hr2]; auto; now inversion Hr2). unfold is_blank; cbn; intuition discriminate.
Qed.
End Readme.
End Text.
