(** JSON with comments into objects (C59): the comments. *)
From Coq Require Import String List ZArith Bool Arith Lia.
From Verif Require Import Base CharSet Dst Pattern Demo SpecPeg PegSound SpecJson PropertiesGrammar.
Import ListNotations.
Local Open Scope list_scope.

Fixpoint times (q : pat) (f : nat) (s : list Z) : option (list Z) :=
  match f with
  | 0 => None
  | S f' => match over q s with Some t => times q f' t | None => Some s end
  end.
Definition times0 (q : pat) (lo : nat) : nat -> nat -> list Z -> option (list Z) :=
  fix go (f n : nat) (s : list Z) := match f with
  | 0 => None
  | S f' => match over q s with Some t => go f' (S n) t | None => if lo <=? n then Some s else None end
  end.
Lemma times0_eq q f : forall n s, times0 q 0 f n s = times q f s.
Proof. induction f as [|f IH]; intros n s; [reflexivity|]. cbn [times]. cbn. destruct (over q s); [apply IH|reflexivity]. Qed.
Lemma over_repeat q s : over (Repeat 0 0 q) s = times q (S (List.length s)) s.
Proof. rewrite <- (times0_eq q _ 0). reflexivity. Qed.
Section Scan.
Context (q : pat) (Hq : forall s t, over q s = Some t -> exists z, s = z :: t).
Lemma times_stop f : forall s, List.length s < f -> exists c t, s = c ++ t /\ times q f s = Some t /\ over q t = None /\
  forall x y, c = x ++ y -> y <> [] -> over q (y ++ t) <> None.
Proof.
  induction f as [|f IH]; intros s Hf; [lia|]. cbn [times]. destruct (over q s) as [t|] eqn:E.
  - destruct (Hq _ _ E) as (z & ->). cbn [List.length] in Hf. destruct (IH t ltac:(lia)) as (c & r & -> & H1 & H2 & H3).
    exists (z :: c), r. split; [reflexivity|]. split; auto. split; auto. intros [|x0 x] y Ec Hy; cbn in Ec.
    + subst y. cbn [app]. congruence.
    + injection Ec as <- Ec. eauto.
  - exists [], s. split; [reflexivity|]. split; auto. split; auto. intros x y Ec Hy. symmetry in Ec. apply app_eq_nil in Ec as [_ ->]. congruence.
Qed.
Lemma times_go c t : over q t = None -> (forall x z y, c = x ++ z :: y -> over q (z :: y ++ t) = Some (y ++ t)) ->
  forall f, List.length (c ++ t) < f -> times q f (c ++ t) = Some t.
Proof.
  intros Ht. induction c as [|z c IH]; intros Hc [|f] Hf; try lia; cbn [times app].
  - now rewrite Ht.
  - rewrite (Hc [] z c eq_refl). apply IH; [|cbn in Hf; lia]. intros x z' y E. apply (Hc (z :: x)). now rewrite E.
Qed.
End Scan.

Lemma after_some l s t : after_text l s = Some t <-> s = l ++ t.
Proof.
  revert s. induction l as [|x l IH]; intros s; cbn; [split; [now intros [= ->]|now intros ->]|].
  destruct s as [|y s]; [split; discriminate|]. destruct (Z.eqb_spec x y) as [->|N]; [rewrite IH; split; [now intros ->|now intros [= ->]]|].
  split; [discriminate|]. intros [= -> _]. congruence.
Qed.

Definition block_q : pat := Except any (Lit (txt "*/")).
Definition line_q : pat := Except any (Discard (Char (CSingle ct_char 10))).
Lemma block_over z s : over block_q (z :: s) = if ((z =? 42) && match s with y :: _ => y =? 47 | [] => false end)%Z then None else Some s.
Proof.
  unfold block_q. cbn. rewrite (Z.eqb_sym 42). destruct (z =? 42)%Z; auto. destruct s as [|y s]; auto. cbn. rewrite (Z.eqb_sym 47). now destruct (y =? 47)%Z.
Qed.
Lemma line_over z s : over line_q (z :: s) = if (z =? 10)%Z then None else Some s.
Proof. unfold line_q. cbn. rewrite ?(Z.eqb_sym 10). destruct (z =? 10)%Z; auto. Qed.
Lemma block_eats s t : over block_q s = Some t -> exists z, s = z :: t.
Proof. destruct s as [|z s]; [discriminate|]. rewrite block_over. destruct (_ && _); [discriminate|]. intros [= ->]. eauto. Qed.
Lemma line_eats s t : over line_q s = Some t -> exists z, s = z :: t.
Proof. destruct s as [|z s]; [discriminate|]. rewrite line_over. destruct (z =? 10)%Z; [discriminate|]. intros [= ->]. eauto. Qed.

Lemma over_comments s : over comments s =
  match s with
  | z :: t => if white z then Some t else
      match after_text (txt "/*") s with
      | Some r => match times block_q (S (List.length r)) r with Some r' => after_text (txt "*/") r' | None => None end
      | None => match after_text (txt "//") s with
                | Some r => match times line_q (S (List.length r)) r with Some (y :: r') => if (y =? 10)%Z then Some r' else None | _ => None end
                | None => None
                end
      end
  | [] => None
  end.
Proof.
  assert (E : over comments s = match over blanks s with Some t => Some t | None =>
    match over (Seq [Lit (txt "/*"); Repeat 0 0 block_q; Lit (txt "*/")]) s with Some t => Some t | None =>
      match over (Seq [Lit (txt "//"); Repeat 0 0 line_q; Discard (Char (CSingle ct_char 10))]) s with Some t => Some t | None => None end end end) by reflexivity.
  rewrite E. clear E.
  assert (B : over (Seq [Lit (txt "/*"); Repeat 0 0 block_q; Lit (txt "*/")]) s = match after_text (txt "/*") s with
      | Some r => match times block_q (S (List.length r)) r with Some r' => after_text (txt "*/") r' | None => None end
      | None => None end).
  { cbn [over]. destruct (after_text (txt "/*") s) as [r|]; [|reflexivity]. change (over (Repeat 0 0 block_q) r) with (over (Repeat 0 0 block_q) r).
    match goal with |- match ?x with _ => _ end = _ => change x with (over (Repeat 0 0 block_q) r) end. rewrite over_repeat.
    destruct (times _ _ r) as [r'|]; [|reflexivity]. now destruct (after_text (txt "*/") r'). }
  assert (L : over (Seq [Lit (txt "//"); Repeat 0 0 line_q; Discard (Char (CSingle ct_char 10))]) s = match after_text (txt "//") s with
      | Some r => match times line_q (S (List.length r)) r with Some (y :: r') => if (y =? 10)%Z then Some r' else None | _ => None end
      | None => None end).
  { cbn [over]. destruct (after_text (txt "//") s) as [r|]; [|reflexivity].
    match goal with |- match ?x with _ => _ end = _ => change x with (over (Repeat 0 0 line_q) r) end. rewrite over_repeat.
    destruct (times _ _ r) as [[|y r']|]; try reflexivity. cbn [over member]. now destruct (y =? 10)%Z. }
  rewrite B, L. destruct s as [|z s]; [reflexivity|].
  assert (W : over blanks (z :: s) = if white z then Some s else None) by reflexivity. rewrite W. destruct (white z); [reflexivity|].
  destruct (after_text (txt "/*") (z :: s)) as [r|] eqn:E1.
  - assert (E2 : after_text (txt "//") (z :: s) = None).
    { apply after_some in E1. cbn in E1. injection E1 as -> ->. reflexivity. }
    rewrite E2. destruct (times block_q _ r) as [r'|]; [|reflexivity]. now destruct (after_text (txt "*/") r').
  - destruct (after_text (txt "//") (z :: s)) as [r|]; [|reflexivity]. destruct (times line_q _ r) as [[|y r']|]; try reflexivity. now destruct (y =? 10)%Z.
Qed.

(** Behind one blank or comment. *)
Lemma over_blank z s : white z = true -> over comments (z :: s) = Some s.
Proof. intros H. rewrite over_comments. now rewrite H. Qed.
Lemma over_block c s : (forall x y, c <> x ++ txt "*/" ++ y) -> over comments (txt "/*" ++ c ++ txt "*/" ++ s) = Some s.
Proof.
  intros Hc. rewrite over_comments. cbn [txt app]. change (txt "/*" ++ c ++ txt "*/" ++ s) with (47%Z :: 42%Z :: c ++ txt "*/" ++ s).
  change (white 47) with false. cbn iota. change (after_text (txt "/*") (47%Z :: 42%Z :: c ++ txt "*/" ++ s)) with (Some (c ++ txt "*/" ++ s)). cbn iota.
  rewrite (times_go block_q c (txt "*/" ++ s)); [reflexivity|reflexivity| |lia].
  intros x z y E. rewrite block_over. destruct (Z.eqb_spec z 42) as [->|]; [|reflexivity]. cbn [andb]. destruct y as [|y0 y]; [reflexivity|]. cbn [app].
  destruct (Z.eqb_spec y0 47) as [->|]; [|reflexivity]. elim (Hc x y). exact E.
Qed.
Lemma over_line c s : ~ In 10%Z c -> over comments (txt "//" ++ c ++ 10%Z :: s) = Some s.
Proof.
  intros Hc. rewrite over_comments. change (txt "//" ++ c ++ 10%Z :: s) with (47%Z :: 47%Z :: c ++ 10%Z :: s).
  change (white 47) with false. cbn iota. change (after_text (txt "/*") (47%Z :: 47%Z :: c ++ 10%Z :: s)) with (@None (list Z)).
  change (after_text (txt "//") (47%Z :: 47%Z :: c ++ 10%Z :: s)) with (Some (c ++ 10%Z :: s)). cbn iota.
  rewrite (times_go line_q c (10%Z :: s)); [reflexivity|reflexivity| |lia].
  intros x z y E. rewrite line_over. destruct (Z.eqb_spec z 10) as [->|]; [|reflexivity]. elim Hc. rewrite E. apply in_elt.
Qed.
Lemma over_inv s t : over comments s = Some t ->
  exists b, s = b ++ t /\ b <> [] /\ forall g, commented g -> commented (b ++ g).
Proof.
  rewrite over_comments. destruct s as [|z s]; [discriminate|]. destruct (white z) eqn:Ew.
  - intros [= ->]. exists [z]. split; [reflexivity|]. split; [discriminate|]. intros g Hg. now constructor.
  - destruct (after_text (txt "/*") (z :: s)) as [r|] eqn:E1.
    + destruct (times_stop block_q block_eats (S (List.length r)) r ltac:(lia)) as (c & r' & -> & -> & H2 & H3). intros E2.
      apply after_some in E1, E2. subst r'. exists (txt "/*" ++ c ++ txt "*/"). rewrite E1. split; [now rewrite <- !app_assoc|]. split; [discriminate|].
      intros g Hg. rewrite <- !app_assoc. apply cm_block; auto. intros x y E. apply (H3 x (txt "*/" ++ y) E); [discriminate|reflexivity].
    + destruct (after_text (txt "//") (z :: s)) as [r|] eqn:E2; [|discriminate].
      destruct (times_stop line_q line_eats (S (List.length r)) r ltac:(lia)) as (c & r' & -> & -> & H2 & H3).
      destruct r' as [|y r']; [discriminate|]. destruct (Z.eqb_spec y 10) as [->|]; [|discriminate]. intros [= ->].
      apply after_some in E2. exists (txt "//" ++ c ++ [10]%Z). rewrite E2. split; [now rewrite <- !app_assoc|]. split; [discriminate|].
      intros g Hg. rewrite <- !app_assoc. apply cm_line; auto. intros Hi. apply in_split in Hi as (x & y & E). apply (H3 x (10%Z :: y) E); [discriminate|reflexivity].
Qed.

Notation cgap := (passes comments).
Lemma trim_over s t : over comments s = Some t -> trim cgap s = trim cgap t.
Proof.
  intros E. destruct (over_inv _ _ E) as (b & -> & Hb & _). rewrite trim_eq. unfold passes at 1. rewrite E, app_length.
  destruct b as [|z b]; [congruence|]. cbn [List.length].
  replace (S (List.length b) + List.length t - List.length t) with (S (List.length b)) by lia. cbn [app skipn].
  f_equal. rewrite skipn_app, skipn_all, Nat.sub_diag. reflexivity.
Qed.
Lemma trim_gap b s : commented b -> trim cgap (b ++ s) = trim cgap s.
Proof.
  induction 1 as [|z b Hz _ IH|c b Hc _ IH|c b Hc _ IH]; [reflexivity| | |]; rewrite <- IH.
  - apply trim_over. cbn [app]. now apply over_blank.
  - rewrite <- !app_assoc. apply trim_over. now apply over_block.
  - rewrite <- !app_assoc. cbn [app]. apply trim_over. now apply over_line.
Qed.
Lemma trim_gap_inv s : exists b, s = b ++ trim cgap s /\ commented b.
Proof.
  remember (List.length s) as n eqn:En. revert s En. induction n as [n IH] using lt_wf_ind. intros s ->.
  destruct (over comments s) as [t|] eqn:E.
  - rewrite (trim_over _ _ E). destruct (over_inv _ _ E) as (b & Es & Hb & Hg). destruct (IH (List.length t)) with (s := t) as (b' & Et & Hb'); auto.
    { rewrite Es, app_length. destruct b; [congruence|cbn; lia]. }
    exists (b ++ b'). split; [now rewrite <- app_assoc, <- Et|auto].
  - exists []. split; [|constructor]. rewrite trim_eq. unfold passes at 1. now rewrite E.
Qed.
