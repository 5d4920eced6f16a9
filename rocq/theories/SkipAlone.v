(** What a skipper skips is what it matches when it is run on its own. *)
From Coq Require Import List ZArith Bool Arith Lia.
From Verif Require Import Base CharSet Source Dst Pattern Parser Session.
From Verif Require Import SpecSession SpecPeg SpecRun Leaf Rel Big BigLeaf PegSound PegTerm Run Comb.
Import ListNotations.

Lemma after_text_some l : forall s t, after_text l s = Some t -> s = l ++ t.
Proof.
  induction l as [|x l IH]; intros s t; cbn [after_text app]; [now intros [= ->]|]. destruct s as [|y s]; [discriminate|].
  destruct (Z.eqb_spec x y); [subst|discriminate]. intros H. now rewrite (IH _ _ H).
Qed.
Lemma after_text_none l : forall s, after_text l s = None -> forall t, s <> l ++ t.
Proof.
  induction l as [|x l IH]; intros s; cbn [after_text app]; [discriminate|]. destruct s as [|y s]; [discriminate|].
  destruct (Z.eqb_spec x y); [subst|congruence]. intros H t [= E]. exact (IH _ H _ E).
Qed.

Section Alone.
Context (T : char_ty) (HT : ct_ok T) (env : nat -> option pat).

Lemma block_class p : forall rq rq' h, fits T p = true -> sblk rq p = true -> mok h rq' p = true /\ peg_ok T false rq' p = true.
Proof.
  induction p using pat_ind'; intros rq rq' h Hf Hs; cbn [fits sblk mok peg_ok] in *; try discriminate; auto.
  - destruct l as [|q0 l]; [discriminate|]. apply andb_prop in Hs as [_ Hs]. rewrite !forallb_forall in *. rewrite Forall_forall in H.
    split; intros q Hq; eapply H; eauto.
  - destruct l as [|q0 l]; [discriminate|]. rewrite !forallb_forall in *. rewrite Forall_forall in H.
    split; intros q Hq; eapply H; eauto.
  - apply andb_prop in Hs as [Hs Hq]. apply andb_prop in Hs as [Hs _]. apply andb_prop in Hs as [_ Hh]. rewrite Hh. cbn [orb andb]. eauto.
  - eauto.
  - cbn [negb orb andb]. eauto.
  - apply andb_prop in Hf as [Hf1 Hf2]. apply andb_prop in Hs as [Hs1 Hs2]. rewrite !andb_true_iff. split; split; eapply IHp1 || eapply IHp2; eauto.
Qed.

Lemma over_suffix p s t : fits T p = true -> Forall (tok T) s -> over p s = Some t -> exists k, s = k ++ t /\ (moves p = true -> k <> []).
Proof. intros Hf Ht E. rewrite <- (skip1_over _ HT p Hf s Ht) in E. now apply skip_suffix. Qed.

Lemma block_over p : forall rq s, fits T p = true -> sblk rq p = true -> Forall (tok T) s -> m env nows (One p) s (over p s).
Proof.
  induction p using pat_ind'; intros rq s0 Hf Hs Ht; cbn [fits sblk] in *; try discriminate.
  - cbn [over]. destruct s0 as [|z t]; [apply m_char_no; rewrite trim_nows; discriminate|]. destruct (member s z) eqn:E.
    + eapply m_char; [apply trim_nows|now apply member_in].
    + apply m_char_no. rewrite trim_nows. intros y t' [= <- <-] H. apply member_in in H. congruence.
  - cbn [over]. destruct s0; [apply m_eoi; apply trim_nows|apply m_eoi_no; rewrite trim_nows; discriminate].
  - apply m_fail.
  - cbn [over]. destruct (after_text s s0) as [t|] eqn:E.
    + apply m_lit. rewrite trim_nows. now apply after_text_some.
    + apply m_lit_no. rewrite trim_nows. now apply after_text_none.
  - assert (forallb (sblk seq_req) l = true) as Hs' by (destruct l; [discriminate|now apply andb_prop in Hs as [_ Hs]]). clear Hs. rename Hs' into Hs. apply m_seq. cbn [over]. revert s0 Ht. revert Hf Hs. induction H as [|q l Hq _ IH]; intros Hf Hs s0 Ht; [apply m_all_end|].
    cbn [forallb] in Hf, Hs. apply andb_prop in Hf as [F1 F2]. apply andb_prop in Hs as [S1 S2]. pose proof (Hq _ s0 F1 S1 Ht) as M.
    destruct (over q s0) as [t|] eqn:E; [|now apply m_all_no]. eapply m_all; [exact M|]. destruct (over_suffix _ _ _ F1 Ht E) as (k & -> & _).
    apply IH; auto. now apply Forall_app in Ht as [_ Ht].
  - assert (forallb (sblk (alt_req rq)) l = true) as Hs' by (destruct l; [discriminate|exact Hs]). clear Hs. rename Hs' into Hs. apply m_alt. cbn [over]. revert Hf Hs. induction H as [|q l Hq _ IH]; intros Hf Hs; [apply m_any_end|].
    cbn [forallb] in Hf, Hs. apply andb_prop in Hf as [F1 F2]. apply andb_prop in Hs as [S1 S2]. pose proof (Hq _ s0 F1 S1 Ht) as M.
    destruct (over q s0) as [t|] eqn:E; [now apply m_any|]. apply m_any_next; auto.
  - apply andb_prop in Hs as [Hs Hq]. apply andb_prop in Hs as [Hs Hm]. apply andb_prop in Hs as [_ Hh]. apply Nat.eqb_eq in Hh as ->.
    apply m_repeat. rewrite over_rep. assert (length s0 < S (length s0)) as Hl by lia. revert Hl. generalize (S (length s0)) as f. generalize 0 at 2 3 as n.
    intros n f. revert n s0 Ht. induction f as [|f IH]; intros n s0 Ht Hl; [lia|]. cbn [over_times]. pose proof (IHp _ s0 Hf Hq Ht) as M.
    destruct (over p s0) as [t|] eqn:E; [|now apply m_times_stop]. eapply m_times; [exact M|discriminate|].
    destruct (over_suffix _ _ _ Hf Ht E) as (k & -> & N). specialize (N Hm). apply IH; [now apply Forall_app in Ht as [_ Ht]|].
    rewrite app_length in Hl. destruct k; [easy|]. cbn in Hl. lia.
  - apply m_discard. eauto.
  - apply m_lexeme. rewrite trim_nows. eauto.
  - apply andb_prop in Hf as [F1 F2]. apply andb_prop in Hs as [S1 S2]. cbn [over]. pose proof (IHp2 _ s0 F2 S1 Ht) as M2.
    destruct (over p2 s0); [eapply m_except; eauto|]. apply m_except_no; eauto.
Qed.

Lemma skipper_class skp : skipper T skp = true -> inclass T false skp = true.
Proof.
  intros H. destruct (skipper_parts T skp H) as (Hf & _ & Hs). destruct (block_class skp skip_req default_req false Hf (sfree_blk _ Hs)) as [A B].
  unfold inclass. now rewrite A, B.
Qed.

(** Run on its own it answers what [passes] says. *)
Theorem alone : known T env -> forall skp s, skipper T skp = true -> Forall (tok T) s ->
  (passes skp s = 0 -> obeys env skp s None) /\
  (forall k, passes skp s = S k -> obeys env skp s (Some (skipn (S k) s))) /\
  (says env skp s None -> passes skp s = 0) /\
  (forall t, says env skp s (Some t) -> exists u, s = u ++ t /\ u <> [] /\ passes skp s = length u).
Proof.
  intros Hk skp s Hs Ht. destruct (skipper_parts T skp Hs) as (Hf & Hm & Hfree).
  pose proof (block_over skp skip_req s Hf (sfree_blk _ Hfree) Ht) as M. destruct (grammar T env skp s Hk (skipper_class _ Hs) Ht) as [G1 G2].
  assert (O : over skp s = match passes skp s with 0 => None | k => Some (skipn k s) end).
  { rewrite <- (skip1_over _ HT skp Hf s Ht). now apply (skip1_passes T HT). }
  split; [|split; [|split]].
  - intros E. rewrite E in O. rewrite O in M. now apply G2.
  - intros k E. rewrite E in O. rewrite O in M. now apply G2.
  - intros (t & v & n & w & E). apply G1 in E. pose proof (m_det _ _ _ _ _ M _ E) as D. unfold passes. now rewrite D.
  - intros t' (t & v & n & w & E & El). apply G1 in E. pose proof (m_det _ _ _ _ _ M _ E) as D. cbn in El. subst t'.
    destruct (over_suffix skp s _ Hf Ht D) as (u & Eu & N). exists u. split; [exact Eu|]. split; [auto|]. unfold passes. rewrite D, Eu, app_length. lia.
Qed.
End Alone.
