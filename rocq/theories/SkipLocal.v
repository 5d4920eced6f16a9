(** apply_skipper inside patterns (for C64). *)
From Coq Require Import List ZArith Bool Arith Lia.
From Verif Require Import Base CharSet Source Dst Pattern Parser Session Rel Big SpecSession SpecPeg SpecRun SpecLang.
From Verif Require Import BigMk BigLeaf BigSound Leaf PegSound PegTerm Run Comb Pieces LangRun.
Import ListNotations.

Section Local.
Context (T : char_ty) (env : nat -> option pat).
Hypothesis Hk : known T env.
Notation toks s := (Forall (tok T) s).

Lemma class_mono p : inclass T true p = true -> inclass T false p = true.
Proof. unfold inclass. intros H. apply andb_prop in H. destruct H as [H1 H2]. rewrite H1. cbn. now apply peg_ok_mono. Qed.

Lemma passes_on skp ws : (forall s, Forall (tok T) s -> ws s = passes skp s) -> forall s, Forall (tok T) s -> passes skp s = ws s.
Proof. intros H z Hz. symmetry. auto. Qed.

Lemma own_m ws p skp s r : m env ws (One (WithSkipper p skp)) s r <-> m env nows (One (WithSkipper p skp)) (trim ws s) r.
Proof.
  split; intros H; inversion H; subst; constructor; [now rewrite trim_nows|]. now rewrite trim_nows in *.
Qed.

(** Without a skipper around it: it stops exactly behind what was read. *)
Theorem own_skipper p inp skp ws : inclass T false (WithSkipper p skp) = true -> toks inp ->
  (forall s, Forall (tok T) s -> ws s = passes skp s) ->
  (forall n t v r w, parse env n t v (WithSkipper p skp) inp = Done (r, w) ->
     match r with
     | SUCCESS => m env ws (One p) inp (Some (left_at w))
     | FAILURE => m env ws (One p) inp None
     | PARTIAL => False
     end) /\
  (forall r, m env ws (One p) inp r -> obeys env (WithSkipper p skp) inp r).
Proof.
  intros HC Ht Hws. destruct (grammar T env _ inp Hk HC Ht) as [G1 G2].
  assert (HI : forall r, m env nows (One (WithSkipper p skp)) inp r <-> m env ws (One p) inp r).
  { intros r. split; intros H.
    - inversion H; subst. match goal with K : m env _ _ _ _ |- _ => rewrite trim_nows in K; apply (m_ext_on env (tok T) _ _ _ _ K ws); auto using passes_on end.
    - constructor. rewrite trim_nows. apply (m_ext_on env (tok T) _ _ _ _ H (passes skp)); auto. }
  split.
  - intros n t v r w H. specialize (G1 _ _ _ _ _ H). destruct r; auto; now apply HI.
  - intros r H. apply G2. now apply HI.
Qed.

Section Below.
Context (skp : pat) (ws : gap).
Hypothesis Hcs : skipper T skp = true.
Hypothesis Hws : forall s, Forall (tok T) s -> ws s = passes skp s.
Notation skipped p := (WithSkipper p skp).

(** Below another skipper: that one only counts in front. *)
Theorem inner_skipper p own s r : inclass T true (WithSkipper p own) = true -> toks s ->
  says env (WithSkipper p own) (trim ws s) r -> obeys env (skipped (WithSkipper p own)) s r.
Proof.
  intros HC Hs H.
  destruct (says_m T env Hk _ _ r (class_mono _ HC) (all_trim _ ws s Hs) H) as [A _]. apply own_m in A.
  apply (m_obeys T); auto.
  - unfold inclass in *. apply andb_prop in HC. destruct HC as [H1 H2]. apply andb_true_intro. split.
    + cbn in H1 |- *. rewrite (skipper_ok T skp Hcs). exact H1.
    + rewrite peg_ok_eq. rewrite peg_ok_eq in H2.
      change (raw_req default_req (skipped (WithSkipper p own))) with default_req.
      change (raw_req default_req (WithSkipper p own)) with default_req in H2.
      cbn [pokr ends r_clean r_recur default_req negb andb orb] in H2 |- *. rewrite Hcs, peg_ok_eq.
      change (raw_req default_req (WithSkipper p own)) with default_req.
      cbn [pokr r_clean r_recur default_req negb andb orb]. rewrite H2. rewrite !andb_true_iff in H2. destruct H2 as (_ & ((He & _) & _)). now rewrite He.
  - constructor. rewrite trim_nows. apply (m_ext_on env (tok T) _ _ _ _ A (passes skp)); auto.
Qed.

(** What a part does: with its own skipper, from where the skipping in front of it ended, if
    it is an apply_skipper itself; with the skipper in force otherwise. *)
Lemma say_own p s r : inclass T true p = true -> toks s ->
  (match p with WithSkipper _ _ => says env p (trim ws s) r | _ => says env (skipped p) s r end) ->
  G env ws p s r /\ (forall t, r = Some t -> toks t).
Proof.
  intros HC Hs H.
  assert (Hd : (exists q own, p = WithSkipper q own /\ says env p (trim ws s) r) \/ says env (skipped p) s r).
  { destruct p; auto. left. eauto. }
  destruct Hd as [(q & own & -> & H')|H']; [|now apply (say_sk T env Hk skp ws Hcs Hws)].
  destruct (says_m T env Hk _ _ r (class_mono _ HC) (all_trim _ ws s Hs) H') as [A B]. apply own_m in A. split.
  - exists r. split; auto. destruct r; cbn; auto with eqt.
  - intros t ->. exact B.
Qed.
Notation says' := (fun p s r => match p with WithSkipper _ _ => says env p (trim ws s) r | _ => says env (skipped p) s r end).
Notation obeys' := (fun p => obeys_upto ws env (skipped p)).
Theorem own_parts :
  (forall l s r, inclass T true (Seq l) = true -> toks s -> through says' l s r -> obeys' (Seq l) s r) /\
  (forall l s r, inclass T true (Alt l) = true -> toks s -> first says' l s r -> obeys' (Alt l) s r) /\
  (forall lo hi p s r, inclass T true (Repeat lo hi p) = true -> toks s ->
     greedy says' lo hi p s r -> obeys' (Repeat lo hi p) s r) /\
  (forall p sep s s', inclass T true (PList p sep) = true -> toks s ->
     listed says' p sep s s' -> obeys' (PList p sep) s (Some s')).
Proof.
  pose proof (ob_sk T env Hk skp ws Hcs Hws) as HO.
  split; [exact (gen_seq env T true ws says' obeys' say_own HO)|].
  split; [exact (gen_alt env T true ws says' obeys' say_own HO)|].
  split; [exact (gen_repeat env T true ws says' obeys' say_own HO)|].
  exact (gen_list env T true ws says' obeys' say_own HO).
Qed.
End Below.
End Local.
