(** The two data sources refine the reference cursor. *)
From Coq Require Import List ZArith Bool Arith Lia.
From Verif Require Import Base Source.
Import ListNotations.

(** ** ContainerSequenceDataSource *)

Definition contents (l : list (nat * list Z)) : list Z := concat (map snd l).

(** Position, in the whole input, of an iterator into the live buffers; [base] is the
    number of tokens released so far. *)
Fixpoint loc (base : nat) (l : list (nat * list Z)) (m : nat * nat) : option nat :=
  match l with
  | [] => None
  | (i, b) :: t =>
    if i =? fst m then (if snd m <? length b then Some (base + snd m) else None)
    else loc (base + length b) t m
  end.

Definition hd_id (l : list (nat * list Z)) : option nat := hd_error (map fst l).

Record Rc (dropped : list Z) (s : cseq) (a : cursor) : Prop := {
  rc_inp : a_inp a = dropped ++ contents (cs_bufs s);
  rc_fin : a_fin a = cs_final s;
  rc_ids : NoDup (map fst (cs_bufs s));
  rc_fresh : Forall (fun i => i < cs_fresh s) (map fst (cs_bufs s));
  rc_ne : Forall (fun ib => snd ib <> []) (cs_bufs s);
  rc_cur : match cs_cur s with
           | None => a_pos a = length (a_inp a)
           | Some m => loc (length dropped) (cs_bufs s) m = Some (a_pos a)
           end;
  rc_stk : exists ps, Forall2 (fun m p => loc (length dropped) (cs_bufs s) m = Some p) (cs_marks s) ps
                      /\ a_stk a = repeat (length (a_inp a)) (cs_starved s) ++ ps;
  rc_starved : cs_starved s <> 0 -> cs_cur s = None;
  rc_held : match rev (cs_marks s) with
            | m :: _ => hd_id (cs_bufs s) = Some (fst m)
            | [] => hd_id (cs_bufs s) = option_map fst (cs_cur s)
            end }.

Definition R_cs (s : cseq) (a : cursor) : Prop := exists dropped, Rc dropped s a.

Lemma contents_app l l' : contents (l ++ l') = contents l ++ contents l'.
Proof. unfold contents. now rewrite map_app, concat_app. Qed.

Lemma contents_cons i b l : contents ((i, b) :: l) = b ++ contents l.
Proof. reflexivity. Qed.

Lemma loc_split base l id off p :
  loc base l (id, off) = Some p ->
  exists pre b post, l = pre ++ (id, b) :: post /\ ~ In id (map fst pre) /\
                     off < length b /\ p = base + length (contents pre) + off.
Proof.
  revert base. induction l as [|[i b] l IH]; intros base H; cbn [loc fst snd] in H; [discriminate|].
  destruct (i =? id) eqn:E.
  - apply Nat.eqb_eq in E. subst i.
    destruct (off <? length b) eqn:L; [|discriminate].
    apply Nat.ltb_lt in L. injection H as <-.
    exists [], b, l. cbn. repeat split; auto; lia.
  - apply Nat.eqb_neq in E.
    destruct (IH _ H) as (pre & b' & post & -> & Hn & Ho & ->).
    exists ((i, b) :: pre), b', post. cbn [app map fst In].
    split; [reflexivity|]. split; [|split; [exact Ho|]].
    + intros [->|Hi]; auto.
    + rewrite contents_cons, app_length. lia.
Qed.

Lemma loc_intro base pre id b post off :
  ~ In id (map fst pre) -> off < length b ->
  loc base (pre ++ (id, b) :: post) (id, off) = Some (base + length (contents pre) + off).
Proof.
  revert base. induction pre as [|[i b'] pre IH]; intros base Hn Ho; cbn [app loc fst snd map In] in *.
  - rewrite Nat.eqb_refl. destruct (off <? length b) eqn:L.
    + f_equal. cbn. lia.
    + apply Nat.ltb_ge in L. lia.
  - destruct (i =? id) eqn:E; [apply Nat.eqb_eq in E; tauto|].
    rewrite IH by tauto. rewrite contents_cons, app_length. f_equal. lia.
Qed.

Lemma loc_app base l l' m p : loc base l m = Some p -> loc base (l ++ l') m = Some p.
Proof.
  destruct m as [id off]. intros H. destruct (loc_split _ _ _ _ _ H) as (pre & b & post & -> & Hn & Ho & ->).
  rewrite <- app_assoc. cbn. now apply loc_intro.
Qed.

Lemma buf_find_split pre id b post :
  ~ In id (map fst pre) -> buf_find id (pre ++ (id, b) :: post) = Some b.
Proof.
  induction pre as [|[i b'] pre IH]; intros Hn; cbn in *.
  - now rewrite Nat.eqb_refl.
  - destruct (i =? id) eqn:E; [apply Nat.eqb_eq in E; tauto|]. apply IH. tauto.
Qed.

Lemma buf_after_split pre id b post :
  ~ In id (map fst pre) -> buf_after id (pre ++ (id, b) :: post) = hd_id post.
Proof.
  induction pre as [|[i b'] pre IH]; intros Hn; cbn in *.
  - rewrite Nat.eqb_refl. destruct post as [|[j ?] ?]; reflexivity.
  - destruct (i =? id) eqn:E; [apply Nat.eqb_eq in E; tauto|]. apply IH. tauto.
Qed.

Lemma buf_drop_split pre id b post :
  ~ In id (map fst pre) ->
  buf_drop (Some id) (pre ++ (id, b) :: post) = Done ((id, b) :: post).
Proof.
  induction pre as [|[i b'] pre IH]; intros Hn; cbn in *.
  - now rewrite Nat.eqb_refl.
  - destruct (i =? id) eqn:E; [apply Nat.eqb_eq in E; tauto|]. apply IH. tauto.
Qed.

Lemma buf_drop_none l : buf_drop None l = Done [].
Proof. induction l as [|[i b] l IH]; cbn; auto. Qed.

Lemma nth_error_app_mid {A} (a b c : list A) k :
  k < length b -> nth_error (a ++ b ++ c) (length a + k) = nth_error b k.
Proof.
  intros. rewrite nth_error_app2 by lia. replace (length a + k - length a) with k by lia.
  now rewrite nth_error_app1.
Qed.

Lemma NoDup_mid {A} (l : list A) x r : NoDup (l ++ x :: r) -> ~ In x l /\ ~ In x r.
Proof.
  intros H. apply NoDup_remove_2 in H. split; intro; apply H; apply in_or_app; auto.
Qed.

Lemma NoDup_snoc {A} (l : list A) x : NoDup l -> ~ In x l -> NoDup (l ++ [x]).
Proof.
  induction l as [|y l IH]; cbn; intros Hnd Hn.
  - repeat constructor; auto.
  - inversion Hnd; subst. constructor.
    + rewrite in_app_iff. cbn. intros [?|[?|[]]]; auto; subst; tauto.
    + apply IH; tauto.
Qed.

Lemma starved0 {A} (n : nat) (m : A) (o : option A) :
  (n <> 0 -> o = None) -> o = Some m -> n = 0.
Proof. intros H ->. destruct n; auto. exfalso. assert (Some m = None) by auto. discriminate. Qed.

(** The observers. *)
Lemma R_cs_empty s a : R_cs s a -> cs_empty s = a_empty a.
Proof.
  intros [d H]. destruct H. unfold cs_empty, a_empty. destruct (cs_cur s) as [[id off]|].
  - destruct (loc_split _ _ _ _ _ rc_cur0) as (pre & b & post & E & Hn & Ho & Hp).
    symmetry. apply Nat.leb_gt. rewrite rc_inp0, E, contents_app, contents_cons, !app_length. lia.
  - symmetry. apply Nat.leb_le. lia.
Qed.

Lemma R_cs_final s a : R_cs s a -> cs_final s = a_fin a.
Proof. intros [d H]. now destruct H. Qed.

Lemma R_cs_next s a : R_cs s a -> cs_next s = a_next a.
Proof.
  intros [d H]. destruct H. unfold cs_next, a_next. destruct (cs_cur s) as [[id off]|].
  - destruct (loc_split _ _ _ _ _ rc_cur0) as (pre & b & post & E & Hn & Ho & Hp).
    rewrite rc_inp0, Hp, E, contents_app, contents_cons, buf_find_split by assumption.
    rewrite <- Nat.add_assoc, nth_error_app2 by lia.
    replace (length d + (length (contents pre) + off) - length d) with (length (contents pre) + off) by lia.
    now rewrite nth_error_app_mid.
  - rewrite rc_cur0. now rewrite (proj2 (nth_error_None _ _)) by lia.
Qed.

Lemma R_cs_prepare s a : R_cs s a -> R_cs (cs_prepare s) (a_prepare a).
Proof.
  intros [d H]. exists d. destruct H. unfold cs_prepare, a_prepare.
  destruct rc_stk0 as (ps & Hps & Est).
  destruct (cs_cur s) as [m|] eqn:Ecur; constructor; cbn; auto.
  - exists (a_pos a :: ps). split; [constructor; auto|].
    assert (cs_starved s = 0) as Ez by (eapply starved0; eauto).
    rewrite Ez in *. cbn in *. now rewrite Est.
  - destruct (rev (cs_marks s)) as [|m' l]; cbn; auto.
  - exists ps. split; auto. rewrite Est. cbn. now rewrite rc_cur0.
Qed.

Lemma R_cs_add b f s a :
  R_cs s a ->
  match cs_add b f s, a_add b f a with
  | Done s', Done a' => R_cs s' a'
  | Err e, Err e' => e = e'
  | _, _ => False
  end.
Proof.
  intros [d H]. pose proof (R_cs_empty s a (ex_intro _ d H)) as Hemp.
  destruct H. unfold cs_add, a_add. rewrite rc_fin0.
  destruct (cs_final s) eqn:Ef; [reflexivity|].
  destruct rc_stk0 as (ps & Hps & Est).
  destruct b as [|x b].
  - exists d. constructor; cbn; rewrite ?app_nil_r; auto. exists ps. auto.
  - set (bb := x :: b) in *. assert (bb <> []) as Hbb by discriminate.
    assert (0 < length bb) as Lbb by (cbn; lia).
    assert (~ In (cs_fresh s) (map fst (cs_bufs s))) as Hfr.
    { intro Hin. rewrite Forall_forall in rc_fresh0. specialize (rc_fresh0 _ Hin). lia. }
    assert (NoDup (map fst (cs_bufs s ++ [(cs_fresh s, bb)]))) as Hnd.
    { rewrite map_app. cbn. now apply NoDup_snoc. }
    assert (Forall (fun i => i < S (cs_fresh s)) (map fst (cs_bufs s ++ [(cs_fresh s, bb)]))) as Hff.
    { rewrite map_app. apply Forall_app. split.
      - eapply Forall_impl; [|exact rc_fresh0]. cbn. lia.
      - cbn. constructor; auto. }
    assert (Forall (fun ib : nat * list Z => snd ib <> []) (cs_bufs s ++ [(cs_fresh s, bb)])) as Hnn.
    { apply Forall_app. split; auto. }
    assert (Forall2 (fun m p => loc (length d) (cs_bufs s ++ [(cs_fresh s, bb)]) m = Some p) (cs_marks s) ps) as Hm.
    { clear - Hps. induction Hps; constructor; auto. now apply loc_app. }
    assert (a_inp a ++ bb = d ++ contents (cs_bufs s ++ [(cs_fresh s, bb)])) as Hin.
    { rewrite rc_inp0, contents_app, contents_cons. cbn [contents]. unfold contents at 3. cbn.
      now rewrite app_nil_r, app_assoc. }
    unfold cs_empty in *. destruct (cs_cur s) as [m|] eqn:Ecur; exists d; constructor; cbn; auto.
    + now apply loc_app.
    + assert (cs_starved s = 0) as Ez.
      { eapply starved0; eauto. }
      rewrite Ez in *. exists ps. split; auto.
    + destruct (rev (cs_marks s)); cbn in *; destruct (cs_bufs s) as [|[i b0] ?]; cbn in *; auto; discriminate.
    + rewrite loc_intro by (auto; cbn; lia). rewrite rc_cur0, rc_inp0, app_length. f_equal. lia.
    + exists (repeat (length (a_inp a)) (cs_starved s) ++ ps). split; [|exact Est].
      apply Forall2_app; auto.
      assert (loc (length d) (cs_bufs s ++ [(cs_fresh s, bb)]) (cs_fresh s, 0) = Some (length (a_inp a))) as Hl.
      { rewrite loc_intro by (auto; cbn; lia). rewrite rc_inp0, app_length. f_equal. lia. }
      clear - Hl. induction (cs_starved s); cbn; constructor; auto.
    + lia.
    + rewrite rev_app_distr. destruct (rev (cs_marks s)) as [|m l] eqn:Er.
      * cbn. cbn in rc_held0. destruct (cs_bufs s) as [|[i b0] ?]; [|discriminate].
        cbn. destruct (cs_starved s) as [|k]; cbn; auto.
        destruct (rev (repeat (cs_fresh s, 0) k) ++ [(cs_fresh s, 0)]) as [|m l] eqn:E2.
        -- now destruct (rev (repeat (cs_fresh s, 0) k)).
        -- assert (In m (rev (repeat (cs_fresh s, 0) k) ++ [(cs_fresh s, 0)])) as Hi by (rewrite E2; now left).
           apply in_app_or in Hi. destruct Hi as [Hi|[<-|[]]]; auto.
           rewrite <- in_rev in Hi. apply repeat_spec in Hi. now subst.
      * cbn. destruct (cs_bufs s) as [|[i b0] ?]; cbn in *; auto; discriminate.
Qed.

Lemma R_cs_advance s a :
  R_cs s a ->
  match cs_advance s, a_advance a with
  | Done s', Done a' => R_cs s' a'
  | Err e, Err e' => e = e'
  | _, _ => False
  end.
Proof.
  intros HR. pose proof (R_cs_empty s a HR) as Hemp. destruct HR as [d H].
  unfold cs_advance, a_advance. rewrite <- Hemp. unfold cs_empty.
  destruct H. destruct (cs_cur s) as [[id off]|] eqn:Ecur; [|reflexivity].
  destruct (loc_split _ _ _ _ _ rc_cur0) as (pre & b & post & E & Hn & Ho & Hp).
  assert (cs_starved s = 0) as Ez.
  { eapply starved0; eauto. }
  destruct rc_stk0 as (ps & Hps & Est).
  rewrite E, buf_find_split by assumption.
  replace (length b <=? off) with false by (symmetry; apply Nat.leb_gt; lia).
  destruct (S off =? length b) eqn:Eend.
  - apply Nat.eqb_eq in Eend. rewrite buf_after_split by assumption.
    assert (NoDup (map fst (pre ++ (id, b) :: post))) as Hnd by (rewrite <- E; auto).
    rewrite map_app in Hnd. cbn in Hnd. destruct (NoDup_mid _ _ _ Hnd) as [_ Hnp].
    (* the new current position *)
    assert (forall base0, base0 = length d + length (contents pre) + length b ->
            match (match hd_id post with Some j => Some (j, 0) | None => None end) with
            | None => S (a_pos a) = length (a_inp a)
            | Some m => loc base0 post m = Some (S (a_pos a))
            end) as Hcur'.
    { intros base0 Hb. destruct post as [|[j b'] post']; cbn.
      - rewrite rc_inp0, E, contents_app, contents_cons. cbn. rewrite !app_length. cbn. lia.
      - rewrite Nat.eqb_refl.
        assert (b' <> []) as Hb'.
        { rewrite E in rc_ne0. apply Forall_app in rc_ne0. destruct rc_ne0 as [_ H0].
          inversion H0 as [|? ? ? H2]; subst. inversion H2; subst. auto. }
        destruct b'; [congruence|]. cbn. f_equal. lia. }
    unfold cs_releases. rewrite E.
    destruct (rev (cs_marks s)) as [|mo lo] eqn:Erev.
    + (* no mark: the front buffer is the current one and goes away *)
      assert (cs_marks s = []) as Em.
      { rewrite <- (rev_involutive (cs_marks s)), Erev. reflexivity. }
      rewrite Em in *. inversion Hps; subst ps.
      destruct pre as [|[i0 b0] pre].
      2:{ cbn in rc_held0. rewrite E in rc_held0. cbn in rc_held0. injection rc_held0 as ->.
          cbn in Hn. tauto. }
      cbn [app] in *. rewrite Nat.eqb_refl. cbn.
      exists (d ++ b). constructor; cbn; auto.
      * rewrite rc_inp0, E, contents_cons. now rewrite app_assoc.
      * now inversion Hnd.
      * rewrite E in rc_fresh0. now inversion rc_fresh0.
      * rewrite E in rc_ne0. now inversion rc_ne0.
      * rewrite app_length. apply Hcur'. cbn. lia.
      * exists []. split; auto.
      * rewrite Ez. intros Hc. lia.
      * destruct post as [|[j b'] post']; reflexivity.
    + replace (match pre ++ (id, b) :: post with
               | [] => false
               | (front, _) :: _ => (front =? id) && negb (let (m, _) := mo in m =? id)
               end) with false.
      2:{ destruct mo as [m mo']. rewrite E in rc_held0.
          destruct pre as [|[i0 b0] pre]; cbn in *.
          - injection rc_held0 as <-. now rewrite Nat.eqb_refl, andb_false_r.
          - destruct (i0 =? id) eqn:Ei; auto. apply Nat.eqb_eq in Ei. tauto. }
      exists d. constructor; cbn; rewrite <- ?E; auto.
      * specialize (Hcur' _ eq_refl).
        destruct (hd_id post) as [j|] eqn:Ej; auto.
        rewrite E. destruct post as [|[j' b'] post']; cbn in Ej; [discriminate|]. injection Ej as ->.
        replace (pre ++ (id, b) :: (j, b') :: post') with ((pre ++ [(id, b)]) ++ (j, b') :: post')
          by (now rewrite <- app_assoc).
        assert (b' <> []) as Hb'.
        { rewrite E in rc_ne0. apply Forall_app in rc_ne0. destruct rc_ne0 as [_ H0].
          inversion H0 as [|? ? ? H2]; subst. inversion H2; subst. auto. }
        rewrite loc_intro.
        -- rewrite contents_app, contents_cons, app_length. cbn. rewrite app_nil_r. f_equal. lia.
        -- rewrite map_app, in_app_iff. cbn. cbn in Hnd.
           replace (map fst pre ++ id :: j :: map fst post')
             with ((map fst pre ++ [id]) ++ j :: map fst post') in Hnd by (now rewrite <- app_assoc).
           apply NoDup_mid in Hnd. destruct Hnd as [Hnd _]. rewrite in_app_iff in Hnd. exact Hnd.
        -- destruct b'; [congruence|cbn; lia].
      * exists ps. auto.
      * rewrite Ez. lia.
      * now rewrite Erev.
  - apply Nat.eqb_neq in Eend. exists d. constructor; cbn; rewrite <- ?E; auto.
    + rewrite E, loc_intro by (auto; lia). f_equal. lia.
    + exists ps. auto.
    + rewrite Ez. lia.
Qed.

(** cleanup when the last mark goes. *)
Lemma Rc_cleanup d s a :
  (* everything of [Rc] but the claim on the first buffer when no mark is left *)
  a_inp a = d ++ contents (cs_bufs s) -> a_fin a = cs_final s ->
  NoDup (map fst (cs_bufs s)) -> Forall (fun i => i < cs_fresh s) (map fst (cs_bufs s)) ->
  Forall (fun ib => snd ib <> []) (cs_bufs s) ->
  match cs_cur s with
  | None => a_pos a = length (a_inp a)
  | Some m => loc (length d) (cs_bufs s) m = Some (a_pos a)
  end ->
  (exists ps, Forall2 (fun m p => loc (length d) (cs_bufs s) m = Some p) (cs_marks s) ps
              /\ a_stk a = repeat (length (a_inp a)) (cs_starved s) ++ ps) ->
  (cs_starved s <> 0 -> cs_cur s = None) ->
  match rev (cs_marks s) with
  | m :: _ => hd_id (cs_bufs s) = Some (fst m)
  | [] => True
  end ->
  exists s', cs_cleanup s = Done s' /\ R_cs s' a.
Proof.
  intros Hinp Hfin Hids Hfr Hne Hcur (ps & Hps & Est) Hst Hheld.
  unfold cs_cleanup. destruct (cs_marks s) as [|m ms] eqn:Em.
  - inversion Hps; subst ps. cbn in Hheld.
    destruct (cs_cur s) as [[id off]|] eqn:Ecur; cbn.
    + destruct (loc_split _ _ _ _ _ Hcur) as (pre & b & post & E & Hn & Ho & Hp).
      rewrite E, buf_drop_split by assumption. cbn. eexists. split; [reflexivity|].
      exists (d ++ contents pre). constructor; cbn -[loc]; auto.
      * rewrite Hinp, E, contents_app. now rewrite app_assoc.
      * rewrite E, map_app in Hids. cbn in Hids. clear - Hids. induction (map fst pre) as [|? ? IH]; auto. apply IH. now inversion Hids.
      * rewrite E, map_app in Hfr. apply Forall_app in Hfr. apply Hfr.
      * rewrite E in Hne. apply Forall_app in Hne. apply Hne.
      * rewrite (loc_intro _ [] id b post off) by auto. rewrite app_length. f_equal. cbn. lia.
      * exists []. split; auto.
    + rewrite buf_drop_none. cbn. eexists. split; [reflexivity|].
      exists (a_inp a). constructor; cbn; auto; try constructor.
      * now rewrite app_nil_r.
      * exists []. split; [constructor|exact Est].
  - eexists. split; [reflexivity|]. exists d. constructor; rewrite ?Em; auto.
    + exists ps. auto.
    + destruct (rev (m :: ms)) eqn:Er; auto. cbn in Er. now destruct (rev ms).
Qed.

Lemma rev_held {A} (l : list A) m (P : A -> Prop) :
  match rev (m :: l) with x :: _ => P x | [] => True end ->
  match rev l with x :: _ => P x | [] => True end.
Proof. cbn. destruct (rev l); cbn; auto. Qed.

Lemma Rc_held_weak d s a (H : Rc d s a) :
  match rev (cs_marks s) with
  | m :: _ => hd_id (cs_bufs s) = Some (fst m)
  | [] => True
  end.
Proof. destruct H. now destruct (rev (cs_marks s)). Qed.

Lemma R_cs_commit s a :
  R_cs s a ->
  match cs_commit s, a_commit a with
  | Done s', Done a' => R_cs s' a'
  | Err e, Err e' => e = e'
  | _, _ => False
  end.
Proof.
  intros [d H]. pose proof (Rc_held_weak _ _ _ H) as Hh. destruct H. unfold cs_commit, a_commit.
  destruct rc_stk0 as (ps & Hps & Est).
  destruct (cs_starved s) as [|k] eqn:Ek.
  - cbn in Est. rewrite Est. destruct (cs_marks s) as [|m ms] eqn:Em.
    + now inversion Hps.
    + inversion Hps as [|? p ? ps' Hl Hps' E1 E2]; subst.
      edestruct (Rc_cleanup d (Cseq (cs_bufs s) (cs_final s) (Some m) ms 0 (cs_fresh s))
                   (Cursor (a_inp a) (a_fin a) p ps')) as (s' & Es & HR); cbn; auto.
      * exists ps'. auto.
      * congruence.
      * apply (rev_held _ m (fun x => hd_id (cs_bufs s) = Some (fst x))). exact Hh.
      * rewrite Es. exact HR.
  - rewrite Est. cbn. exists d. assert (cs_cur s = None) as Ec by (apply rc_starved0; lia).
    rewrite Ec in *. constructor; cbn; auto; rewrite ?Ec; auto.
    exists ps. auto.
Qed.

Lemma R_cs_cancel s a :
  R_cs s a ->
  match cs_cancel s, a_cancel a with
  | Done s', Done a' => R_cs s' a'
  | Err e, Err e' => e = e'
  | _, _ => False
  end.
Proof.
  intros [d H]. pose proof (Rc_held_weak _ _ _ H) as Hh. destruct H. unfold cs_cancel, a_cancel.
  destruct rc_stk0 as (ps & Hps & Est).
  destruct (cs_starved s) as [|k] eqn:Ek.
  - cbn in Est. rewrite Est. destruct (cs_marks s) as [|m ms] eqn:Em.
    + now inversion Hps.
    + inversion Hps as [|? p ? ps' Hl Hps' E1 E2]; subst.
      edestruct (Rc_cleanup d (Cseq (cs_bufs s) (cs_final s) (cs_cur s) ms 0 (cs_fresh s))
                   (Cursor (a_inp a) (a_fin a) (a_pos a) ps')) as (s' & Es & HR); cbn; auto.
      * exists ps'. auto.
      * apply (rev_held _ m (fun x => hd_id (cs_bufs s) = Some (fst x))). exact Hh.
      * rewrite Es. exact HR.
  - rewrite Est. cbn. exists d. assert (cs_cur s = None) as Ec by (apply rc_starved0; lia).
    rewrite Ec in *. constructor; cbn; auto; rewrite ?Ec; auto.
    exists ps. auto.
Qed.

Lemma R_cs_init : R_cs cs_make (Cursor [] false 0 []).
Proof.
  exists []. constructor; cbn; auto; try constructor. exists []. split; auto.
Qed.

(** ** SingleForwardDataSource *)

Definition R_sf (s : sfwd) (a : cursor) : Prop :=
  a_fin a = true /\ a_pos a <= length (a_inp a) /\ sf_cur s = skipn (a_pos a) (a_inp a) /\
  sf_stack s = map (fun p => skipn p (a_inp a)) (a_stk a) /\
  Forall (fun p => p <= length (a_inp a)) (a_stk a).

Lemma R_sf_init l : R_sf (sf_make l) (Cursor l true 0 []).
Proof. repeat split; cbn; auto; lia. Qed.

Lemma skipn_empty {A} (l : list A) n :
  n <= length l ->
  (match skipn n l with [] => true | _ => false end) = (length l <=? n).
Proof.
  revert n. induction l as [|x l IH]; intros [|n] H; cbn in *; auto; try lia.
  apply IH. lia.
Qed.

Lemma R_sf_empty s a : R_sf s a -> sf_empty s = a_empty a.
Proof.
  intros (Hf & Hp & Hc & _). unfold sf_empty, a_empty. rewrite Hc. now apply skipn_empty.
Qed.

Lemma nth_error_skipn {A} (l : list A) n :
  nth_error l n = match skipn n l with [] => None | x :: _ => Some x end.
Proof. revert n. induction l; intros [|n]; cbn; auto. Qed.

Lemma R_sf_next s a : R_sf s a -> sf_next s = a_next a.
Proof.
  intros (Hf & Hp & Hc & _). unfold sf_next, a_next. rewrite Hc, nth_error_skipn.
  now destruct (skipn (a_pos a) (a_inp a)).
Qed.

Lemma skipn_S {A} (l : list A) n : skipn (S n) l = tl (skipn n l).
Proof. revert n. induction l as [|x l IH]; intros [|n]; auto. apply (IH n). Qed.

Lemma R_sf_advance s a :
  R_sf s a ->
  match sf_advance s, a_advance a with
  | Done s', Done a' => R_sf s' a'
  | Err e, Err e' => e = e'
  | _, _ => False
  end.
Proof.
  intros H. pose proof (R_sf_empty _ _ H) as He. destruct H as (Hf & Hp & Hc & Hs & Hb).
  unfold sf_advance, a_advance. unfold sf_empty in He. rewrite <- He.
  destruct (sf_cur s) as [|x t] eqn:E; [reflexivity|].
  repeat split; cbn -[skipn]; auto.
  - unfold a_empty in He. symmetry in He. apply Nat.leb_gt in He. lia.
  - rewrite skipn_S, <- Hc. reflexivity.
Qed.

Lemma R_sf_prepare s a : R_sf s a -> R_sf (sf_prepare s) (a_prepare a).
Proof.
  intros (Hf & Hp & Hc & Hs & Hb). repeat split; cbn; auto. now rewrite Hs, Hc.
Qed.

Lemma R_sf_commit s a :
  R_sf s a ->
  match sf_commit s, a_commit a with
  | Done s', Done a' => R_sf s' a'
  | Err e, Err e' => e = e'
  | _, _ => False
  end.
Proof.
  intros (Hf & Hp & Hc & Hs & Hb). unfold sf_commit, a_commit. rewrite Hs.
  destruct (a_stk a) as [|p st]; cbn; auto. inversion Hb; subst. repeat split; cbn; auto.
Qed.

Lemma R_sf_cancel s a :
  R_sf s a ->
  match sf_cancel s, a_cancel a with
  | Done s', Done a' => R_sf s' a'
  | Err e, Err e' => e = e'
  | _, _ => False
  end.
Proof.
  intros (Hf & Hp & Hc & Hs & Hb). unfold sf_cancel, a_cancel. rewrite Hs.
  destruct (a_stk a) as [|p st]; cbn; auto. inversion Hb; subst. repeat split; cbn; auto.
Qed.
