(** The patterns of the user guide. *)
From Coq Require Import String List ZArith Bool Arith Lia.
From Verif Require Import Base CharSet Source Dst Pattern Parser Session SpecSession SpecPeg SpecRun SpecValue SpecCollect SpecSkip SpecLeaf SpecText SpecGuide.
From Verif Require Import Rel Big BigLeaf Leaf PegSound Comb Local LocalThms Unary Group LeafThms Fill Atomic Collect Element Quiet Gather Under RoundTrip StreamThms Demo.
Import ListNotations.

Section Guide.
Context (env : nat -> option pat).
Hypothesis Hmok : forall id q, env id = Some q -> mok true recur_req q = true.
Hypothesis Hplain : forall id q, env id = Some q -> plain q = true.
Let Hub : all_unbound env := env_unbound env Hplain.

Definition nobody (_ : nat) : bool := false.
Lemma nobody_fills : forall id q, env id = Some q -> nobody id = true -> fills nobody q = true.
Proof. discriminate. Qed.

(** *q into a collection, place included. *)
Lemma star_appends sk q e l s ys s1 k1 k2 : storable nobody (TColl e) q -> steady (under sk q) = true ->
  mok false default_req (under sk (star q)) = true ->
  elements env (under sk q) e s ys s1 k1 -> no_element env (under sk q) e s1 k2 ->
  does env (under sk (star q)) (TColl e) (VColl l) s SUCCESS s1 (VColl (l ++ ys)) (k1 ++ k2).
Proof.
  intros Hf Hs Hm He (s2 & x & Hx). unfold star in *.
  apply (repeat_elems_place env Hmok Hub Hplain nobody nobody_fills sk (TColl e) 0 0 q (VColl l) s true); auto using storable_fits.
  apply (rpt_stop (appends env (under sk q) (TColl e)) (refuses env (under sk q) (TColl e)) 0 0 (back_unless_fixed 0 0) (VColl l) s (length ys) s1 (VColl (l ++ ys)) k1 s2 (VColl (l ++ ys)) k2 s1); auto.
  - now apply elements_matches.
  - exists x. split; [exact Hx|reflexivity].
  - reflexivity.
Qed.

Lemma star_appends_bare q e l s ys s1 k1 k2 : storable nobody (TColl e) q -> steady q = true ->
  mok false default_req (star q) = true ->
  elements env q e s ys s1 k1 -> no_element env q e s1 k2 ->
  does env (star q) (TColl e) (VColl l) s SUCCESS s1 (VColl (l ++ ys)) (k1 ++ k2).
Proof.
  intros Hf Hs Hm He Hn. apply does_bare. apply star_appends; auto.
  - cbn. now rewrite Hs, orb_true_r.
  - clear Hn. induction He; [constructor|]. econstructor; eauto. now apply does_bare.
  - destruct Hn as (s2 & x & Hx). exists s2, x. now apply does_bare.
Qed.

(** ** Numbers of fixed width *)
Section Fields.
Context (b : Z) (K : nat) (sg : bool) (w : Z).
Hypothesis Hb : (2 <= b <= 35)%Z.
Hypothesis HK : 1 <= K.
Hypothesis Hw : (1 <= w)%Z.
Let q := UInt b (Z.of_nat K) (Z.of_nat K).

Lemma digits_app g s : Forall (fun z => is_digit b z = true) g -> digits b (g ++ s) = length g + digits b s.
Proof. induction 1; cbn; auto. rewrite H. now rewrite IHForall. Qed.
Lemma digits_none s : no_digit b s -> digits b s = 0.
Proof. destruct s; cbn; auto. now intros ->. Qed.

Lemma one_field g s v : field b K g -> Forall (tok ct_char) (g ++ s) -> safe sg w (value b g) ->
  does env q (TNum sg w) v (g ++ s) SUCCESS s (VNum (wrap sg w (value b g))) [].
Proof.
  intros [Hg Hd] Ht Hs. assert (taken b (Z.of_nat K) (g ++ s) = K) as E.
  { unfold taken. rewrite (proj2 (Z.ltb_lt 0 (Z.of_nat K))) by lia. rewrite digits_app, Nat2Z.id by auto. lia. }
  unfold q. apply does_uint; auto; [right; lia|]. rewrite E, <- Hg, firstn_app, skipn_app, Nat.sub_diag, firstn_all, skipn_all, app_nil_r.
  rewrite Z.leb_refl. auto.
Qed.

Lemma short_field g s v : Forall (fun z => is_digit b z = true) g -> length g < K -> no_digit b s -> Forall (tok ct_char) (g ++ s) ->
  safe sg w (value b g) -> does env q (TNum sg w) v (g ++ s) FAILURE s (VNum (wrap sg w (value b g))) [].
Proof.
  intros Hd Hg Hn Ht Hs. assert (taken b (Z.of_nat K) (g ++ s) = length g) as E.
  { unfold taken. rewrite (proj2 (Z.ltb_lt 0 (Z.of_nat K))) by lia. rewrite digits_app, Nat2Z.id, (digits_none s) by auto. lia. }
  unfold q. apply does_uint; auto; [right; lia|]. rewrite E, firstn_app, skipn_app, Nat.sub_diag, firstn_all, skipn_all, app_nil_r.
  rewrite (proj2 (Z.leb_gt _ _)) by lia. auto.
Qed.

Theorem fields_read gs short rest l0 : Forall (field b K) gs ->
  Forall (fun z => is_digit b z = true) short -> length short < K -> no_digit b rest ->
  Forall (tok ct_char) (concat gs ++ short ++ rest) -> Forall (fun g => safe sg w (value b g)) (short :: gs) ->
  does env (star q) (TColl (TNum sg w)) (ints l0) (concat gs ++ short ++ rest) SUCCESS (short ++ rest)
    (ints (l0 ++ map (fun g => wrap sg w (value b g)) gs)) [].
Proof.
  intros Hgs Hsh Hlen Hn Ht Hs. inversion Hs as [|x y Hs0 Hs1]; subst.
  replace (ints (l0 ++ map (fun g => wrap sg w (value b g)) gs)) with (VColl (map VNum l0 ++ map (fun g => VNum (wrap sg w (value b g))) gs)).
  2: { unfold ints. now rewrite map_app, map_map. }
  apply (star_appends_bare q (TNum sg w) (map VNum l0) _ _ _ [] []); try reflexivity.
  - split; [reflexivity|]. right. cbn. split; [discriminate|]. split; [now apply Z.leb_le|reflexivity].
  - revert Ht. induction Hgs as [|g gs Hg Hgs IH]; cbn [concat map]; intros Ht; [constructor|].
    rewrite <- app_assoc in *. inversion Hs1; subst.
    apply els_one with (k1 := []) (k := []) (s1 := concat gs ++ short ++ rest) (x := VNum (wrap sg w (value b g))).
    + now apply one_field.
    + cbn. now rewrite wrap_id by (auto; now apply wrap_range).
    + apply IH; auto. apply Forall_app in Ht. tauto.
  - exists rest, (VNum (wrap sg w (value b short))). apply short_field; auto. apply Forall_app in Ht. tauto.
Qed.

(** Every text is fields, a shorter one and something else. *)
Theorem fields_exist s : exists gs short rest, s = concat gs ++ short ++ rest /\ Forall (field b K) gs /\
  Forall (fun z => is_digit b z = true) short /\ length short < K /\ no_digit b rest.
Proof.
  remember (length s) as n eqn:Hn. assert (length s <= n) as Hle by lia. clear Hn. revert s Hle.
  induction n as [|n IH]; intros s Hle.
  - destruct s; [|cbn in Hle; lia]. exists [], [], []. cbn. repeat split; auto.
  - assert (exists ds rest, s = ds ++ rest /\ Forall (fun z => is_digit b z = true) ds /\ no_digit b rest) as (ds & rest & E & Hd & Hr).
    { clear. induction s as [|z s (ds & rest & -> & A & B)]; [exists [], []; cbn; auto|].
      destruct (is_digit b z) eqn:E; [exists (z :: ds), rest; cbn; auto|exists [], (z :: ds ++ rest); cbn; auto]. }
    destruct (le_lt_dec K (length ds)) as [HL|HL].
    + destruct (IH (skipn K s)) as (gs & short & rest' & E' & A & B & C & D); [rewrite skipn_length; lia|].
      exists (firstn K s :: gs), short, rest'. cbn [concat]. rewrite <- app_assoc, <- E', firstn_skipn. repeat split; auto.
      constructor; auto. subst s. rewrite firstn_app. replace (K - length ds) with 0 by lia. rewrite firstn_O, app_nil_r. split; [rewrite firstn_length; lia|].
      rewrite <- (firstn_skipn K ds) in Hd. apply Forall_app in Hd. tauto.
    + exists [], ds, rest. cbn. auto.
Qed.
End Fields.

(** ** Characters through a function *)
Section Transducer.
Context (T : char_ty) (cs : charset) (sl : bool) (wl : Z) (sg : bool) (w : Z) (id : nat) (g : val -> val -> val * val) (f : Z -> Z).
Hypothesis HT : ct_ok T.
Hypothesis Hcs : cs_fits T cs = true.
Hypothesis Hw : (1 <= w)%Z.
Hypothesis Hwl : (1 <= wl)%Z.
Hypothesis Hf : forall z, fst (g (VNum z) VNil) = VNum (f z).
Let a := Action_ id (TNum sl wl) false false g.

Theorem transduced xs rest l0 : word cs xs -> stops cs rest -> Forall (tok T) (xs ++ rest) ->
  does env (star (Act a (Char cs))) (TColl (TNum sg w)) (ints l0) (xs ++ rest) SUCCESS rest
    (ints (l0 ++ map (fun z => wrap sg w (f (wrap sl wl z))) xs)) (map (fun z => Event id (VNum (wrap sl wl z))) xs).
Proof.
  intros Hx Hr Ht.
  replace (ints (l0 ++ map (fun z => wrap sg w (f (wrap sl wl z))) xs)) with (VColl (map VNum l0 ++ map (fun z => VNum (wrap sg w (f (wrap sl wl z)))) xs)).
  2: { unfold ints. now rewrite map_app, map_map. }
  rewrite <- (app_nil_r (map (fun z => Event id _) xs)).
  apply star_appends_bare; try reflexivity.
  - split; [reflexivity|]. right. cbn. split; [discriminate|]. split; [now apply Z.leb_le|reflexivity].
  - induction Hx as [|z xs Hz Hx IH]; cbn [map app]; [constructor|]. inversion Ht; subst.
    apply els_one with (k1 := [Event id (VNum (wrap sl wl z))]) (s1 := xs ++ rest) (x := VNum (wrap sg w (f (wrap sl wl z)))).
    + apply does_act; auto. right. split; auto. exists (VNum (wrap sl wl z)), (VNum (wrap sl wl z)), []. split; [|split; [|split; [|reflexivity]]].
      * eapply does_char; eauto. split; auto. left. split; auto. exists z. repeat split; auto. constructor; try discriminate. reflexivity.
      * cbn. now rewrite wrap_id by (auto; now apply wrap_range).
      * destruct (g (VNum (wrap sl wl z)) VNil) as [r0 b0] eqn:E. apply (cal_value a _ _ _ r0 b0); auto.
        pose proof (Hf (wrap sl wl z)) as E2. rewrite E in E2. cbn in E2. subst r0. constructor; try discriminate. reflexivity.
    + cbn. now rewrite wrap_id by (auto; now apply wrap_range).
    + now apply IH.
  - exists rest, (default_init (TNum sg w)). apply does_act; auto. left. split; auto. split; auto. exists (default_init (TNum sl wl)).
    apply (does_char env T); auto; [apply Forall_app in Ht; apply Ht|]. split; [reflexivity|]. right. auto.
Qed.
End Transducer.

(** ** Words *)
Section Words.
Context (cs bs : charset).
Hypothesis Hcs : cs_fits ct_char cs = true.
Hypothesis Hbs : cs_fits ct_char bs = true.
Let sk := Char bs.

Lemma skip_set b rest : word bs b -> Forall (tok ct_char) (b ++ rest) -> stops bs rest -> skipped env sk (b ++ rest) rest.
Proof.
  intros Hb. induction Hb as [|z b Hz Hb IH]; cbn [app]; intros Ht Hr.
  - apply skd_end with rest. apply (does_char env ct_char); auto using ct_char_ok. split; [reflexivity|]. right. auto.
  - apply skd_more with (b ++ rest).
    + apply (does_char env ct_char); auto using ct_char_ok. split; [reflexivity|]. left. split; [reflexivity|]. exists z. repeat split; auto. constructor.
    + inversion Ht; subst. auto.
Qed.

Context (sg : bool) (w : Z).
Hypothesis Hw : (1 <= w)%Z.
Let e := TNum sg w.

Lemma char_storable : storable nobody (TColl e) (Char cs).
Proof. split; [reflexivity|]. right. cbn. split; [discriminate|]. split; [now apply Z.leb_le|reflexivity]. Qed.

(** The characters, as the destination holds them. *)
Definition kept (l : list Z) : list Z := map (wrap sg w) l.

Lemma char_here z v rest : in_set cs z -> Forall (tok ct_char) (z :: rest) ->
  does env (Char cs) e v (z :: rest) SUCCESS rest (VNum (wrap sg w z)) [].
Proof.
  intros Hz Ht. apply (does_char env ct_char); auto using ct_char_ok. split; [reflexivity|]. left. split; [reflexivity|]. exists z. repeat split; auto.
  constructor; try discriminate. reflexivity.
Qed.
Lemma char_not_here v rest : stops cs rest -> Forall (tok ct_char) rest -> does env (Char cs) e v rest FAILURE rest v [].
Proof. intros Hr Ht. apply (does_char env ct_char); auto using ct_char_ok. split; [reflexivity|]. right. auto. Qed.

(** *char_(cs) on its own. *)
Theorem word_read xs rest l0 : word cs xs -> stops cs rest -> Forall (tok ct_char) (xs ++ rest) ->
  does env (star (Char cs)) (TColl e) (ints l0) (xs ++ rest) SUCCESS rest (ints (l0 ++ kept xs)) [].
Proof.
  intros Hx Hr Ht.
  replace (ints (l0 ++ kept xs)) with (VColl (map VNum l0 ++ map (fun z => VNum (wrap sg w z)) xs)).
  2: { unfold ints, kept. now rewrite map_app, map_map. }
  apply (star_appends_bare (Char cs) e (map VNum l0) _ _ _ [] []); try reflexivity; [exact char_storable| |].
  - induction Hx as [|z xs Hz Hx IH]; cbn [map app]; [constructor|]. inversion Ht; subst.
    apply els_one with (k1 := []) (k := []) (s1 := xs ++ rest) (x := VNum (wrap sg w z)); auto.
    + now apply char_here.
    + cbn. now rewrite wrap_id by (auto; now apply wrap_range).
  - eexists _, _. apply char_not_here; auto. apply Forall_app in Ht. tauto.
Qed.

(** lexeme( *char_(cs)). *)
Theorem word_under b xs rest l0 : word bs b -> word cs xs -> stops cs rest -> stops bs (xs ++ rest) -> Forall (tok ct_char) (b ++ xs ++ rest) ->
  does env (under sk (Lexeme (star (Char cs)))) (TColl e) (ints l0) (b ++ xs ++ rest) SUCCESS rest (ints (l0 ++ kept xs)) [].
Proof.
  intros Hb Hx Hr Hs Ht. apply (lexeme_under env Hmok sk (star (Char cs)) _ _ _ true); try reflexivity.
  exists (xs ++ rest). split; [now apply skip_set|]. apply word_read; auto. apply Forall_app in Ht. tauto.
Qed.

(** Without lexeme, words run together. *)
Theorem words_under s xs rest l0 : sifted cs bs s xs -> apart cs bs -> stops cs rest -> stops bs rest -> Forall (tok ct_char) (s ++ rest) ->
  exists s', does env (under sk (star (Char cs))) (TColl e) (ints l0) (s ++ rest) SUCCESS s' (ints (l0 ++ kept xs)) [].
Proof.
  intros Hx Hap Hr Hs Ht.
  apply (repeat_appends env Hmok Hplain nobody nobody_fills sk 0 0 (Char cs) e (map VNum l0) (s ++ rest) true); [exact char_storable|reflexivity|].
  assert (exists b s1, Forall (in_set bs) b /\ s1 = b ++ rest /\ Forall (tok ct_char) s1 /\ elements env (under sk (Char cs)) e (s ++ rest) (map (fun z => VNum (wrap sg w z)) xs) s1 []) as (b & s1 & Hb & E & Ht1 & He).
  { assert (forall s xs, sifted cs bs s xs -> forall b, word bs b -> Forall (tok ct_char) (b ++ s ++ rest) -> exists b1 s1, Forall (in_set bs) b1 /\ s1 = b1 ++ rest /\ Forall (tok ct_char) s1 /\
      elements env (under sk (Char cs)) e (b ++ s ++ rest) (map (fun z => VNum (wrap sg w z)) xs) s1 []) as HX; [|now apply (HX s xs Hx []); [constructor|]].
    clear s xs Hx Ht. induction 1 as [|z s xs Hz Hx IH|z s xs Hz Hx IH]; intros b Hb Ht.
    - exists b, (b ++ rest). cbn [app map] in *. repeat split; auto. constructor.
    - destruct (IH [] ltac:(constructor)) as (b1 & s1 & A & B & C & D); [rewrite Forall_app in Ht; destruct Ht as [_ Ht]; now inversion Ht|].
      exists b1, s1. repeat split; auto. cbn [map app] in *.
      apply els_one with (k1 := []) (k := []) (s1 := s ++ rest) (x := VNum (wrap sg w z)); auto.
      + apply (leaf_under env Hmok sk (Char cs) _ _ _ true); try reflexivity. exists (z :: s ++ rest). split.
        * apply skip_set; auto. intros y l E. injection E as <- _. now apply Hap.
        * apply char_here; auto. apply Forall_app in Ht. tauto.
      + cbn. now rewrite wrap_id by (auto; now apply wrap_range).
    - replace (b ++ (z :: s) ++ rest) with ((b ++ [z]) ++ s ++ rest) in * by (now rewrite <- app_assoc). apply IH; auto.
      apply Forall_app. split; auto. }
  exists (map (fun z => VNum (wrap sg w z)) xs), s1, [], []. split; [unfold ints, kept; now rewrite map_app, map_map|].
  split; [reflexivity|]. split; [exact He|]. right. split; [now left|]. split; [reflexivity|].
  exists rest, (default_init e). apply (leaf_under env Hmok sk (Char cs) _ _ _ false); try reflexivity. exists rest. subst s1. split; [now apply skip_set|].
  apply char_not_here; auto. apply Forall_app in Ht1. tauto.
Qed.

(** A number behind white space. *)
Lemma number_under b ds rest v : word bs b -> (forall z, is_digit 10 z = true -> ~ in_set bs z) ->
  ds <> [] -> Forall (fun z => is_digit 10 z = true) ds -> no_digit 10 rest ->
  Forall (tok ct_char) (b ++ ds ++ rest) -> safe sg w (value 10 ds) ->
  does env (under sk uint_) e v (b ++ ds ++ rest) SUCCESS rest (VNum (wrap sg w (value 10 ds))) [].
Proof.
  intros Hb Hd Hne Hds Hn Ht Hs. apply (leaf_under env Hmok sk uint_ _ _ _ true); try reflexivity. exists (ds ++ rest). split.
  - apply skip_set; auto. destruct ds as [|z ds]; [congruence|]. intros y l E. injection E as <- _. inversion Hds; auto.
  - apply Forall_app in Ht. destruct Ht as [_ Ht]. assert (taken 10 0 (ds ++ rest) = length ds) as E.
    { unfold taken. cbn [Z.ltb Z.compare]. rewrite digits_app, (digits_none 10 rest) by auto. lia. }
    unfold uint_. apply does_uint; auto; [lia|lia|]. rewrite E, firstn_app, skipn_app, Nat.sub_diag, firstn_all, skipn_all, app_nil_r.
    rewrite (proj2 (Z.leb_le _ _)); auto. destruct ds; [congruence|cbn; lia].
Qed.
End Words.

Lemma sblk_unbound p : forall rq, sblk rq p = true -> unbound p = true.
Proof.
  induction p using pat_ind'; intros rq Hs; try discriminate; auto; cbn [sblk unbound] in *.
  - destruct l as [|q l]; [discriminate|]. apply andb_prop in Hs as [_ Hs]. rewrite forallb_forall in *. rewrite Forall_forall in H. eauto.
  - destruct l as [|q l]; [discriminate|]. rewrite forallb_forall in *. rewrite Forall_forall in H. eauto.
  - apply andb_prop in Hs as [_ Hs]. eauto.
  - eauto.
  - eauto.
  - apply andb_prop in Hs as [H1 H2]. apply andb_true_iff. eauto.
Qed.
(** apply_skipper(p, sk) in front of a leaf is an ignored repetition of [sk] in front of it. *)
Lemma silent sk s r s' v k : is_fail sk || sfree sk = true -> does env sk TNil VNil s r s' v k -> k = [] /\ v = VNil.
Proof.
  intros Hs H. assert (sfree sk = true) as Hf by (destruct (is_fail sk) eqn:E; [destruct sk; try discriminate|]; auto).
  pose proof (checks_skip env Hmok sk s Hf) as H2. destruct (does_fun _ _ _ _ _ _ _ _ _ _ _ _ _ H H2) as (_ & _ & A & B). auto.
Qed.
Lemma star_skipped sk s s' k : is_fail sk || sfree sk = true -> steady sk = true ->
  (does env (star sk) TNil VNil s SUCCESS s' VNil k <-> k = [] /\ skipped env sk s s').
Proof.
  intros Hs Hst. assert (mok false default_req (under Fail (star sk)) = true) as Hm.
  { cbn. destruct (is_fail sk) eqn:E; [destruct sk; try discriminate; reflexivity|]. now apply sfree_mok. }
  assert (steady (under Fail sk) = true) as Hst' by (cbn; now rewrite Hst, orb_true_r).
  assert (storable nobody TNil sk) as Hsto.
  { split; [|now left]. destruct (is_fail sk) eqn:E; [destruct sk; try discriminate; reflexivity|]. clear -Hs. cbn in Hs.
    apply (sblk_unbound sk skip_req). now apply sfree_blk. }
  rewrite <- does_bare. unfold star.
  rewrite (repeat_elems_place env Hmok Hub Hplain nobody nobody_fills Fail TNil 0 0 sk VNil s true s' VNil k) by auto using storable_fits.
  split.
  - intros H. inversion H as [? ? ? A|n s1 v1 k1 s2 v2 k2 s3 A B C D E1 E2 E3 E4]; subst; [congruence|].
    destruct C as (x & Hx & _). unfold back_unless_fixed in D. cbn in D. subst s'. clear H A.
    apply (proj1 (does_bare _ _ _ _ _ _ _ _ _)) in Hx. destruct (silent _ _ _ _ _ _ Hs Hx) as [-> ->].
    assert (forall v s n s' v' k, matches (appends env (under Fail sk) TNil) v s n s' v' k -> v = VNil -> skipped env sk s' s1 -> k = [] /\ skipped env sk s s1) as HX.
    { clear -Hs Hmok. induction 1 as [|v s s1' k1 v1 n s' v' k H H0 IH]; intros Ev HS; auto.
      destruct H as (x & Hx & Hst). inversion Hst; subst; try congruence. apply (proj1 (does_bare _ _ _ _ _ _ _ _ _)) in Hx.
      destruct (silent _ _ _ _ _ _ Hs Hx) as [-> ->]. destruct IH as [-> IH]; auto. split; auto. eapply skd_more; [exact Hx|exact IH]. }
    rewrite app_nil_r. eapply HX; [exact B|reflexivity|]. eapply skd_end; exact Hx.
  - intros [-> H]. assert (exists n s2, matches (appends env (under Fail sk) TNil) VNil s n s' VNil [] /\ checks env sk FAILURE s' s2 []) as (n & s2 & A & B).
    { induction H as [s s1 H|s s1 s' H H0 (n & s2 & A & B)].
      - exists 0, s1. split; [constructor|exact H].
      - exists (S n), s2. split; [|exact B]. apply (mat_one _ VNil s s1 [] VNil n s' VNil []); [|exact A]. exists VNil. split; [now apply does_bare|constructor]. }
    apply (rpt_stop (appends env (under Fail sk) TNil) (refuses env (under Fail sk) TNil) 0 0 (back_unless_fixed 0 0) VNil s n s' VNil [] s2 VNil [] s'); auto.
    + exists VNil. split; [now apply does_bare|reflexivity].
    + reflexivity.
Qed.

Theorem skipper_is_prefix sk p t v s r s' v' k : leaf p = true -> ignores p = false -> is_fail sk || sfree sk = true -> steady sk = true -> Unary.one t ->
  (does env (under sk p) t v s (res r) s' v' k <-> does env (Seq [Discard (star sk); p]) t v s (res r) s' v' k).
Proof.
  intros Hp Hi Hs Hst Ht. rewrite leaf_under by auto.
  assert (unbound sk = true) as Hu.
  { destruct (is_fail sk) eqn:E; [destruct sk; try discriminate; reflexivity|]. clear -Hs. cbn in Hs.
    apply (sblk_unbound sk skip_req). now apply sfree_blk. }
  rewrite (seq_one env Hub [Discard (star sk); p]); auto; [|discriminate|cbn; rewrite Hu; destruct p; try discriminate Hp; reflexivity]. split.
  - intros (s0 & A & B). apply (chn_quiet env (Discard (star sk)) [p] t v s s0 VNil []); [reflexivity| |].
    + apply does_discard; auto. split; auto. now apply star_skipped.
    + rewrite <- (app_nil_r k). destruct r; [eapply chn_next; eauto; constructor|rewrite app_nil_r; eapply chn_no; eauto].
  - intros H. remember (res r) as r0 eqn:Er. inversion H as [|q l t0 v0 s0 s1 v1 k0 A B|q l t0 v0 s0 s1 v1 k1 r1 s2 v2 k2 A B C|q l t0 v0 s0 s1 v1 k0 A B|q l t0 v0 s0 s1 v1 k1 r1 s2 v2 k2 A B C]; subst; try discriminate.
    + exfalso. apply does_discard in B; auto. destruct B as [_ (n & wd & E & _)].
      assert (SUCCESS = FAILURE) by (symmetry; eapply star_never_fails; eauto). discriminate.
    + apply does_discard in B; auto. destruct B as [-> B].
      apply star_skipped in B; auto. destruct B as [-> B]. exists s1. split; auto. cbn [app].
      inversion C as [|q l t0 v0 s0 s3 v3 k0 A' B'|q l t0 v0 s0 s3 v3 k1 r1 s4 v4 k3 A' B' C'|q l t0 v0 s0 s3 v3 k0 A' B'|q l t0 v0 s0 s3 v3 k1 r1 s4 v4 k3 A' B' C']; subst; try congruence.
      inversion C'; subst. now rewrite app_nil_r.
Qed.
End Guide.
