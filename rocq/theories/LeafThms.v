(** What parse() of a leaf does. *)
From Coq Require Import Decimal DecimalZ DecimalPos.
From Coq Require Import List ZArith Bool Arith Lia.
From Verif Require Import Base CharSet Source Dst Pattern Parser Session Rel Safety Keep Limit Big BigMk BigLeaf.
From Verif Require Import SpecPeg Leaf PegSound SpecSession SpecRun Run SpecValue LocalThms Unary SpecLeaf.
Import ListNotations.

Section LeafThms.
Context (env : nat -> option pat).

(** ** From the outcome to [does] *)

Lemma evt_does t v p inp r s c k :
  evt (fun n => parse env n t v p inp) (Done (r, W s [] c k)) ->
  forall r' s' v' k', does env p t v inp r' s' v' k' <-> r' = r /\ s' = s /\ [v'] = c /\ k' = rev k.
Proof.
  intros [n0 H] r' s' v' k'. split.
  - intros D. apply does_more in D. destruct D as (n1 & w & H1 & A & B & D).
    specialize (H (max n0 n1) ltac:(lia)). rewrite H1 in H by lia. injection H as -> ->. cbn in *.
    rewrite D, rev_involutive. auto.
  - intros (-> & -> & <- & ->). exists n0, (W s [] [v'] k). split; [auto|]. cbn. rewrite rev_involutive. auto.
Qed.

Lemma evt_wrong t v p inp e :
  evt (fun n => parse env n t v p inp) (Err e) -> forall r' s' v' k', ~ does env p t v inp r' s' v' k'.
Proof.
  intros [n0 H] r' s' v' k' D. apply does_more in D. destruct D as (n1 & w & H1 & _).
  specialize (H (max n0 n1) ltac:(lia)). rewrite H1 in H by lia. discriminate.
Qed.

(** A parser whose construction leaves this object and these cells. *)
Lemma evt_parse t v p inp st c o :
  top_create sf_ops t p (W inp [] [v] []) = Done (st, W inp [] c []) ->
  evt (fun n => strip (consume sf_ops env n (top_ctx t) default_req (top_dst t) p st (W inp [] c []))) o ->
  evt (fun n => parse env n t v p inp) o.
Proof.
  intros H [n0 H0]. exists n0. intros n Hn. unfold parse, top_run, top_consume, bind.
  change (sf_make inp) with (Sfwd inp []). rewrite H. exact (H0 n Hn).
Qed.

(** ** Literals *)

Lemma lit_run_stop l : forall s,
  match lit_run l s with
  | (true, t) => s = l ++ t
  | (false, t) => exists k x l', l = k ++ x :: l' /\ s = k ++ t /\ forall y r, t = y :: r -> y <> x
  end.
Proof.
  induction l as [|x l IH]; intros s; [reflexivity|]. destruct s as [|y s]; cbn.
  - exists [], x, l. repeat split; auto. discriminate.
  - destruct (Z.eqb_spec y x) as [->|N].
    + specialize (IH s). destruct (lit_run l s) as [[] t]; [congruence|].
      destruct IH as (k & x' & l' & -> & -> & H). exists (x :: k), x', l'. auto.
    + exists [], x, l. repeat split; auto. intros y' r [= <- <-]. auto.
Qed.

Lemma lit_split l s k x l' t : l = k ++ x :: l' -> s = k ++ t -> (forall y r, t = y :: r -> y <> x) ->
  lit_run l s = (false, t).
Proof.
  intros -> -> H. induction k as [|y k IH]; cbn.
  - destruct t as [|y r]; auto. destruct (Z.eqb_spec y x); auto. destruct (H y r eq_refl). auto.
  - now rewrite Z.eqb_refl.
Qed.

Lemma lit_prefix l t : lit_run l (l ++ t) = (true, t).
Proof. induction l as [|x l IH]; cbn; [reflexivity|]. now rewrite Z.eqb_refl. Qed.

Theorem does_lit l t v inp r s v' k :
  does env (Lit l) t v inp r s v' k <->
  v' = v /\ k = [] /\
  ((r = SUCCESS /\ inp = l ++ s) \/
   (r = FAILURE /\ exists a x b, l = a ++ x :: b /\ inp = a ++ s /\ forall y rest, s = y :: rest -> y <> x)).
Proof.
  pose proof (lit_leaf env (top_ctx t) default_req (top_dst t) l [] [v] [] l inp) as H.
  destruct (lit_run l inp) as [b s0] eqn:E.
  pose proof (evt_does _ _ _ _ _ _ _ _ (evt_parse t v (Lit l) inp (PLit l) [v] _ eq_refl H)) as D.
  rewrite D. cbn [rev]. pose proof (lit_run_stop l inp) as HS. rewrite E in HS. split.
  - intros (-> & -> & [= ->] & ->). repeat split. destruct b; [left|right]; auto.
  - intros (-> & -> & [[-> ->]|(-> & a & x & b' & E1 & E2 & E3)]).
    + rewrite lit_prefix in E. injection E as <- <-. auto.
    + rewrite (lit_split l inp a x b' s E1 E2 E3) in E. injection E as <- <-. auto.
Qed.

(** ** Characters *)

Definition char_out (cs : charset) (t : ty) (v : val) (inp : list Z) : outcome (result * world sfwd) :=
  match inp with
  | [] => Done (FAILURE, W [] [] [v] [])
  | z :: rest =>
    if is_valid cs z then obind (assign [v] (top_dst t) (VNum z)) (fun c => Done (SUCCESS, W rest [] c []))
    else Done (FAILURE, W inp [] [v] [])
  end.

Lemma char_parse cs t v inp : evt (fun n => parse env n t v (Char cs) inp) (char_out cs t v inp).
Proof.
  apply evt_parse with (st := PLeaf) (c := [v]); [reflexivity|]. apply evt_step.
  cbn [consume_step]. unfold char_consume, char_out, starved, m_assign, on_cells, bind.
  destruct inp as [|z rest]; cbn -[assign is_valid]; [apply evt_const|].
  destruct (is_valid cs z); [|apply evt_const]. cbn [w_cells]. destruct (assign [v] (top_dst t) (VNum z)); apply evt_const.
Qed.

Theorem does_char T cs t v inp r s v' k : ct_ok T -> cs_fits T cs = true -> Forall (tok T) inp ->
  does env (Char cs) t v inp r s v' k <->
  k = [] /\
  ((r = SUCCESS /\ exists z, inp = z :: s /\ in_set cs z /\ stored t v (VNum z) v') \/
   (r = FAILURE /\ s = inp /\ v' = v /\ forall z rest, inp = z :: rest -> ~ in_set cs z)).
Proof.
  intros HT Hcs Hi. apply cs_fits_ok in Hcs. pose proof (char_parse cs t v inp) as HP. unfold char_out in HP.
  destruct inp as [|z rest].
  - rewrite (evt_does _ _ _ _ _ _ _ _ HP). cbn [rev]. split.
    + intros (-> & -> & [= ->] & ->). split; auto. right. repeat split; auto. discriminate.
    + intros [-> [(-> & z & E & _)|(-> & -> & -> & _)]]; [discriminate|auto].
  - assert (tok T z) as Hz by now inversion Hi. pose proof (valid_in_set T cs z HT Hcs Hz) as HV.
    destruct (is_valid cs z).
    + destruct (assign [v] (top_dst t) (VNum z)) as [c|] eqn:Ea; cbn [obind] in HP.
      * rewrite (evt_does _ _ _ _ _ _ _ _ HP). cbn [rev]. split.
        -- intros (-> & -> & E & ->). split; auto. left. split; auto. exists z. repeat split; try tauto.
           apply stored_assign. now rewrite Ea, E.
        -- intros [-> [(-> & z0 & E & _ & HS)|(-> & -> & -> & N)]].
           ++ injection E as <- <-. apply stored_assign in HS. rewrite HS in Ea. injection Ea as <-. auto.
           ++ destruct (N z rest eq_refl). tauto.
      * split; [intros D; destruct (evt_wrong _ _ _ _ _ HP _ _ _ _ D)|].
        intros [-> [(-> & z0 & E & _ & HS)|(-> & -> & -> & N)]].
        -- injection E as <- <-. apply stored_assign in HS. congruence.
        -- destruct (N z rest eq_refl). tauto.
    + rewrite (evt_does _ _ _ _ _ _ _ _ HP). cbn [rev]. split.
      * intros (-> & -> & [= ->] & ->). split; auto. right. repeat split; auto. intros z0 r0 [= <- <-]. intuition.
      * intros [-> [(-> & z0 & E & Hin & _)|(-> & -> & -> & N)]]; [|auto].
        injection E as <- <-. intuition congruence.
Qed.

(** char_("..."): the characters in front of the terminator. *)
Lemma c_string_of l : ~ In 0%Z l -> forall mem, c_string (l ++ 0%Z :: mem) = l.
Proof.
  intros H mem. induction l as [|x l IH]; cbn; [reflexivity|].
  destruct (Z.eqb_spec x 0) as [->|]; [destruct H; now left|]. rewrite IH; auto. intros N. apply H. now right.
Qed.
Theorem in_cstr l mem z : ~ In 0%Z l -> (in_set (set_of_cstr (l ++ 0%Z :: mem)) z <-> In z l).
Proof. intros H. cbn. now rewrite c_string_of. Qed.

(** ** Symbols *)

Theorem does_charsymbol m t v inp r s v' k :
  does env (CharSymbol m) t v inp r s v' k <->
  s = inp /\ k = [] /\
  ((r = SUCCESS /\ exists z rest x, inp = z :: rest /\ assoc z m = Some x /\ stored t v x v') \/
   (r = FAILURE /\ v' = v /\ forall z rest, inp = z :: rest -> assoc z m = None)).
Proof.
  assert (evt (fun n => parse env n t v (CharSymbol m) inp)
    (match inp with
     | [] => Done (FAILURE, W [] [] [v] [])
     | z :: _ => match assoc z m with
                 | Some x => obind (assign [v] (top_dst t) x) (fun c => Done (SUCCESS, W inp [] c []))
                 | None => Done (FAILURE, W inp [] [v] [])
                 end
     end)) as HP.
  { apply evt_parse with (st := PLeaf) (c := [v]); [reflexivity|]. apply evt_step.
    cbn [consume_step]. unfold char_symbol_consume, starved, m_assign, on_cells, bind.
    destruct inp as [|z rest]; cbn -[assign]; [apply evt_const|].
    destruct (assoc z m) as [x|]; [|apply evt_const]. cbn [w_cells]. destruct (assign [v] (top_dst t) x); apply evt_const. }
  destruct inp as [|z rest].
  - rewrite (evt_does _ _ _ _ _ _ _ _ HP). cbn [rev]. split.
    + intros (-> & -> & [= ->] & ->). repeat split. right. repeat split; auto. discriminate.
    + intros (-> & -> & [(-> & z & ? & ? & E & _)|(-> & -> & _)]); [discriminate|auto].
  - destruct (assoc z m) as [x|] eqn:Ez.
    + destruct (assign [v] (top_dst t) x) as [c|] eqn:Ea; cbn [obind] in HP.
      * rewrite (evt_does _ _ _ _ _ _ _ _ HP). cbn [rev]. split.
        -- intros (-> & -> & E & ->). repeat split. left. split; auto. exists z, rest, x. repeat split; auto.
           apply stored_assign. now rewrite Ea, E.
        -- intros (-> & -> & [(-> & z0 & ? & x0 & E & E2 & HS)|(-> & -> & N)]).
           ++ injection E as <- <-. rewrite Ez in E2. injection E2 as <-. apply stored_assign in HS. rewrite HS in Ea. injection Ea as <-. auto.
           ++ rewrite (N z rest eq_refl) in Ez. discriminate.
      * split; [intros D; destruct (evt_wrong _ _ _ _ _ HP _ _ _ _ D)|].
        intros (-> & -> & [(-> & z0 & ? & x0 & E & E2 & HS)|(-> & -> & N)]).
        -- injection E as <- <-. rewrite Ez in E2. injection E2 as <-. apply stored_assign in HS. congruence.
        -- rewrite (N z rest eq_refl) in Ez. discriminate.
    + rewrite (evt_does _ _ _ _ _ _ _ _ HP). cbn [rev]. split.
      * intros (-> & -> & [= ->] & ->). repeat split. right. repeat split; auto. intros z0 r0 [= <- <-]. auto.
      * intros (-> & -> & [(-> & z0 & ? & x0 & E & E2 & _)|(-> & -> & N)]); [|auto].
        injection E as <- <-. congruence.
Qed.

Lemma nodup_key (e : list (list Z * val)) k x y : NoDup (map fst e) -> In (k, x) e -> In (k, y) e -> x = y.
Proof.
  induction e as [|[k0 v0] e IH]; cbn; [tauto|]. intros H. inversion H as [|? ? N H']; subst.
  intros [E|E] [F|F]; try congruence; auto.
  - injection E as -> ->. destruct N. now apply (in_map fst) in F.
  - injection F as -> ->. destruct N. now apply (in_map fst) in E.
Qed.

Lemma app_cut {A} (a b a' b' : list A) : a ++ b = a' ++ b' -> length a = length a' -> a = a' /\ b = b'.
Proof.
  revert a'. induction a as [|x a IH]; intros [|y a']; cbn; try discriminate; auto.
  intros [= <- E] [= L]. destruct (IH a' E L) as [-> ->]. auto.
Qed.

Lemma sym_parse e t v inp :
  evt (fun n => parse env n t v (Symbol e) inp)
    (obind (sym_run (top_dst t) (trie_build e) None [] [v] inp) (fun '(r, s', cs') => Done (res r, W s' [] cs' []))).
Proof.
  apply evt_parse with (st := PSym (trie_build e) None) (c := [v]); [reflexivity|].
  exact (sym_leaf env (top_ctx t) default_req (top_dst t) e [] [] [v] inp (trie_build e) None []).
Qed.

Theorem does_symbol e t v inp s v' k : NoDup (map fst e) -> keys_ok e ->
  does env (Symbol e) t v inp SUCCESS s v' k <->
  k = [] /\ exists key x, inp = key ++ s /\ In (key, x) e /\ stored t v x v' /\
    forall key' x' s', inp = key' ++ s' -> In (key', x') e -> length key' <= length key.
Proof.
  intros ND KO. pose proof (sym_parse e t v inp) as HP.
  destruct (sym_run (top_dst t) (trie_build e) None [] [v] inp) as [[[b s0] c]|er] eqn:E; cbn [obind] in HP.
  - rewrite (evt_does _ _ _ _ _ _ _ _ HP). cbn [rev]. apply sym_spec in E; auto. destruct E as [_ E]. destruct b; cbn [res].
    + destruct E as (key & x & Ei & Hin & Ha & _ & HM). split.
      * intros (_ & -> & Ev & ->). split; auto. exists key, x. repeat split; auto. apply stored_assign. now rewrite Ha, Ev.
      * intros (-> & key2 & x2 & Ei2 & Hin2 & HS & HM2).
        assert (length key = length key2) as HL by (apply Nat.le_antisymm; [eapply HM2|eapply HM]; eauto).
        destruct (app_cut key s0 key2 s) as [<- <-]; [congruence|auto|].
        rewrite (nodup_key e key x2 x) in HS by auto. apply stored_assign in HS. rewrite HS in Ha. injection Ha as <-. auto.
    + destruct E as [-> HN]. split; [intros (? & _); discriminate|].
      intros (-> & key2 & x2 & Ei2 & Hin2 & _). destruct (HN _ _ _ Ei2 Hin2).
  - split; [intros D; destruct (evt_wrong _ _ _ _ _ HP _ _ _ _ D)|].
    intros (-> & key & x & Ei & Hin & HS & HM). exfalso.
    destruct (sym_run_longest (top_dst t) [v] inp (trie_build e) None []) as (k0 & f & E0 & HR); [discriminate|].
    rewrite HR in E. pose proof (longest_ok inp (trie_build e)) as L.
    destruct (longest (trie_build e) inp) as [[x2 s2]|]; [|discriminate].
    destruct L as (key2 & Es & Nk & Hf & HL). apply trie_build_find in Hf.
    assert (length key = length key2) as HLen.
    { apply Nat.le_antisymm; [|eapply HM; eauto]. eapply HL; eauto.
      intros N. now apply trie_build_none with (v := x) in N. }
    destruct (app_cut key s key2 s2) as [<- <-]; [congruence|auto|].
    rewrite (nodup_key e key x2 x) in E by auto. apply stored_assign in HS. unfold sym_done in E. rewrite HS in E. discriminate.
Qed.

Theorem does_symbol_no e t v inp : keys_ok e ->
  (forall key x s, inp = key ++ s -> ~ In (key, x) e) <->
  exists s v' k, does env (Symbol e) t v inp FAILURE s v' k.
Proof.
  intros KO. pose proof (sym_parse e t v inp) as HP. split.
  - intros HN. destruct (sym_run_longest (top_dst t) [v] inp (trie_build e) None []) as (k0 & f & E0 & HR); [discriminate|].
    rewrite HR in HP. pose proof (longest_ok inp (trie_build e)) as L.
    destruct (longest (trie_build e) inp) as [[x2 s2]|].
    + destruct L as (key2 & Es & Nk & Hf & HL). apply trie_build_find in Hf. destruct (HN _ _ _ Es Hf).
    + cbn [obind res] in HP. exists f, v, []. apply (evt_does _ _ _ _ _ _ _ _ HP). auto.
  - intros (s & v' & k & D). destruct (sym_run _ _ _ _ _ _) as [[[b s0] c]|er] eqn:E; cbn [obind] in HP.
    + apply (evt_does _ _ _ _ _ _ _ _ HP) in D. destruct D as (D & _). destruct b; [discriminate|].
      apply sym_spec in E; auto. destruct E as (_ & _ & HN). intros key x s1 Ei. exact (HN key x s1 Ei).
    + destruct (evt_wrong _ _ _ _ _ HP _ _ _ _ D).
Qed.

Theorem does_symbol_keeps e t v inp s v' k : keys_ok e -> does env (Symbol e) t v inp FAILURE s v' k -> v' = v /\ k = [].
Proof.
  intros KO D. pose proof (sym_parse e t v inp) as HP.
  destruct (sym_run _ _ _ _ _ _) as [[[b s0] c]|er] eqn:E; cbn [obind] in HP.
  - apply (evt_does _ _ _ _ _ _ _ _ HP) in D. destruct D as (D & _ & Ev & ->). destruct b; [discriminate|].
    apply sym_spec in E; auto. destruct E as (_ & -> & _). injection Ev as ->. auto.
  - destruct (evt_wrong _ _ _ _ _ HP _ _ _ _ D).
Qed.

(** ** Numbers *)

Lemma num_op_cell f sg w z : num_op f [VNum z] (DRef 0 [] (TNum sg w)) =
  obind (arith sg w (f z)) (fun r => Done [VNum r]).
Proof. cbn. destruct (arith sg w (f z)); reflexivity. Qed.

Lemma value_from_app b a l l' : value_from b a (l ++ l') = value_from b (value_from b a l) l'.
Proof. apply fold_left_app. Qed.

Lemma rank_nonneg z : (0 <= rank z)%Z.
Proof. unfold rank, digit_rank. zb; cbn [andb]; zb; lia. Qed.

Lemma value_from_ge b ds : (1 <= b)%Z -> forall a, (0 <= a)%Z -> (a <= value_from b a ds)%Z.
Proof.
  intros Hb. induction ds as [|z ds IH]; intros a Ha; cbn; [lia|].
  pose proof (rank_nonneg z). etransitivity; [|apply IH]; nia.
Qed.

Lemma value_nonneg b ds : (1 <= b)%Z -> (0 <= value b ds)%Z.
Proof. intros Hb. now apply value_from_ge. Qed.

(** Wrapping, whatever the width. *)
Lemma wrap_mod_any s b z : exists k, wrap s b z = (z + k * 2 ^ b)%Z.
Proof.
  destruct (Z.le_gt_cases 1 b) as [Hb|Hb]; [now apply wrap_mod|]. destruct (Z.eq_dec b 0) as [->|N].
  - exists (- z)%Z. unfold wrap. change (2 ^ (0 - 1))%Z with 0%Z. change (2 ^ 0)%Z with 1%Z. rewrite !Z.mod_1_r. destruct s; lia.
  - exists 0%Z. unfold wrap. rewrite !Z.pow_neg_r by lia. rewrite !Zmod_0_r. destruct s; lia.
Qed.
Lemma wrap_cong_any s b x y k : (x = y + k * 2 ^ b)%Z -> wrap s b x = wrap s b y.
Proof.
  intros ->. unfold wrap. destruct s.
  - replace (y + k * 2 ^ b + 2 ^ (b - 1))%Z with (y + 2 ^ (b - 1) + k * 2 ^ b)%Z by lia.
    rewrite Z_mod_plus_full. reflexivity.
  - now rewrite Z_mod_plus_full.
Qed.
Lemma wrap_0 s b : wrap s b 0 = 0%Z.
Proof.
  destruct (Z.le_gt_cases 1 b) as [Hb|Hb].
  - apply wrap_id; auto. apply in_range_iff. unfold ty_min, ty_max.
    assert (0 < 2 ^ (b - 1))%Z by (apply Z.pow_pos_nonneg; lia). assert (0 < 2 ^ b)%Z by (apply Z.pow_pos_nonneg; lia). destruct s; lia.
  - unfold wrap. rewrite (Z.pow_neg_r 2 (b - 1)) by lia. destruct s; [|apply Zmod_0_l]. now rewrite Zmod_0_l.
Qed.

Section Num.
Context (b lo hi : Z) (sg : bool) (w : Z).
Hypothesis Hb : (2 <= b <= 35)%Z.
Hypothesis Hlh : (hi <= 0 \/ lo <= hi)%Z.
Notation cell := (DRef 0 [] (TNum sg w)).

Notation safe := (safe sg w).

Lemma digit_rank_ok x : tok ct_char x -> is_digit b x = true -> digit_value b x = rank x.
Proof. intros Hx H. destruct (digit_value_ok b x Hb Hx H) as [E _]. unfold rank. now rewrite E. Qed.

Lemma wide_bits : wide sg w = true -> (1 <= w)%Z.
Proof. unfold wide. intros H. apply andb_true_iff in H as [_ H]. apply Z.leb_le in H. lia. Qed.

Lemma nonneg_range x : wide sg w = true -> (0 <= x)%Z -> in_range sg w x = (x <=? ty_max sg w)%Z.
Proof.
  intros H Hx. pose proof (wide_bits H) as Hw. revert H. unfold wide, in_range, ty_min. intros H. apply andb_true_iff in H as [-> _].
  assert (0 < 2 ^ (w - 1))%Z by (apply Z.pow_pos_nonneg; lia).
  destruct (Z.leb_spec (- 2 ^ (w - 1)) x); [reflexivity|lia].
Qed.

(** One arithmetic step from a value that stands for [A]. *)
Lemma arith_step A f : (0 <= A)%Z -> (0 <= f A)%Z -> (A <= f A)%Z ->
  (forall k, exists j, f (A + k * 2 ^ w) = f A + j * 2 ^ w)%Z ->
  safe A ->
  arith sg w (f (wrap sg w A)) = if (wide sg w && (ty_max sg w <? f A)%Z)%bool then Err (EUb UbOverflow) else Done (wrap sg w (f A)).
Proof.
  intros HA HF HM Hf HS. unfold arith. change (sg && (32 <=? w)%Z)%bool with (wide sg w). unfold SpecLeaf.safe in HS.
  destruct (wide sg w) eqn:Ew; cbn [andb].
  - pose proof (wide_bits Ew) as Hw. specialize (HS eq_refl). rewrite (wrap_id sg w A) by (auto; rewrite nonneg_range by auto; apply Z.leb_le; auto).
    rewrite nonneg_range by auto. destruct (Z.leb_spec (f A) (ty_max sg w)); destruct (Z.ltb_spec (ty_max sg w) (f A)); try lia; auto.
    rewrite wrap_id; auto. rewrite nonneg_range by auto. now apply Z.leb_le.
  - destruct (wrap_mod_any sg w A) as [k ->]. destruct (Hf k) as [j Hj]. rewrite Hj. f_equal. now apply (wrap_cong_any _ _ _ _ j).
Qed.

Lemma uint_cells : forall s cnt A,
  Forall (tok ct_char) s -> (0 <= cnt)%Z -> (hi <= 0 \/ cnt < hi)%Z -> (0 <= A)%Z -> safe A ->
  let n := left_of b hi cnt s in
  let X := value_from b A (firstn n s) in
  uint_run b lo hi cell cnt [VNum (wrap sg w A)] s =
  if (wide sg w && (ty_max sg w <? X)%Z)%bool then Err (EUb UbOverflow)
  else Done ((lo <=? cnt + Z.of_nat n)%Z, skipn n s, [VNum (wrap sg w X)]).
Proof.
  induction s as [|x t IH]; intros cnt A Hs Hc Hh HA HS; cbn [uint_run].
  - rewrite left_of_none by exact I. cbn. rewrite Z.add_0_r.
    destruct (wide sg w) eqn:Ew; cbn; auto. specialize (HS Ew). destruct (Z.ltb_spec (ty_max sg w) A); [lia|auto].
  - inversion Hs as [|? ? Hx Ht]; subst. rewrite digit_valid_ok by auto. destruct (is_digit b x) eqn:Ex.
    + assert (exists n, left_of b hi cnt (x :: t) = S n /\
                (((cnt + 1)%Z = hi /\ n = 0) \/ ((cnt + 1)%Z <> hi /\ n = left_of b hi (cnt + 1) t))) as (n & En & Hn).
      { destruct (Z.eq_dec (cnt + 1) hi).
        - exists 0. rewrite left_of_last by (auto; lia). auto.
        - exists (left_of b hi (cnt + 1) t). rewrite left_of_step by (auto; lia). auto. }
      cbv zeta. rewrite En. cbn [firstn skipn value_from fold_left]. fold (value_from b (A * b + rank x) (firstn n t)).
      pose proof (rank_nonneg x) as Hr. rewrite digit_rank_ok by auto.
      pose proof (value_from_ge b (firstn n t) ltac:(lia) (A * b + rank x) ltac:(nia)) as HG.
      rewrite num_op_cell, (arith_step A (fun z => z * b)%Z); auto; try nia.
      2:{ intros k. exists (k * b)%Z. lia. }
      destruct (wide sg w) eqn:Ew; cbn [andb].
      * destruct (Z.ltb_spec (ty_max sg w) (A * b)).
        { cbn [obind]. destruct (Z.ltb_spec (ty_max sg w) (value_from b (A * b + rank x) (firstn n t))); [auto|lia]. }
        cbn [obind]. rewrite num_op_cell, (arith_step (A * b) (fun z => z + rank x)%Z); auto; try nia.
        2:{ intros k. exists k. lia. }
        2:{ intros _. lia. }
        rewrite Ew. cbn [andb]. destruct (Z.ltb_spec (ty_max sg w) (A * b + rank x)).
        { cbn [obind]. destruct (Z.ltb_spec (ty_max sg w) (value_from b (A * b + rank x) (firstn n t))); [auto|lia]. }
        cbn [obind]. destruct Hn as [[E ->]|[N ->]].
        -- rewrite (proj2 (Z.eqb_eq _ _) E). cbn [firstn skipn value_from fold_left].
           destruct (Z.ltb_spec (ty_max sg w) (A * b + rank x)); [lia|]. f_equal. f_equal. f_equal.
           symmetry. apply Z.leb_le. lia.
        -- rewrite (proj2 (Z.eqb_neq _ _) N). rewrite IH; auto; try lia; try nia.
           ++ cbn [andb]. destruct (ty_max sg w <? _)%Z; auto. f_equal. f_equal. f_equal. f_equal. lia.
           ++ intros _. lia.
      * cbn [obind]. rewrite num_op_cell, (arith_step (A * b) (fun z => z + rank x)%Z); auto; try nia.
        2:{ intros k. exists k. lia. }
        2:{ intros E. congruence. }
        rewrite Ew. cbn [andb obind]. destruct Hn as [[E ->]|[N ->]].
        -- rewrite (proj2 (Z.eqb_eq _ _) E). cbn [firstn skipn value_from fold_left]. f_equal. f_equal. f_equal.
           symmetry. apply Z.leb_le. lia.
        -- rewrite (proj2 (Z.eqb_neq _ _) N). rewrite IH; auto; try lia; try nia.
           ++ cbn [andb]. f_equal. f_equal. f_equal. f_equal. lia.
           ++ intros E. congruence.
    + rewrite left_of_none by auto. cbn. rewrite Z.add_0_r.
      destruct (wide sg w) eqn:Ew; cbn; auto. specialize (HS Ew). destruct (Z.ltb_spec (ty_max sg w) A); [lia|auto].
Qed.

Lemma max_nonneg : wide sg w = true -> (0 <= ty_max sg w)%Z.
Proof.
  intros H. pose proof (wide_bits H) as Hw. unfold ty_max. assert (0 < 2 ^ (w - 1))%Z by (apply Z.pow_pos_nonneg; lia).
  assert (0 < 2 ^ w)%Z by (apply Z.pow_pos_nonneg; lia). destruct sg; lia.
Qed.

Lemma uint_cells0 s : Forall (tok ct_char) s ->
  let n := taken b hi s in
  let X := value b (firstn n s) in
  uint_run b lo hi cell 0 [VNum 0] s =
  if (wide sg w && (ty_max sg w <? X)%Z)%bool then Err (EUb UbOverflow)
  else Done ((lo <=? Z.of_nat n)%Z, skipn n s, [VNum (wrap sg w X)]).
Proof.
  intros Hs. cbv zeta. rewrite <- (left_of_0 b hi).
  assert (VNum 0 = VNum (wrap sg w 0)) as E.
  { now rewrite wrap_0. }
  rewrite E. rewrite (uint_cells s 0 0); auto; try lia. exact max_nonneg.
Qed.

(** The sign. *)
Lemma sign_split s : (match s with
            | x :: t => if (x =? 45)%Z then (true, t) else if (x =? 43)%Z then (false, t) else (false, s)
            | [] => (false, [])
            end) = (negative s, unsigned s).
Proof.
  destruct s as [|x t]; [reflexivity|]. cbn [negative unsigned].
  destruct (x =? 45)%Z; [reflexivity|]. destruct (x =? 43)%Z; reflexivity.
Qed.

Lemma unsigned_tok s : Forall (tok ct_char) s -> Forall (tok ct_char) (unsigned s).
Proof. intros H. destruct s as [|x t]; [constructor|]. cbn. destruct (_ || _)%bool; auto. now inversion H. Qed.

Lemma neg_cells_ok neg X : (0 <= X)%Z -> safe X ->
  neg_cells cell neg [VNum (wrap sg w X)] = Done [VNum (wrap sg w (if neg then - X else X))].
Proof.
  intros HX HS. unfold neg_cells. destruct neg; [|reflexivity]. rewrite num_op_cell. unfold arith.
  change (sg && (32 <=? w)%Z)%bool with (wide sg w). unfold SpecLeaf.safe in HS. destruct (wide sg w) eqn:Ew.
  - pose proof (wide_bits Ew) as Hw. specialize (HS eq_refl). rewrite (wrap_id sg w X) by (auto; rewrite nonneg_range by auto; apply Z.leb_le; auto).
    assert (in_range sg w (X * -1) = true) as HR.
    { apply in_range_iff. unfold ty_min, ty_max in *. unfold wide in Ew. apply andb_true_iff in Ew as [-> _]. lia. }
    rewrite HR. cbn [obind]. rewrite wrap_id by (auto; replace (- X)%Z with (X * -1)%Z by lia; auto). do 3 f_equal. lia.
  - cbn [obind]. do 3 f_equal. destruct (wrap_mod_any sg w X) as [j ->]. apply (wrap_cong_any _ _ _ _ (- j)%Z). lia.
Qed.

Hypothesis Hw : (1 <= w)%Z.

Theorem does_uint v inp r s v' k : Forall (tok ct_char) inp ->
  let n := taken b hi inp in
  let X := value b (firstn n inp) in
  does env (UInt b lo hi) (TNum sg w) v inp r s v' k <->
  safe X /\ r = (if (lo <=? Z.of_nat n)%Z then SUCCESS else FAILURE) /\ s = skipn n inp /\ v' = VNum (wrap sg w X) /\ k = [].
Proof.
  intros Hi n X. assert (1 <= w)%Z as _ by exact Hw.
  assert (evt (fun n => parse env n (TNum sg w) v (UInt b lo hi) inp)
    (obind (uint_run b lo hi cell 0 [VNum 0] inp) (fun '(r, s', cs') => Done (res r, W s' [] cs' [])))) as HP.
  { apply evt_parse with (st := PUInt 0) (c := [VNum 0]); [reflexivity|].
    exact (uint_leaf env (top_ctx (TNum sg w)) default_req (top_dst (TNum sg w)) b lo hi [] [] inp [VNum 0] 0). }
  rewrite uint_cells0 in HP by auto. cbv zeta in HP. fold n in HP. fold X in HP. unfold SpecLeaf.safe.
  destruct (wide sg w); cbn [andb] in HP.
  - destruct (Z.ltb_spec (ty_max sg w) X); cbn [obind] in HP.
    + split; [intros D; destruct (evt_wrong _ _ _ _ _ HP _ _ _ _ D)|]. intros [H1 _]. specialize (H1 eq_refl). lia.
    + rewrite (evt_does _ _ _ _ _ _ _ _ HP). cbn [rev]. unfold res. intuition; congruence.
  - cbn [obind] in HP. rewrite (evt_does _ _ _ _ _ _ _ _ HP). cbn [rev]. unfold res.
    intuition; try congruence.
Qed.

Theorem does_int v inp r s v' k : Forall (tok ct_char) inp ->
  let ds := unsigned inp in
  let n := taken b hi ds in
  let X := value b (firstn n ds) in
  does env (Int b lo hi) (TNum sg w) v inp r s v' k <->
  safe X /\ r = (if (lo <=? Z.of_nat n)%Z then SUCCESS else FAILURE) /\ s = skipn n ds /\
  v' = VNum (wrap sg w (if negative inp then - X else X)) /\ k = [].
Proof.
  intros Hi ds n X. assert (1 <= w)%Z as _ by exact Hw.
  assert (evt (fun n => parse env n (TNum sg w) v (Int b lo hi) inp)
    (obind (int_run b lo hi cell [VNum 0] inp) (fun '(r, s', cs') => Done (res r, W s' [] cs' [])))) as HP.
  { apply evt_parse with (st := PInt 0 true false) (c := [VNum 0]); [reflexivity|].
    exact (int_leaf env (top_ctx (TNum sg w)) default_req (top_dst (TNum sg w)) b lo hi [] [] inp [VNum 0]). }
  unfold int_run in HP. rewrite sign_split in HP. rewrite uint_cells0 in HP by (apply unsigned_tok; auto).
  cbv zeta in HP. fold ds in HP. fold n in HP. fold X in HP.
  assert (0 <= X)%Z as HX by (apply value_nonneg; lia).
  assert (safe X \/ (wide sg w && (ty_max sg w <? X)%Z = true)%bool) as [HS|HS].
  { unfold SpecLeaf.safe. destruct (wide sg w); cbn; [|left; discriminate].
    destruct (Z.ltb_spec (ty_max sg w) X); [right; auto|left; auto]. }
  - assert (wide sg w && (ty_max sg w <? X)%Z = false)%bool as E.
    { unfold SpecLeaf.safe in HS. destruct (wide sg w); cbn; auto. specialize (HS eq_refl). apply Z.ltb_ge. lia. }
    rewrite E in HP. cbn [obind] in HP. rewrite neg_cells_ok in HP by auto. cbn [obind] in HP.
    rewrite (evt_does _ _ _ _ _ _ _ _ HP). cbn [rev]. unfold res. intuition; congruence.
  - rewrite HS in HP. cbn [obind] in HP. split; [intros D; destruct (evt_wrong _ _ _ _ _ HP _ _ _ _ D)|].
    intros [H1 _]. unfold SpecLeaf.safe in H1. apply andb_true_iff in HS as [Hw' HS]. specialize (H1 Hw'). apply Z.ltb_lt in HS. lia.
Qed.
End Num.

(** ** Rendering *)

Lemma spell_digits u : forall rest, no_digit 10 rest -> digits 10 (spell u ++ rest) = length (spell u).
Proof.
  assert (forall rest, no_digit 10 rest -> digits 10 rest = 0) as H0.
  { intros [|z t]; cbn; auto. now intros ->. }
  induction u; intros rest H; cbn [spell app digits length]; auto;
    match goal with |- context [is_digit 10 ?z] => change (is_digit 10 z) with true end; cbv iota; now rewrite IHu.
Qed.

Lemma spell_tok u : Forall (tok ct_char) (spell u).
Proof. induction u; cbn [spell]; constructor; auto; reflexivity. Qed.

Lemma pos_of_uint_acc u : forall p, Zpos (Pos.of_uint_acc u p) = value_from 10 (Zpos p) (spell u).
Proof.
  induction u; intros p; cbn [Pos.of_uint_acc spell value_from fold_left]; [reflexivity|..];
    rewrite IHu; unfold value_from; f_equal; unfold rank; cbn [digit_rank Z.leb Z.compare Pos.compare Pos.compare_cont andb Z.sub Z.add Z.opp Z.pos_sub]; 
    cbn -[Z.mul Z.add Pos.mul Pos.add]; lia.
Qed.

Lemma of_uint_value u : Z.of_N (Pos.of_uint u) = value 10 (spell u).
Proof.
  induction u; cbn [Pos.of_uint spell value value_from fold_left]; [reflexivity|exact IHu|..];
    cbn [Z.of_N]; rewrite pos_of_uint_acc; reflexivity.
Qed.

Lemma dec_shape z : exists u, u <> Nil /\
  ((dec z = spell u /\ z = value 10 (spell u)) \/ (dec z = 45%Z :: spell u /\ z = - value 10 (spell u))%Z).
Proof.
  unfold dec. pose proof (DecimalZ.of_to z) as H. destruct (Z.to_int z) as [u|u] eqn:E; exists u.
  - split; [|left; split; auto].
    + intros ->. destruct z; cbn in E; try discriminate; injection E as E; now apply DecimalPos.Unsigned.to_uint_nonnil in E.
    + rewrite <- of_uint_value. cbn in H. unfold Z.of_uint in H. auto.
  - split; [|right; split; auto].
    + intros ->. destruct z; cbn in E; try discriminate; injection E as E; now apply DecimalPos.Unsigned.to_uint_nonnil in E.
    + rewrite <- of_uint_value. cbn in H. unfold Z.of_uint in H. auto.
Qed.

Lemma spell_some u : u <> Nil -> exists z l, spell u = z :: l /\ (z =? 45)%Z = false /\ (z =? 43)%Z = false.
Proof. destruct u; [congruence|..]; intros _; cbn; eauto 6. Qed.

Lemma firstn_spell {A} (l r : list A) : firstn (length l) (l ++ r) = l.
Proof. rewrite firstn_app, firstn_all, Nat.sub_diag. cbn. apply app_nil_r. Qed.
Lemma skipn_spell {A} (l r : list A) : skipn (length l) (l ++ r) = r.
Proof. rewrite skipn_app, skipn_all, Nat.sub_diag. reflexivity. Qed.

Theorem int_roundtrip sg w z : (1 <= w)%Z -> in_range sg w z = true ->
  (wide sg w = true -> z <> ty_min sg w) ->
  forall v rest, Forall (tok ct_char) rest -> no_digit 10 rest ->
  does env (Int 10 1 0) (TNum sg w) v (dec z ++ rest) SUCCESS rest (VNum z) [].
Proof.
  intros Hw Hz Hm v rest Hr Hn. destruct (dec_shape z) as (u & Hu & HD).
  assert (unsigned (dec z ++ rest) = spell u ++ rest /\ Forall (tok ct_char) (dec z ++ rest) /\
          (if negative (dec z ++ rest) then - value 10 (spell u) else value 10 (spell u))%Z = z) as (E1 & E2 & E3).
  { destruct (spell_some u Hu) as (x & l & Es & Ex & Ey). destruct HD as [[-> E]|[-> E]].
    - repeat split.
      + rewrite Es. cbn. now rewrite Ex, Ey.
      + apply Forall_app. split; auto. apply spell_tok.
      + rewrite Es at 1. cbn [app negative]. rewrite Ex. auto.
    - repeat split; auto. apply Forall_app. split; auto. constructor; [reflexivity|apply spell_tok]. }
  apply does_int; auto; try lia. rewrite E1.
  assert (taken 10 0 (spell u ++ rest) = length (spell u)) as ET by (unfold taken; cbn; now apply spell_digits).
  rewrite ET, firstn_spell, skipn_spell, E3. rewrite wrap_id by auto. repeat split; auto.
  - intros HW. specialize (Hm HW). apply in_range_iff in Hz. unfold wide in HW. apply andb_true_iff in HW as [-> _].
    unfold ty_min, ty_max in *. pose proof (value_nonneg 10 (spell u) ltac:(lia)). destruct HD as [[_ ->]|[_ ->]]; lia.
  - destruct (spell_some u Hu) as (x & l & -> & _).
    destruct (Z.leb_spec 1 (Z.of_nat (length (x :: l)))) as [|Q]; [auto|cbn [length] in Q; lia].
Qed.

(** ** Digits *)

Lemma lower_rank x z : nth_error lower x = Some z -> digit_rank z = Some (Z.of_nat x).
Proof. do 36 (destruct x as [|x]; [intros [= <-]; reflexivity|]). destruct x; discriminate. Qed.
Lemma upper_rank x z : nth_error upper x = Some z -> digit_rank z = Some (Z.of_nat x).
Proof. do 36 (destruct x as [|x]; [intros [= <-]; reflexivity|]). destruct x; discriminate. Qed.

Lemma rank_alphabet z r : digit_rank z = Some r ->
  exists x, r = Z.of_nat x /\ (nth_error lower x = Some z \/ nth_error upper x = Some z).
Proof.
  intros H. assert (In z (map Z.of_nat (seq 48 75))) as Hin.
  { apply in_map_iff. exists (Z.to_nat z). rewrite in_seq.
    unfold digit_rank in H. revert H. zb; cbn [andb]; zb; try discriminate; intros; lia. }
  assert (forallb (fun z => match digit_rank z with
    | Some r => (0 <=? r)%Z && (match nth_error lower (Z.to_nat r) with Some y => (y =? z)%Z | None => false end
                 || match nth_error upper (Z.to_nat r) with Some y => (y =? z)%Z | None => false end)
    | None => true end) (map Z.of_nat (seq 48 75)) = true) as HF by (vm_compute; reflexivity).
  rewrite forallb_forall in HF. specialize (HF z Hin). cbv beta in HF. rewrite H in HF.
  apply andb_true_iff in HF as [Hr HF]. apply Z.leb_le in Hr. exists (Z.to_nat r). rewrite Z2Nat.id by auto. split; auto.
  apply orb_true_iff in HF as [HF|HF]; [left|right];
    (destruct (nth_error _ (Z.to_nat r)) as [y|]; [|discriminate]); apply Z.eqb_eq in HF; now subst.
Qed.

Theorem one_digit b sg w v z rest r s v' k : (2 <= b <= 35)%Z -> (1 <= w)%Z -> (34 <= ty_max sg w)%Z ->
  Forall (tok ct_char) (z :: rest) ->
  does env (UInt b 1 1) (TNum sg w) v (z :: rest) r s v' k <->
  k = [] /\
  ((r = SUCCESS /\ s = rest /\ exists x, (nth_error lower x = Some z \/ nth_error upper x = Some z) /\
      (Z.of_nat x < b)%Z /\ v' = VNum (Z.of_nat x)) \/
   (r = FAILURE /\ s = z :: rest /\ v' = VNum 0 /\
      forall x, nth_error lower x = Some z \/ nth_error upper x = Some z -> (b <= Z.of_nat x)%Z)).
Proof.
  intros Hb Hw Hm Hi. rewrite does_uint by (auto; lia).
  assert (forall x, nth_error lower x = Some z \/ nth_error upper x = Some z -> digit_rank z = Some (Z.of_nat x)) as HR.
  { intros x [H|H]; [now apply lower_rank|now apply upper_rank]. }
  assert (forall x, (0 <= x <= 34)%Z -> wrap sg w x = x) as HI.
  { intros x Hx. apply wrap_id; auto. apply in_range_iff. unfold ty_min.
    assert (0 < 2 ^ (w - 1))%Z by (apply Z.pow_pos_nonneg; lia). destruct sg; lia. }
  unfold taken. change (0 <? 1)%Z with true. cbv iota. change (Z.to_nat 1) with 1.
  cbn [digits]. destruct (is_digit b z) eqn:Ez.
  - change (Nat.min 1 (S _)) with 1. cbn [firstn skipn value value_from fold_left].
    unfold is_digit in Ez. destruct (digit_rank z) as [x|] eqn:Er; [|discriminate]. apply Z.ltb_lt in Ez.
    unfold rank. rewrite Er. rewrite Z.mul_0_l, Z.add_0_l.
    destruct (rank_alphabet z x Er) as (n & -> & Hn). change (1 <=? Z.of_nat 1)%Z with true. cbv iota.
    rewrite HI by lia. split.
    + intros (_ & -> & -> & -> & ->). split; auto. left. repeat split; auto. exists n. auto.
    + intros [-> [(-> & -> & x & Hx & _ & ->)|(_ & _ & _ & N)]].
      * specialize (HR x Hx). injection HR as HR. apply Nat2Z.inj in HR. subst. repeat split; auto. intros _. lia.
      * specialize (N n Hn). lia.
  - change (Nat.min 1 0) with 0. cbn [firstn skipn value value_from fold_left].
    change (1 <=? Z.of_nat 0)%Z with false. cbv iota. rewrite HI by lia. split.
    + intros (_ & -> & -> & -> & ->). split; auto. right. repeat split; auto. intros x Hx. specialize (HR x Hx).
      unfold is_digit in Ez. rewrite HR in Ez. apply Z.ltb_ge in Ez. auto.
    + intros [-> [(-> & -> & x & Hx & Hx2 & ->)|(-> & -> & -> & N)]].
      * specialize (HR x Hx). unfold is_digit in Ez. rewrite HR in Ez. apply Z.ltb_ge in Ez. lia.
      * repeat split; auto. intros _. lia.
Qed.

End LeafThms.
