(** What the leaves of the big-step relation compute, against SpecPeg.v. *)
From Coq Require Import List ZArith Bool Arith Lia.
From Verif Require Import Base CharSet Source Dst Pattern Parser Big SpecPeg.
Import ListNotations.

(** ** Characters *)

(** A value of the character type [T]. *)
Definition tok (T : char_ty) (z : Z) : Prop := in_range (ct_signed T) (ct_bits T) z = true.
Definition ct_ok (T : char_ty) : Prop := (1 <= ct_bits T)%Z.

Lemma pow_half b : (1 <= b)%Z -> (2 ^ b = 2 * 2 ^ (b - 1))%Z.
Proof. intros H. replace b with (1 + (b - 1))%Z at 1 by lia. rewrite Z.pow_add_r by lia. reflexivity. Qed.

Lemma in_range_iff s b z :
  in_range s b z = true <-> (ty_min s b <= z <= ty_max s b)%Z.
Proof. unfold in_range. rewrite andb_true_iff, !Z.leb_le. lia. Qed.

Lemma wrap_id s b z : (1 <= b)%Z -> in_range s b z = true -> wrap s b z = z.
Proof.
  intros Hb H. apply in_range_iff in H. unfold ty_min, ty_max, wrap in *.
  pose proof (pow_half b Hb). assert (0 < 2 ^ (b - 1))%Z by (apply Z.pow_pos_nonneg; lia).
  destruct s; [rewrite Z.mod_small; lia|apply Z.mod_small; lia].
Qed.

Lemma wrap_mod s b z : (1 <= b)%Z -> exists k, wrap s b z = (z + k * 2 ^ b)%Z.
Proof.
  intros Hb. unfold wrap. assert (0 < 2 ^ b)%Z by (apply Z.pow_pos_nonneg; lia). destruct s.
  - exists (- ((z + 2 ^ (b - 1)) / 2 ^ b))%Z. pose proof (Z.div_mod (z + 2 ^ (b - 1)) (2 ^ b)). lia.
  - exists (- (z / 2 ^ b))%Z. pose proof (Z.div_mod z (2 ^ b)). lia.
Qed.

Lemma wrap_cong s b x y k : (1 <= b)%Z -> (x = y + k * 2 ^ b)%Z -> wrap s b x = wrap s b y.
Proof.
  intros Hb ->. assert (0 < 2 ^ b)%Z by (apply Z.pow_pos_nonneg; lia). unfold wrap. destruct s.
  - replace (y + k * 2 ^ b + 2 ^ (b - 1))%Z with (y + 2 ^ (b - 1) + k * 2 ^ b)%Z by lia.
    rewrite Z_mod_plus_full. reflexivity.
  - now rewrite Z_mod_plus_full.
Qed.

Lemma wrap_range s b z : (1 <= b)%Z -> in_range s b (wrap s b z) = true.
Proof.
  intros Hb. apply in_range_iff. unfold wrap, ty_min, ty_max. pose proof (pow_half b Hb).
  assert (0 < 2 ^ b)%Z by (apply Z.pow_pos_nonneg; lia).
  destruct s; [pose proof (Z.mod_pos_bound (z + 2 ^ (b - 1)) (2 ^ b))|pose proof (Z.mod_pos_bound z (2 ^ b))]; lia.
Qed.

Lemma to_char_id T z : ct_ok T -> tok T z -> to_char T z = z.
Proof. intros. unfold to_char. now apply wrap_id. Qed.

Lemma index_inj T x y : ct_ok T -> tok T x -> tok T y -> as_index T x = as_index T y -> x = y.
Proof.
  unfold ct_ok, tok. intros Hb Hx Hy E. unfold as_index in E.
  rewrite <- (wrap_id (ct_signed T) (ct_bits T) x), <- (wrap_id (ct_signed T) (ct_bits T) y) by auto.
  destruct (wrap_mod false (ct_bits T) x Hb) as [k Hk]. destruct (wrap_mod false (ct_bits T) y Hb) as [l Hl].
  apply (wrap_cong _ _ _ _ (l - k)); auto. lia.
Qed.

(** A set over [T] with members of type [T]. *)
Fixpoint cs_ok (T : char_ty) (s : charset) : Prop :=
  match s with
  | CAny t | CSingle t _ | CRange t _ _ | CDelegated t _ => t = T
  | CSet t l => t = T /\ Forall (tok T) l
  | CNot a => cs_ok T a
  | COr a b => cs_ok T a /\ cs_ok T b
  end.

Lemma cs_ok_char T s : cs_ok T s -> set_char_t s = T.
Proof. induction s; cbn; intuition. Qed.

Lemma valid_in_set T s z : ct_ok T -> cs_ok T s -> tok T z -> is_valid s z = true <-> in_set s z.
Proof.
  intros HT Hs Hz. induction s; cbn in *; subst.
  - tauto.
  - apply Z.eqb_eq.
  - rewrite to_char_id by auto. rewrite andb_true_iff, !Z.leb_le. tauto.
  - destruct Hs as [-> Hl]. rewrite to_char_id by auto. rewrite existsb_exists. split.
    + intros (x & Hx & E). apply Z.eqb_eq in E. rewrite Forall_forall in Hl.
      apply index_inj in E; auto. now subst.
    + intros H. exists z. split; auto. apply Z.eqb_refl.
  - rewrite to_char_id by auto. tauto.
  - rewrite (cs_ok_char T) by auto. rewrite to_char_id by auto. rewrite negb_true_iff.
    specialize (IHs Hs). destruct (is_valid s z); intuition congruence.
  - destruct Hs as [H1 H2]. rewrite (cs_ok_char T s1) by auto. rewrite to_char_id by auto.
    rewrite orb_true_iff. tauto.
Qed.

(** ** Digits *)

Ltac zb := repeat match goal with
  | |- context [(?x <=? ?y)%Z] => destruct (Z.leb_spec x y)
  | |- context [(?x <? ?y)%Z] => destruct (Z.ltb_spec x y)
  end.

Lemma tok_char z : tok ct_char z -> to_char ct_char z = z.
Proof. intros. apply to_char_id; auto. unfold ct_ok. cbn. lia. Qed.

Lemma digit_valid_ok b z : (2 <= b <= 35)%Z -> tok ct_char z -> digit_valid b z = is_digit b z.
Proof.
  intros Hb Hz. unfold digit_valid, is_digit, digit_rank. rewrite tok_char by auto. cbv zeta.
  zb; cbn [andb orb]; zb; auto; lia.
Qed.

Lemma digit_value_ok b z : (2 <= b <= 35)%Z -> tok ct_char z -> is_digit b z = true ->
  digit_rank z = Some (digit_value b z) /\ (0 <= digit_value b z < b)%Z.
Proof.
  intros Hb Hz. unfold digit_value, is_digit, digit_rank. rewrite tok_char by auto. cbv zeta.
  zb; cbn [andb orb]; zb; try discriminate; intros; (split; [f_equal; lia|lia]).
Qed.

(** ** Literals *)

Lemma lit_run_ok l : forall s,
  match lit_run l s with
  | (true, t) => s = l ++ t
  | (false, _) => forall t, s <> l ++ t
  end.
Proof.
  induction l as [|x l IH]; intros s; [reflexivity|]. destruct s as [|y s]; cbn; [congruence|].
  destruct (Z.eqb_spec y x) as [->|N].
  - specialize (IH s). destruct (lit_run l s) as [[] t]; cbn; [congruence|]. intros t' E. injection E as E. eapply IH; eauto.
  - intros t E. congruence.
Qed.

(** The failing position. *)
Lemma lit_run_pos l : forall s r t, lit_run l s = (r, t) -> exists k, s = k ++ t.
Proof.
  induction l as [|x l IH]; intros s r t; cbn.
  - intros [= <- <-]. now exists [].
  - destruct s as [|y s]; [intros [= <- <-]; now exists []|].
    destruct (Z.eqb y x); [|intros [= <- <-]; now exists []].
    intros H. apply IH in H. destruct H as [k ->]. now exists (y :: k).
Qed.

(** ** Numbers *)

Section Num.
Context (b lo hi : Z).
Hypothesis Hb : (2 <= b <= 35)%Z.
Hypothesis Hlh : (hi <= 0 \/ lo <= hi)%Z.

Definition left_of (cnt : Z) (s : list Z) : nat :=
  if (0 <? hi)%Z then Nat.min (Z.to_nat (hi - cnt)) (digits b s) else digits b s.

Lemma left_of_0 s : left_of 0 s = taken b hi s.
Proof. unfold left_of, taken. now rewrite Z.sub_0_r. Qed.

Lemma left_of_step cnt x t : is_digit b x = true -> (hi <= 0 \/ cnt + 1 < hi)%Z ->
  left_of cnt (x :: t) = S (left_of (cnt + 1) t).
Proof.
  intros Hx H. unfold left_of. cbn [digits]. rewrite Hx. destruct (Z.ltb_spec 0 hi); auto.
  replace (Z.to_nat (hi - cnt)) with (S (Z.to_nat (hi - (cnt + 1)))) by lia. reflexivity.
Qed.

Lemma left_of_last cnt x t : is_digit b x = true -> (0 < hi)%Z -> (cnt + 1 = hi)%Z ->
  left_of cnt (x :: t) = 1.
Proof.
  intros Hx H E. unfold left_of. cbn [digits]. rewrite Hx. destruct (Z.ltb_spec 0 hi); [|lia].
  replace (Z.to_nat (hi - cnt)) with 1 by lia. reflexivity.
Qed.

Lemma left_of_none cnt s : match s with x :: _ => is_digit b x = false | [] => True end -> left_of cnt s = 0.
Proof.
  intros H. unfold left_of. assert (digits b s = 0) as ->; [destruct s; cbn; auto; now rewrite H|].
  destruct (0 <? hi)%Z; auto. apply Nat.min_0_r.
Qed.

Lemma uint_run_rec d : forall s cnt cs r s' cs',
  Forall (tok ct_char) s -> (0 <= cnt)%Z -> (hi <= 0 \/ cnt < hi)%Z ->
  uint_run b lo hi d cnt cs s = Done (r, s', cs') ->
  s' = skipn (left_of cnt s) s /\ r = (lo <=? cnt + Z.of_nat (left_of cnt s))%Z.
Proof.
  induction s as [|x t IH]; intros cnt cs r s' cs' Hs Hc Hh; cbn [uint_run].
  - intros [= <- <- <-]. rewrite left_of_none by exact I. cbn. now rewrite Z.add_0_r.
  - inversion Hs as [|? ? Hx Ht]; subst. rewrite digit_valid_ok by auto. destruct (is_digit b x) eqn:Ex.
    + destruct (num_op _ cs d) as [c1|]; [|discriminate]. cbn. destruct (num_op _ c1 d) as [c2|]; [|discriminate].
      cbn. destruct (Z.eqb_spec (cnt + 1) hi) as [E|N].
      * intros [= <- <- <-]. rewrite left_of_last by (auto; lia). split; auto.
        destruct (Z.leb_spec lo (cnt + Z.of_nat 1)); auto. lia.
      * intros H. apply IH in H; auto; try lia. rewrite left_of_step by (auto; lia). destruct H as [-> ->].
        split; auto. f_equal. lia.
    + intros [= <- <- <-]. rewrite left_of_none by auto. cbn. now rewrite Z.add_0_r.
Qed.

Lemma uint_number d s cs r s' cs' :
  Forall (tok ct_char) s ->
  uint_run b lo hi d 0 cs s = Done (r, s', cs') ->
  number b lo hi s = (if r then Some s' else None).
Proof.
  intros Hs H. apply uint_run_rec in H; auto; [|lia|lia]. rewrite left_of_0 in H. destruct H as [-> ->].
  unfold number. now rewrite Z.add_0_l.
Qed.

Lemma int_number d s cs r s' cs' :
  Forall (tok ct_char) s ->
  int_run b lo hi d cs s = Done (r, s', cs') ->
  number b lo hi (unsigned s) = (if r then Some s' else None).
Proof.
  intros Hs H. unfold int_run in H. unfold unsigned.
  assert (exists neg, (match s with
            | x :: t => if (x =? 45)%Z then (true, t) else if (x =? 43)%Z then (false, t) else (false, s)
            | [] => (false, [])
            end) = (neg, match s with
              | z :: t => if ((z =? 45) || (z =? 43))%Z%bool then t else s
              | [] => [] end)) as [neg E].
  { destruct s as [|x t]; [eauto|]. destruct (x =? 45)%Z; [eauto|]. destruct (x =? 43)%Z; eauto. }
  rewrite E in H. cbn in H.
  match type of H with obind ?u _ = _ => destruct u as [[[r0 s0] c0]|] eqn:Eu; [|discriminate] end.
  cbn in H. destruct (neg_cells d neg c0); [|discriminate]. cbn in H. injection H as -> -> ->.
  apply uint_number in Eu; auto. destruct s as [|x t]; auto. inversion Hs; subst.
  destruct ((x =? 45) || (x =? 43))%Z%bool; auto.
Qed.
End Num.

(** Where a number stops. *)
Lemma uint_run_pos b lo hi d : forall s cnt cs r s' cs',
  uint_run b lo hi d cnt cs s = Done (r, s', cs') -> exists k, s = k ++ s'.
Proof.
  induction s as [|x t IH]; intros cnt cs r s' cs'; cbn [uint_run].
  - intros [= <- <- <-]. now exists [].
  - destruct (digit_valid b x).
    + destruct (num_op _ cs d) as [c1|]; [|discriminate]. cbn. destruct (num_op _ c1 d) as [c2|]; [|discriminate].
      cbn. destruct (cnt + 1 =? hi)%Z; [intros [= <- <- <-]; now exists [x]|].
      intros H. apply IH in H. destruct H as [k ->]. now exists (x :: k).
    + intros [= <- <- <-]. now exists [].
Qed.

Lemma int_run_pos b lo hi d s cs r s' cs' :
  int_run b lo hi d cs s = Done (r, s', cs') -> exists k, s = k ++ s'.
Proof.
  unfold int_run.
  assert (exists neg k s1, (match s with
            | x :: t => if (x =? 45)%Z then (true, t) else if (x =? 43)%Z then (false, t) else (false, s)
            | [] => (false, [])
            end) = (neg, s1) /\ s = k ++ s1) as (neg & k & s1 & -> & ->).
  { destruct s as [|x t]; [exists false, [], []; auto|].
    destruct (x =? 45)%Z; [exists true, [x], t; auto|]. destruct (x =? 43)%Z; [exists false, [x], t; auto|].
    exists false, [], (x :: t); auto. }
  destruct (uint_run b lo hi d 0 cs s1) as [[[r0 s0] c0]|] eqn:Eu; [|discriminate]. cbn.
  destruct (neg_cells d neg c0); [|discriminate]. cbn. intros [= <- <- <-].
  apply uint_run_pos in Eu. destruct Eu as [k2 ->]. exists (k ++ k2). now rewrite app_assoc.
Qed.

(** ** Symbol tables *)

Fixpoint trie_find (n : trie) (k : list Z) : option val :=
  match k with
  | [] => trie_val n
  | x :: k' => match assoc x (trie_child n) with Some n' => trie_find n' k' | None => None end
  end.

Lemma assoc_set_same {A} k (a : A) l : assoc k (assoc_set k a l) = Some a.
Proof.
  induction l as [|[k' a'] l IH]; cbn; [now rewrite Z.eqb_refl|].
  destruct (Z.eqb_spec k k'); cbn; [now rewrite Z.eqb_refl|]. destruct (Z.eqb_spec k k'); congruence.
Qed.

Lemma assoc_set_other {A} k k2 (a : A) l : k <> k2 -> assoc k (assoc_set k2 a l) = assoc k l.
Proof.
  intros N. induction l as [|[k' a'] l IH]; cbn.
  - destruct (Z.eqb_spec k k2); congruence.
  - destruct (Z.eqb_spec k2 k'); cbn.
    + subst. destruct (Z.eqb_spec k k'); [congruence|auto].
    + destruct (Z.eqb_spec k k'); auto.
Qed.

Lemma trie_find_empty k : trie_find (Node None []) k = None.
Proof. destruct k; reflexivity. Qed.

Lemma trie_find_same k v : forall n, trie_find (trie_insert k v n) k = Some v.
Proof. induction k as [|x k IH]; intros n; cbn; [reflexivity|]. now rewrite assoc_set_same. Qed.

Lemma trie_find_other k v : forall n k', k <> k' -> trie_find (trie_insert k v n) k' = trie_find n k'.
Proof.
  induction k as [|x k IH]; intros n k' N; cbn.
  - destruct k'; [congruence|reflexivity].
  - destruct k' as [|y k']; [reflexivity|]. cbn. destruct (Z.eq_dec x y) as [<-|Nx].
    + rewrite assoc_set_same, IH by congruence. destruct (assoc x (trie_child n)); auto. apply trie_find_empty.
    + now rewrite assoc_set_other by congruence.
Qed.

Lemma trie_find_insert k v n k' :
  trie_find (trie_insert k v n) k' = if list_eq_dec Z.eq_dec k k' then Some v else trie_find n k'.
Proof.
  destruct (list_eq_dec Z.eq_dec k k') as [->|N]; [apply trie_find_same|now apply trie_find_other].
Qed.

Lemma trie_fold_find e : forall n k v,
  trie_find (fold_left (fun n e => trie_insert (fst e) (snd e) n) e n) k = Some v ->
  In (k, v) e \/ trie_find n k = Some v.
Proof.
  induction e as [|[k0 v0] e IH]; intros n k v; cbn; auto.
  intros H. apply IH in H. destruct H as [H|H]; auto. rewrite trie_find_insert in H.
  destruct (list_eq_dec Z.eq_dec k0 k); auto. injection H as ->. subst. auto.
Qed.

Lemma trie_fold_kept e : forall n k, trie_find n k <> None ->
  trie_find (fold_left (fun n e => trie_insert (fst e) (snd e) n) e n) k <> None.
Proof.
  induction e as [|[k0 v0] e IH]; intros n k; cbn; auto.
  intros H. apply IH. rewrite trie_find_insert. destruct (list_eq_dec Z.eq_dec k0 k); congruence.
Qed.

Lemma trie_fold_in e : forall n k v, In (k, v) e ->
  trie_find (fold_left (fun n e => trie_insert (fst e) (snd e) n) e n) k <> None.
Proof.
  induction e as [|[k0 v0] e IH]; intros n k v; cbn; [tauto|].
  intros [H|H]; [|now apply (IH _ _ v)]. injection H as -> ->. apply trie_fold_kept.
  rewrite trie_find_insert. destruct (list_eq_dec Z.eq_dec k k); congruence.
Qed.

Lemma trie_build_find e k v : trie_find (trie_build e) k = Some v -> In (k, v) e.
Proof. intros H. apply trie_fold_find in H. rewrite trie_find_empty in H. intuition congruence. Qed.
Lemma trie_build_none e k : trie_find (trie_build e) k = None -> forall v, ~ In (k, v) e.
Proof. intros H v Hi. now apply trie_fold_in with (n := Node None []) in Hi. Qed.

(** The longest non-empty entry in front of [s]. *)
Fixpoint longest (n : trie) (s : list Z) : option (val * list Z) :=
  match s with
  | [] => None
  | x :: t =>
    match assoc x (trie_child n) with
    | None => None
    | Some n' =>
      match longest n' t with
      | Some r => Some r
      | None => match trie_val n' with Some v => Some (v, t) | None => None end
      end
    end
  end.

Lemma longest_ok s : forall n,
  match longest n s with
  | Some (v, t) => exists k, s = k ++ t /\ k <> [] /\ trie_find n k = Some v /\
                   forall k' t', s = k' ++ t' -> trie_find n k' <> None -> length k' <= length k
  | None => forall k t, s = k ++ t -> k <> [] -> trie_find n k = None
  end.
Proof.
  induction s as [|x s IH]; intros n; cbn.
  - intros k t E N. destruct k; [congruence|discriminate].
  - destruct (assoc x (trie_child n)) as [n'|] eqn:Ea.
    + specialize (IH n'). destruct (longest n' s) as [[v t]|] eqn:El.
      * destruct IH as (k & -> & Hk & Hf & Hm). exists (x :: k). cbn. rewrite Ea.
        split; [auto|split; [discriminate|split; [auto|]]].
        intros k' t' E Hf'. destruct k' as [|y k']; cbn; [lia|]. injection E as <- E. cbn in Hf'. rewrite Ea in Hf'.
        specialize (Hm _ _ E Hf'). lia.
      * destruct (trie_val n') as [v|] eqn:Ev.
        -- exists [x]. cbn. rewrite Ea. split; [auto|split; [discriminate|split; [auto|]]].
           intros k' t' E Hf'. destruct k' as [|y k']; cbn; [lia|]. injection E as <- E. cbn in Hf'. rewrite Ea in Hf'.
           destruct k' as [|z k']; cbn; [lia|]. exfalso. apply Hf'. apply (IH (z :: k') t'); auto. discriminate.
        -- intros k t E N. destruct k as [|y k]; [congruence|]. injection E as <- E. cbn. rewrite Ea.
           destruct k as [|z k]; [exact Ev|]. apply (IH (z :: k) t); auto. discriminate.
    + intros k t E N. destruct k as [|y k]; [congruence|]. injection E as <- E. cbn. now rewrite Ea.
Qed.

Definition sym_done (d : dst) (cs : list val) (v : val) (t : list Z) : outcome (bool * list Z * list val) :=
  obind (assign cs d v) (fun c => Done (true, t, c)).

Lemma sym_run_longest d cs s : forall nx valid m,
  (forall n, valid = Some n -> trie_val n <> None) ->
  exists k f, s = k ++ f /\
  sym_run d nx valid m cs s =
  match longest nx s with
  | Some (v, t) => sym_done d cs v t
  | None => match valid with
            | Some n => match trie_val n with Some v => sym_done d cs v m | None => Err EShape end
            | None => Done (false, f, cs)
            end
  end.
Proof.
  assert (forall (valid : option trie) m f, (forall n, valid = Some n -> trie_val n <> None) ->
    sym_end d valid m cs f = match valid with
            | Some n => match trie_val n with Some v => sym_done d cs v m | None => Err EShape end
            | None => Done (false, f, cs)
            end) as HE.
  { intros [n|] m f H; cbn; auto. specialize (H n eq_refl). unfold sym_value. destruct (trie_val n); [reflexivity|congruence]. }
  induction s as [|x s IH]; intros nx valid m Hv; cbn.
  - exists [], []. split; auto.
  - destruct (assoc x (trie_child nx)) as [n'|].
    2:{ exists [], (x :: s). split; auto. }
    destruct (trie_val n') as [v|] eqn:Ev.
    + destruct (trie_child n') as [|e l] eqn:Ec.
      * exists [], (x :: s). split; auto. assert (longest n' s = None) as ->; [|reflexivity].
        destruct s; cbn; auto. now rewrite Ec.
      * destruct (IH n' (Some n') s) as (k & f & -> & ->). { intros n [= <-]. congruence. }
        exists (x :: k), f. split; auto. destruct (longest n' _) as [[v0 t0]|]; auto. now rewrite Ev.
    + destruct (IH n' valid m Hv) as (k & f & -> & ->). exists (x :: k), f. split; auto.
      destruct (longest n' _) as [[v0 t0]|]; auto.
Qed.

(** No key is empty (the constructor of std::map cannot see to it). *)
Definition keys_ok (e : list (list Z * val)) : Prop := Forall (fun kv => fst kv <> []) e.

Lemma sym_spec d e cs s r s' cs' : keys_ok e ->
  sym_run d (trie_build e) None [] cs s = Done (r, s', cs') ->
  (exists k0, s = k0 ++ s') /\
  if r then exists k v, s = k ++ s' /\ In (k, v) e /\ assign cs d v = Done cs' /\
         trie_find (trie_build e) k = Some v /\
         forall k' v' t', s = k' ++ t' -> In (k', v') e -> length k' <= length k
  else cs' = cs /\ forall k v t, s = k ++ t -> ~ In (k, v) e.
Proof.
  intros Hk H. destruct (sym_run_longest d cs s (trie_build e) None []) as (k0 & f & E & HR); [discriminate|].
  rewrite HR in H. pose proof (longest_ok s (trie_build e)) as L.
  destruct (longest (trie_build e) s) as [[v t]|].
  - unfold sym_done in H. destruct (assign cs d v) eqn:Ea; [|discriminate]. cbn in H. injection H as <- <- <-.
    destruct L as (k & Es & Nk & Hf & Hm). split; [eauto|]. exists k, v. repeat (split; [auto using trie_build_find|]).
    intros k' v' t' Es' Hin. apply (Hm k' t'); auto. intros N. now apply trie_build_none with (v := v') in N.
  - injection H as <- <- <-. split; [eauto|]. split; auto. intros k v t Es Hin.
    assert (k <> []) as N. { unfold keys_ok in Hk. rewrite Forall_forall in Hk. now apply (Hk _ Hin). }
    apply (trie_build_none e k) with (v := v); auto. eapply L; eauto.
Qed.
