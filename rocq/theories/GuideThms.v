(** Players, rectangles and nested lists of the user guide. *)
From Coq Require Import String List ZArith Bool Arith Lia.
From Verif Require Import Base CharSet Source Dst Pattern Parser Session SpecSession SpecPeg SpecRun SpecValue SpecCollect SpecSkip SpecLeaf SpecText SpecGuide.
From Verif Require Import Rel Big BigLeaf Leaf PegSound Comb Run Local LocalThms Unary Group LeafThms Fill Atomic Collect Element Quiet Gather Under RoundTrip StreamThms Demo Guide.
Import ListNotations.

Section Guide.
Context (env : nat -> option pat).
Hypothesis Hmok : forall id q, env id = Some q -> mok true recur_req q = true.
Hypothesis Hplain : forall id q, env id = Some q -> plain q = true.
Let Hub : all_unbound env := env_unbound env Hplain.

(** ** The player *)
Lemma in_blanks z : in_set blanks z <-> In z [32; 13; 10; 9]%Z.
Proof. exact (in_cstr [32; 13; 10; 9]%Z [] z ltac:(cbn; intuition discriminate)). Qed.
Lemma alnum_blank z : in_set alnum z -> ~ in_set blanks z.
Proof. rewrite in_blanks. cbn. lia. Qed.
Lemma digit_alnum z : is_digit 10 z = true -> in_set alnum z.
Proof.
  unfold is_digit, digit_rank. cbn.
  destruct ((48 <=? z) && (z <=? 57))%Z eqn:E1; [apply andb_prop in E1; rewrite !Z.leb_le in E1; lia|].
  destruct ((97 <=? z) && (z <=? 122))%Z eqn:E2; [apply andb_prop in E2; rewrite !Z.leb_le in E2; lia|].
  destruct ((65 <=? z) && (z <=? 90))%Z eqn:E3; [apply andb_prop in E3; rewrite !Z.leb_le in E3; lia|]. discriminate.
Qed.
Lemma blank_then_stops b s : word blanks b -> b <> [] -> stops alnum (b ++ s).
Proof. intros Hb Hn z l E. destruct b as [|y b]; [congruence|]. injection E as <- _. inversion Hb; subst. intros H. now apply (alnum_blank y). Qed.
Lemma word_then_stops a s : word alnum a -> a <> [] -> stops blanks (a ++ s).
Proof. intros Hb Hn z l E. destruct a as [|y a]; [congruence|]. injection E as <- _. inversion Hb; subst. now apply alnum_blank. Qed.

Theorem player_read sg w sg2 w2 b1 first b2 last b3 ds rest v1 v2 v3 : (1 <= w)%Z -> (1 <= w2)%Z ->
  word blanks b1 -> word alnum first -> first <> [] -> word blanks b2 -> b2 <> [] -> word alnum last -> last <> [] ->
  word blanks b3 -> b3 <> [] -> ds <> [] -> Forall (fun z => is_digit 10 z = true) ds -> no_digit 10 rest ->
  safe sg2 w2 (value 10 ds) -> Forall (tok ct_char) (b1 ++ first ++ b2 ++ last ++ b3 ++ ds ++ rest) ->
  does env player (TTuple [TColl (TNum sg w); TColl (TNum sg w); TNum sg2 w2]) (VTuple [ints v1; ints v2; v3])
    (b1 ++ first ++ b2 ++ last ++ b3 ++ ds ++ rest) SUCCESS rest
    (VTuple [ints (v1 ++ map (wrap sg w) first); ints (v2 ++ map (wrap sg w) last); VNum (wrap sg2 w2 (value 10 ds))]) [].
Proof.
  intros Hw Hw2 Hb1 Hf Hf' Hb2 Hb2' Hl Hl' Hb3 Hb3' Hd Hd' Hr Hs Ht.
  apply (under_inside env Hmok (Char blanks) (Seq [name; name; uint_]) _ _ _ true); [reflexivity|reflexivity|].
  cbn [inside map]. apply seq_tuple; auto; try discriminate. eexists. split; [reflexivity|].
  assert (Forall (tok ct_char) (b2 ++ last ++ b3 ++ ds ++ rest)) as Ht2 by (rewrite !Forall_app in Ht; rewrite !Forall_app; tauto).
  assert (Forall (tok ct_char) (b3 ++ ds ++ rest)) as Ht3 by (rewrite !Forall_app in Ht; rewrite !Forall_app; tauto).
  change (@nil event) with (@nil event ++ ([] ++ ([] ++ []))).
  eapply spr_next; [reflexivity| |eapply spr_next; [reflexivity| |eapply spr_next; [reflexivity| |apply spr_end]]].
  - apply (word_under env Hmok Hplain alnum blanks eq_refl eq_refl sg w Hw); auto using blank_then_stops, word_then_stops.
  - apply (word_under env Hmok Hplain alnum blanks eq_refl eq_refl sg w Hw); auto using blank_then_stops, word_then_stops.
  - apply (number_under env Hmok blanks eq_refl sg2 w2 Hw2); auto. intros z Hz. now apply alnum_blank, digit_alnum.
Qed.

(** ** Rectangles *)
Inductive token : Type := TInt (z : Z) | TLit (c : Z).
Definition tok_pat (a : token) : pat := match a with TInt _ => int_ | TLit c => lit_c c end.
Definition tok_txt (a : token) : list Z := match a with TInt z => dec z | TLit c => [c] end.
Fixpoint numbers (l : list token) : list Z := match l with [] => [] | TInt z :: l => z :: numbers l | TLit _ :: l => numbers l end.
Definition tok_ok (a : token) : Prop :=
  match a with TInt z => readable true 32 z | TLit c => tok ct_char c /\ ~ is_blank c /\ is_digit 10 c = false end.
Fixpoint apart_toks (mid : list Z) (l : list token) : Prop :=
  match l with
  | [TInt _] => no_digit 10 mid
  | TInt _ :: t => match t with TLit _ :: _ => apart_toks mid t | _ => False end
  | TLit _ :: t => apart_toks mid t
  | [] => True
  end.

Lemma spaced_lit c ts text rest : is_digit 10 c = false -> spaced is_blank ([c] :: ts) text rest -> no_digit 10 text.
Proof.
  intros Hc H. inversion H as [|b t ts' text1 rest' Hb H1]; subst. destruct Hb as [|y b Hy Hb]; cbn; auto.
  now apply blank_plain in Hy.
Qed.

Lemma toks_read mid toks : Forall tok_ok toks -> apart_toks mid toks -> forall l ts vs old text r s' vs' k,
  length old = length (numbers toks) ->
  spaced is_blank (map tok_txt toks) text mid -> Forall (tok ct_char) text -> spread env l ts vs mid r s' vs' k ->
  spread env (map (fun a => under ws (tok_pat a)) toks ++ l) (repeat int32 (length (numbers toks)) ++ ts) (old ++ vs) text r s'
    (map VNum (numbers toks) ++ vs') k.
Proof.
  induction 1 as [|a toks Ha H IH]; intros Hap l ts vs old text r s' vs' k Hold Hsp Ht Hl.
  - destruct old; [|discriminate]. inversion Hsp; subst. exact Hl.
  - inversion Hsp as [|b t ts' text1 rest' Hb Hsp1]; subst.
    assert (Forall (tok ct_char) text1) as Ht1 by (rewrite !Forall_app in Ht; tauto).
    assert (Forall (tok ct_char) b) as Htb by (rewrite !Forall_app in Ht; tauto).
    destruct a as [z|c]; cbn [map app numbers tok_pat tok_txt length repeat] in *.
    + destruct old as [|o old]; [discriminate|]. injection Hold as Hold. cbn [app].
      assert (no_digit 10 text1 /\ apart_toks mid toks) as [Hn Hap1].
      { destruct toks as [|[z2|c] toks]; [|destruct Hap|].
        - inversion Hsp1; subst. split; [exact Hap|exact I].
        - split; [|exact Hap]. eapply spaced_lit; [|exact Hsp1]. inversion H; subst. cbn in H2. tauto. }
      eapply (spr_next env) with (k1 := []) (k := k); [reflexivity| |apply (IH Hap1); eauto].
      apply (int_here env Hmok ws is_blank eq_refl (skip_blank env) blank_plain true 32 ltac:(lia)); auto.
    + destruct Ha as (Hc1 & Hc2 & Hc3). eapply (spr_quiet env) with (v' := VNil) (k1 := []) (k := k); [reflexivity| |apply IH; eauto].
      apply (lit_here env Hmok Hub ws is_blank eq_refl (skip_blank env)); auto.
Qed.

Lemma spaced_split bl ts1 : forall ts2 text rest, spaced bl (ts1 ++ ts2) text rest <-> exists mid, spaced bl ts1 text mid /\ spaced bl ts2 mid rest.
Proof.
  induction ts1 as [|t ts1 IH]; intros ts2 text rest; cbn [app]; split.
  - intros H. exists text. split; [constructor|auto].
  - intros (mid & A & B). now inversion A; subst.
  - intros H. inversion H as [|b t' ts' text1 rest' Hb H1]; subst. apply IH in H1. destruct H1 as (mid & A & B). exists mid. split; auto. now constructor.
  - intros (mid & A & B). inversion A as [|b t' ts' text1 rest' Hb H1]; subst. constructor; auto. apply IH. eauto.
Qed.

Definition toks2 (x y : Z) : list token := [TLit 91; TInt x; TLit 44; TInt y; TLit 93].
Definition toks4 (x y w h : Z) : list token := [TLit 91; TInt x; TLit 44; TInt y; TLit 44; TInt w; TLit 44; TInt h; TLit 93].

Lemma rect_yes args toks v id text rest : Forall tok_ok toks -> apart_toks rest toks -> toks <> [] -> args = repeat int32 (length (numbers toks)) ->
  mok false default_req (under ws (Construct args (Seq (map tok_pat toks)))) = true ->
  spaced is_blank (map tok_txt toks) text rest -> Forall (tok ct_char) text ->
  does env (under ws (Construct args (Seq (map tok_pat toks)))) (TUser id) v text SUCCESS rest (VUser id (map VNum (numbers toks))) [].
Proof.
  intros Hok Hap Hne -> Hm Hsp Ht.
  apply (under_inside env Hmok ws (Construct _ (Seq (map tok_pat toks))) _ _ _ true); [reflexivity|exact Hm|]. cbn [inside].
  assert (forallb unbound (map tok_pat toks) = true) as Hu by (apply forallb_forall; intros q Hq; apply in_map_iff in Hq; destruct Hq as ([] & <- & _); reflexivity).
  apply does_construct; auto. right. split; auto. exists (map VNum (numbers toks)), (VUser id (map VNum (numbers toks))). split; [|split; constructor; try discriminate].
  2: { cbn. now rewrite Nat.eqb_refl. }
  apply (under_inside env Hmok ws (Seq (map tok_pat toks)) _ _ _ true); [destruct toks; [congruence|reflexivity]|exact Hm|]. cbn [inside].
  assert (exists old, value_init (TTuple (repeat int32 (length (numbers toks)))) = VTuple old /\ length old = length (numbers toks)) as (old & E1 & E2).
  { eexists. split; [reflexivity|]. now rewrite map_length, repeat_length. }
  rewrite E1. apply seq_tuple; auto.
  - destruct toks; [congruence|discriminate].
  - rewrite forallb_forall in *. intros q Hq. apply in_map_iff in Hq. destruct Hq as (q' & <- & Hq'). cbn. auto.
  - now rewrite repeat_length, E2.
  - eexists. split; [reflexivity|].
    pose proof (toks_read rest toks Hok Hap [] [] [] old text SUCCESS rest [] [] E2 Hsp Ht (spr_end _ _ _ _)) as HS.
    rewrite !app_nil_r in HS. rewrite map_map. exact HS.
Qed.


Lemma rect_no args toks more c d v id text rest : Forall tok_ok toks -> apart_toks [d] toks -> args = repeat int32 (length (numbers toks)) ->
  mok false default_req (under ws (Construct args (Seq (map tok_pat (toks ++ [TLit c]))))) = true ->
  tok_ok (TLit c) -> tok_ok (TLit d) -> c <> d -> spaced is_blank (map tok_txt (toks ++ TLit d :: more)) text rest -> Forall (tok ct_char) text ->
  exists s, does env (under ws (Construct args (Seq (map tok_pat (toks ++ [TLit c]))))) (TUser id) v text FAILURE s v [].
Proof.
  intros Hok Hap -> Hm Hc Hd Hne Hsp Ht. set (l := map tok_pat (toks ++ [TLit c])) in *.
  assert (forallb unbound l = true) as Hu by (apply forallb_forall; intros q Hq; apply in_map_iff in Hq; destruct Hq as ([] & <- & _); reflexivity).
  assert (l <> []) as Hl by (unfold l; destruct toks; discriminate).
  rewrite map_app in Hsp. apply spaced_split in Hsp. destruct Hsp as (mid & Hsp & Hd1).
  assert (no_digit 10 mid) as Hmid.
  { cbn [map tok_txt] in Hd1. eapply spaced_lit; [|exact Hd1]. apply Hd. }
  assert (apart_toks mid toks) as Hap'.
  { clear -Hap Hmid. induction toks as [|[z|a] toks IH]; auto. destruct toks as [|[z2|a] toks]; auto. }
  assert (exists a, text = a ++ mid) as (a & Ea).
  { clear -Hsp. induction Hsp; [exists []; reflexivity|]. destruct IHHsp as [a Ea]. exists (b ++ t ++ a). now rewrite Ea, !app_assoc. }
  inversion Hd1 as [|b t' ts' text1 rest' Hb H1]; subst mid. subst t' ts' rest'. cbn [tok_txt app] in *.
  assert (Forall (tok ct_char) b /\ Forall (tok ct_char) (d :: text1)) as [Htb Htd] by (rewrite Ea, !Forall_app in Ht; tauto).
  exists (d :: text1). apply (under_inside env Hmok ws (Construct _ (Seq l)) _ _ _ false); [reflexivity|exact Hm|]. cbn [inside].
  apply does_construct; auto. left. split; auto. split; auto. exists (VTuple (map VNum (numbers toks))).
  apply (under_inside env Hmok ws (Seq l) _ _ _ false); [destruct l; [congruence|reflexivity]|exact Hm|]. cbn [inside].
  assert (exists old, value_init (TTuple (repeat int32 (length (numbers toks)))) = VTuple old /\ length old = length (numbers toks)) as (old & E1 & E2).
  { eexists. split; [reflexivity|]. now rewrite map_length, repeat_length. }
  rewrite E1. apply seq_tuple; auto.
  - destruct l; [congruence|discriminate].
  - rewrite forallb_forall in *. intros q Hq. apply in_map_iff in Hq. destruct Hq as (q' & <- & Hq'). cbn. auto.
  - now rewrite repeat_length, E2.
  - eexists. split; [reflexivity|]. unfold l. rewrite map_app, map_app, map_map. cbn [map tok_pat].
    rewrite <- (app_nil_r (repeat int32 _)), <- (app_nil_r old), <- (app_nil_r (map VNum _)).
    eapply toks_read; eauto. apply spr_quiet_no with (v' := VNil); [reflexivity|].
    destruct Hc as (C1 & C2 & C3). destruct Hd as (D1 & D2 & D3).
    apply (lit_not_here env Hmok Hub ws is_blank eq_refl (skip_blank env)); auto.
Qed.

Ltac lits := repeat first [assumption|apply Forall_cons|apply Forall_nil|split; [reflexivity|split; [unfold is_blank; cbn; intuition discriminate|reflexivity]]]; auto.

Theorem rectangle2 x y id v text rest : readable true 32 x -> readable true 32 y ->
  spaced is_blank [txt "["; dec x; txt ","; dec y; txt "]"] text rest -> Forall (tok ct_char) text ->
  does env rectangle (TUser id) v text SUCCESS rest (VUser id [VNum x; VNum y]) [].
Proof.
  intros Hx Hy Hsp Ht. apply (under_inside env Hmok ws (Alt [rect2; rect4]) _ _ _ true); [reflexivity|reflexivity|]. cbn [inside map].
  apply (alt_law env Hmok _ _ _ _ true); [discriminate|reflexivity|reflexivity|]. apply try_this.
  apply (rect_yes [int32; int32] (toks2 x y)); try reflexivity; auto; try discriminate; try exact I. all: unfold toks2; lits.
Qed.

Theorem rectangle4 x y w h id v text rest : readable true 32 x -> readable true 32 y -> readable true 32 w -> readable true 32 h ->
  spaced is_blank [txt "["; dec x; txt ","; dec y; txt ","; dec w; txt ","; dec h; txt "]"] text rest -> Forall (tok ct_char) text ->
  does env rectangle (TUser id) v text SUCCESS rest (VUser id [VNum x; VNum y; VNum w; VNum h]) [].
Proof.
  intros Hx Hy Hw Hh Hsp Ht. apply (under_inside env Hmok ws (Alt [rect2; rect4]) _ _ _ true); [reflexivity|reflexivity|]. cbn [inside map].
  apply (alt_law env Hmok _ _ _ _ true); [discriminate|reflexivity|reflexivity|].
  destruct (rect_no [int32; int32] [TLit 91; TInt x; TLit 44; TInt y] [TInt w; TLit 44; TInt h; TLit 93] 93 44 v id text rest) as (s & Hs); auto; try reflexivity; try discriminate; try (lits; fail).
  apply try_next with (k1 := []) (k := []) (s1 := s) (v1 := v); [exact Hs|]. apply try_this.
  apply (rect_yes [int32; int32; int32; int32] (toks4 x y w h)); try reflexivity; auto; try discriminate; try exact I. all: unfold toks4; lits.
Qed.

Lemma dec_tok z : Forall (tok ct_char) (dec z).
Proof. destruct (dec_shape z) as (u & _ & [[-> _]|[-> _]]); [|constructor; [reflexivity|]]; apply spell_tok. Qed.

Theorem pair_read x y id v rest : readable true 32 x -> readable true 32 y -> no_digit 10 rest -> Forall (tok ct_char) rest ->
  does env pair_ (TUser id) v (dec x ++ txt "," ++ dec y ++ rest) SUCCESS rest (VUser id [VNum x; VNum y]) [].
Proof.
  intros [Hx1 Hx2] [Hy1 Hy2] Hr Ht.
  assert (Forall (tok ct_char) (dec y ++ rest)) as Hty by (apply Forall_app; split; [|exact Ht]; apply dec_tok).
  apply does_construct; auto. right. split; auto. exists [VNum x; VNum y], (VUser id [VNum x; VNum y]). split; [|split; constructor; try discriminate].
  2: { cbn. now rewrite Nat.eqb_refl. }
  apply seq_tuple; auto; try discriminate. eexists. split; [reflexivity|].
  eapply spr_next with (k1 := []) (k := []); [reflexivity| |].
  - apply int_roundtrip; auto; try lia; [apply Forall_app; split; [repeat constructor|exact Hty]|]. reflexivity.
  - eapply spr_quiet with (v' := VNil) (k1 := []) (k := []); [reflexivity| |eapply spr_next with (k1 := []) (k := []); [reflexivity| |apply spr_end]].
    + unfold lc. apply does_discard; auto. split; [reflexivity|]. apply (does_char env ct_char); auto using ct_char_ok; [constructor; [reflexivity|exact Hty]|]. split; [reflexivity|].
      left. split; [reflexivity|]. exists 44%Z. repeat split; auto. constructor.
    + apply int_roundtrip; auto; lia.
Qed.
End Guide.
