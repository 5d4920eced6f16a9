(** C35 once more, and C49 to C53: the patterns of the user guide (SpecGuide.v).

    [all_nested], [all_plain] (PropertiesCollect.v) are about the definitions of recursive
    patterns around; [noenv] has none. *)
From Coq Require Import String List ZArith Bool Arith Lia.
From Verif Require Import Base CharSet Source Dst Pattern Parser Session.
From Verif Require Import SpecSession SpecPeg SpecRun SpecValue SpecCollect SpecSkip SpecLeaf SpecText SpecGuide.
From Verif Require Import Big BigLeaf Leaf PegSound Fill Under Unary RoundTrip Pieces Guide GuideThms Nest NestThms Demo PropertiesCollect.
Import ListNotations.
Local Open Scope string_scope.
Local Open Scope list_scope.

Ltac chars := unfold tok; repeat (constructor; [calc|]); constructor.

(** Splits the text into its tokens. *)
Ltac tokens :=
  match goal with |- spaced _ ?l ?s ?r =>
    let l' := eval vm_compute in l in let s' := eval vm_compute in s in let r' := eval vm_compute in r in
    change (spaced is_blank l' s' r')
  end;
  repeat lazymatch goal with
  | |- spaced _ (?t :: ?l) (32%Z :: 32%Z :: ?s) _ => let u := eval vm_compute in (skipn (List.length t) s) in apply (spc_tok is_blank [32%Z; 32%Z] t l u); [repeat constructor|]
  | |- spaced _ (?t :: ?l) (32%Z :: ?s) _ => let u := eval vm_compute in (skipn (List.length t) s) in apply (spc_tok is_blank [32%Z] t l u); [repeat constructor|]
  | |- spaced _ (?t :: ?l) ?s _ => let u := eval vm_compute in (skipn (List.length t) s) in apply (spc_tok is_blank [] t l u); [constructor|]
  | |- _ => apply spc_end
  end.

(** ** C35 *)

(** A character, literal, symbol or number below a skipper is *skipper >> it.  Partial:
    skippers that give back what they read in vain. *)
Theorem C35_skipper_is_a_prefix_partial :
  forall env, all_nested env -> all_plain env ->
  forall sk p t v s r s' v' k, leaf p = true -> ignores p = false ->
  is_fail sk || sfree sk = true -> steady sk = true -> one t ->
  does env (under sk p) t v s (res r) s' v' k <-> does env (Seq [Discard (star sk); p]) t v s (res r) s' v' k.
Proof. exact skipper_is_prefix. Qed.
Print Assumptions C35_skipper_is_a_prefix_partial.

Example C35_prefix_example :
  all_nested noenv /\ all_plain noenv /\ leaf int_ = true /\ ignores int_ = false /\ sfree ws = true /\ steady ws = true /\ one int32
  /\ does noenv (under ws int_) int32 (VNum 0) (txt "  -45 ") SUCCESS (txt " ") (VNum (-45)) []
  /\ does noenv (Seq [Discard (star ws); int_]) int32 (VNum 0) (txt "  -45 ") SUCCESS (txt " ") (VNum (-45)) [].
Proof. cases; try calc; try perform; try discriminate; try (split; discriminate). Qed.

(** ** C49 *)

(** *uint<B, K, K> takes as many fields of K digits as there are, and gives back the rest. *)
Theorem C49_fields_of_digits :
  forall env, all_nested env -> all_plain env ->
  forall b K sg w, (2 <= b <= 35)%Z -> (1 <= K)%nat -> (1 <= w)%Z ->
  forall gs short rest l0, Forall (field b K) gs ->
  Forall (fun z => is_digit b z = true) short -> (List.length short < K)%nat -> no_digit b rest ->
  Forall (tok ct_char) (concat gs ++ short ++ rest) -> Forall (fun g => safe sg w (value b g)) (short :: gs) ->
  does env (star (UInt b (Z.of_nat K) (Z.of_nat K))) (TColl (TNum sg w)) (ints l0) (concat gs ++ short ++ rest) SUCCESS
    (short ++ rest) (ints (l0 ++ map (fun g => wrap sg w (value b g)) gs)) [].
Proof. exact fields_read. Qed.
Print Assumptions C49_fields_of_digits.

(** Every text is of that form. *)
Theorem C49_every_text_has_fields :
  forall b K, (2 <= b <= 35)%Z -> (1 <= K)%nat -> forall s, exists gs short rest, s = concat gs ++ short ++ rest /\ Forall (field b K) gs /\
  Forall (fun z => is_digit b z = true) short /\ (List.length short < K)%nat /\ no_digit b rest.
Proof. exact fields_exist. Qed.
Print Assumptions C49_every_text_has_fields.

Theorem C49_fields_in_pieces :
  forall b K sg w, (2 <= b <= 35)%Z -> (1 <= K)%nat -> (1 <= w)%Z ->
  forall l gs short rest l0, complete l -> fed l = concat gs ++ short ++ rest -> Forall (field b K) gs ->
  Forall (fun z => is_digit b z = true) short -> (List.length short < K)%nat -> no_digit b rest ->
  Forall (tok ct_char) (fed l) -> Forall (fun g => safe sg w (value b g)) (short :: gs) ->
  delivers noenv (star (UInt b (Z.of_nat K) (Z.of_nat K))) (TColl (TNum sg w)) (ints l0) l SUCCESS
    (ints (l0 ++ map (fun g => wrap sg w (value b g)) gs)) [].
Proof.
  intros b K sg w Hb HK Hw l gs short rest l0 Hl E Hg Hs Hn Hr Ht Hsafe. apply pieces; auto. exists (short ++ rest).
  rewrite E in *. now apply (C49_fields_of_digits noenv noenv_nested noenv_plain).
Qed.
Print Assumptions C49_fields_in_pieces.

Example C49_example :
  Forall (field 16 2) [txt "1F"; txt "a0"; txt "00"] /\ (List.length (txt "c") < 2)%nat /\ no_digit 16 (txt "-")
  /\ Forall (fun g => safe true 32 (value 16 g)) [txt "c"; txt "1F"; txt "a0"; txt "00"]
  /\ does noenv (star (UInt 16 2 2)) (TColl int32) (ints [9%Z]) (txt "1Fa000c-") SUCCESS (txt "c-") (ints [9; 31; 160; 0]%Z) []
  /\ does noenv (star (UInt 10 2 2)) (TColl int32) (ints []) (txt "123456") SUCCESS [] (ints [12; 34; 56]%Z) [].
Proof.
  cases; try perform; try calc.
  - repeat (constructor; [split; [calc|repeat constructor]|]); constructor.
  - cbn. lia.
  - reflexivity.
  - repeat (constructor; [intros _; vm_compute; discriminate|]); constructor.
Qed.

(** ** C50 *)

(** lexeme( *char_(cs)) below a skipper of single characters is a word. *)
Theorem C50_lexeme_is_a_word :
  forall env, all_nested env -> all_plain env ->
  forall cs bs, cs_fits ct_char cs = true -> cs_fits ct_char bs = true -> forall sg w, (1 <= w)%Z ->
  forall b xs rest l0, word bs b -> word cs xs -> stops cs rest -> stops bs (xs ++ rest) -> Forall (tok ct_char) (b ++ xs ++ rest) ->
  does env (under (Char bs) (Lexeme (star (Char cs)))) (TColl (TNum sg w)) (ints l0) (b ++ xs ++ rest) SUCCESS rest
    (ints (l0 ++ map (wrap sg w) xs)) [].
Proof. exact word_under. Qed.
Print Assumptions C50_lexeme_is_a_word.

(** Without lexeme, words run together. *)
Theorem C50_without_lexeme_words_run_together :
  forall env, all_nested env -> all_plain env ->
  forall cs bs, cs_fits ct_char cs = true -> cs_fits ct_char bs = true -> forall sg w, (1 <= w)%Z ->
  forall s xs rest l0, sifted cs bs s xs -> apart cs bs -> stops cs rest -> stops bs rest -> Forall (tok ct_char) (s ++ rest) ->
  exists s', does env (under (Char bs) (star (Char cs))) (TColl (TNum sg w)) (ints l0) (s ++ rest) SUCCESS s'
    (ints (l0 ++ map (wrap sg w) xs)) [].
Proof. exact words_under. Qed.
Print Assumptions C50_without_lexeme_words_run_together.

(** The player of the guide. *)
Theorem C50_player :
  forall env, all_nested env -> all_plain env ->
  forall sg w sg2 w2 b1 first b2 last b3 ds rest v1 v2 v3, (1 <= w)%Z -> (1 <= w2)%Z ->
  word blanks b1 -> word alnum first -> first <> [] -> word blanks b2 -> b2 <> [] -> word alnum last -> last <> [] ->
  word blanks b3 -> b3 <> [] -> ds <> [] -> Forall (fun z => is_digit 10 z = true) ds -> no_digit 10 rest ->
  safe sg2 w2 (value 10 ds) -> Forall (tok ct_char) (b1 ++ first ++ b2 ++ last ++ b3 ++ ds ++ rest) ->
  does env player (TTuple [TColl (TNum sg w); TColl (TNum sg w); TNum sg2 w2]) (VTuple [ints v1; ints v2; v3])
    (b1 ++ first ++ b2 ++ last ++ b3 ++ ds ++ rest) SUCCESS rest
    (VTuple [ints (v1 ++ map (wrap sg w) first); ints (v2 ++ map (wrap sg w) last); VNum (wrap sg2 w2 (value 10 ds))]) [].
Proof. exact player_read. Qed.
Print Assumptions C50_player.

Ltac inset := cbn; lia.
Ltac letters := unfold word; repeat (constructor; [inset|]); constructor.
Example C50_example :
  word blanks (txt "    ") /\ word alnum (txt "John") /\ word alnum (txt "Doe") /\ no_digit 10 (txt ";") /\ safe false 32 (value 10 (txt "123"))
  /\ does noenv player (TTuple [str; str; TNum false 32]) (VTuple [chars ""; chars ""; VUndef]) (txt "John Doe    123;") SUCCESS (txt ";")
       (VTuple [chars "John"; chars "Doe"; VNum 123]) []
  /\ sifted alnum blanks (txt "John Doe 12") (txt "JohnDoe12") /\ apart alnum blanks
  /\ does noenv (under (Char blanks) (star (Char alnum))) str (chars "") (txt "John Doe 12") SUCCESS [] (chars "JohnDoe12") [].
Proof.
  cases; try perform; try calc; try reflexivity; try (intros _; vm_compute; discriminate); try solve [letters].
  intros z Hz. now apply alnum_blank.
Qed.

(** ** C51 *)

(** *char_(cs)[f]: the characters go through [f], in order, and the action is called once
    for each. *)
Theorem C51_characters_through_a_function :
  forall env, all_nested env -> all_plain env ->
  forall T cs sl wl sg w id g f, ct_ok T -> cs_fits T cs = true -> (1 <= w)%Z -> (1 <= wl)%Z ->
  (forall z, fst (g (VNum z) VNil) = VNum (f z)) ->
  forall xs rest l0, word cs xs -> stops cs rest -> Forall (tok T) (xs ++ rest) ->
  does env (star (Act (Action_ id (TNum sl wl) false false g) (Char cs))) (TColl (TNum sg w)) (ints l0) (xs ++ rest) SUCCESS rest
    (ints (l0 ++ map (fun z => wrap sg w (f (wrap sl wl z))) xs)) (map (fun z => Event id (VNum (wrap sl wl z))) xs).
Proof. exact transduced. Qed.
Print Assumptions C51_characters_through_a_function.

(** toupper, docs/guide/05_actions.md. *)
Definition C51_upper (z : Z) : Z := if (97 <=? z)%Z && (z <=? 122)%Z then (z - 32)%Z else z.
Definition C51_act : action :=
  Action_ 7 (TNum false 8) false false (fun x _ => (match x with VNum z => VNum (C51_upper z) | _ => VNil end, VNil)).
Definition C51_lower : charset := CRange ct_char 97 122.
Example C51_example :
  ct_ok ct_char /\ cs_fits ct_char C51_lower = true /\ word C51_lower (txt "bye") /\ stops C51_lower (txt "!x") /\ Forall (tok ct_char) (txt "bye!x")
  /\ does noenv (star (Act C51_act (Char C51_lower))) str (chars "") (txt "bye!x") SUCCESS (txt "!x") (chars "BYE")
       [Event 7 (VNum 98); Event 7 (VNum 121); Event 7 (VNum 101)].
Proof.
  cases; try perform; try calc.
  - unfold ct_ok. cbn. lia.
  - letters.
  - intros z rest E. injection E as <- _. inset.
  - chars.
Qed.

(** ** C52 *)

(** [nested_text bl s] (SpecGuide.v): [s] is an integer, or such texts in parentheses with
    commas between them; characters [bl] between the tokens.  Validation answers yes on
    exactly these. *)
Theorem C52_nested_lists_accepted :
  forall inp, Forall (tok ct_char) inp ->
  (nested_text no_blank inp -> does nest_env nest_doc TNil VNil inp SUCCESS [] VNil []) /\
  (~ nested_text no_blank inp -> exists s, does nest_env nest_doc TNil VNil inp FAILURE s VNil []).
Proof. exact nest_exact. Qed.
Print Assumptions C52_nested_lists_accepted.

Theorem C52_spaced_nested_lists_accepted :
  forall inp, Forall (tok ct_char) inp ->
  (nested_text is_blank inp -> exists s, does nest_env nest_doc_ws TNil VNil inp SUCCESS s VNil []) /\
  (~ nested_text is_blank inp -> exists s, does nest_env nest_doc_ws TNil VNil inp FAILURE s VNil []).
Proof. exact nest_exact_ws. Qed.
Print Assumptions C52_spaced_nested_lists_accepted.

Theorem C52_nested_lists_in_pieces :
  forall l, complete l -> Forall (tok ct_char) (fed l) ->
  (nested_text no_blank (fed l) -> delivers nest_env nest_doc TNil VNil l SUCCESS VNil []) /\
  (~ nested_text no_blank (fed l) -> delivers nest_env nest_doc TNil VNil l FAILURE VNil []) /\
  (nested_text is_blank (fed l) -> delivers nest_env nest_doc_ws TNil VNil l SUCCESS VNil []) /\
  (~ nested_text is_blank (fed l) -> delivers nest_env nest_doc_ws TNil VNil l FAILURE VNil []).
Proof. exact nest_pieces. Qed.
Print Assumptions C52_nested_lists_in_pieces.

Definition C52_l : list call := [Feed (txt " (1,(+") false; Consume; Feed (txt "2 , -3) , () ") false; Feed (txt ") ") true; Consume].
Lemma C52_int (s : list Z) : forallb (fun z => is_digit 10 z) s = true -> s <> [] -> integer s.
Proof. intros H Hn. apply itg_plain; auto. apply Forall_forall. now rewrite <- forallb_forall. Qed.
Example C52_example :
  complete C52_l /\ Forall (tok ct_char) (fed C52_l) /\ nested_text is_blank (fed C52_l)
  /\ ~ nested_text is_blank (txt "(1,)")
  /\ does nest_env nest_doc_ws TNil VNil (fed C52_l) SUCCESS [] VNil []
  /\ exists s, does nest_env nest_doc_ws TNil VNil (txt "(1,)") FAILURE s VNil [].
Proof.
  assert (exists s, does nest_env nest_doc_ws TNil VNil (txt "(1,)") FAILURE s VNil []) as (s & Hs) by (eexists; perform).
  cases; [| | | |perform|eauto].
  - exists (removelast C52_l). cases; calc.
  - chars.
  - exists (map txt ["("; "1"; ","; "("; "+2"; ","; "-3"; ")"; ","; "("; ")"; ")"]), (txt " "). cases.
    + change (nested_toks (txt "(" :: ([txt "1"] ++ txt "," :: ((txt "(" :: ([txt "+2"] ++ txt "," :: [txt "-3"]) ++ [txt ")"]) ++ txt "," :: (txt "(" :: [] ++ [txt ")"]))) ++ [txt ")"])).
      assert (forall c s, c = chr "-" \/ c = chr "+" -> forallb (fun z => is_digit 10 z) s = true -> s <> [] -> nested_toks [c :: s]) as Hi.
      { intros c s' Hc H Hn. apply nst_int, itg_signed; auto. apply Forall_forall. now rewrite <- forallb_forall. }
      apply nst_list, lsd_some, its_more; [apply nst_int, C52_int; [calc|discriminate]|].
      apply its_more; [|apply its_last, nst_list, lsd_none].
      apply nst_list, lsd_some, its_more; [|apply its_last]; apply Hi; auto; discriminate.
    + tokens.
    + repeat constructor.
  - intros H. destruct (proj1 (nest_exact_ws (txt "(1,)") ltac:(chars)) H) as (s' & Hd).
    pose proof (LocalThms.does_fun _ _ _ _ _ _ _ _ _ _ _ _ _ Hs Hd) as (E & _). discriminate.
Qed.

(** ** C53 *)

(** [readable]: not the least value of a signed type of 32 bits or more. *)
Theorem C53_rectangle_of_two_partial :
  forall env, all_nested env -> all_plain env ->
  forall x y id v text rest, readable true 32 x -> readable true 32 y ->
  spaced is_blank [txt "["; dec x; txt ","; dec y; txt "]"] text rest -> Forall (tok ct_char) text ->
  does env rectangle (TUser id) v text SUCCESS rest (VUser id [VNum x; VNum y]) [].
Proof. exact rectangle2. Qed.
Print Assumptions C53_rectangle_of_two_partial.

Theorem C53_rectangle_of_four_partial :
  forall env, all_nested env -> all_plain env ->
  forall x y w h id v text rest, readable true 32 x -> readable true 32 y -> readable true 32 w -> readable true 32 h ->
  spaced is_blank [txt "["; dec x; txt ","; dec y; txt ","; dec w; txt ","; dec h; txt "]"] text rest -> Forall (tok ct_char) text ->
  does env rectangle (TUser id) v text SUCCESS rest (VUser id [VNum x; VNum y; VNum w; VNum h]) [].
Proof. exact rectangle4. Qed.
Print Assumptions C53_rectangle_of_four_partial.

Theorem C53_pair_partial :
  forall env, all_plain env ->
  forall x y id v rest, readable true 32 x -> readable true 32 y -> no_digit 10 rest -> Forall (tok ct_char) rest ->
  does env pair_ (TUser id) v (dec x ++ txt "," ++ dec y ++ rest) SUCCESS rest (VUser id [VNum x; VNum y]) [].
Proof. exact pair_read. Qed.
Print Assumptions C53_pair_partial.

Lemma C53_readable z : in_range true 32 z = true -> (z =? ty_min true 32)%Z = false -> readable true 32 z.
Proof. intros H1 H2. split; auto. intros _ ->. now rewrite Z.eqb_refl in H2. Qed.
Example C53_example :
  readable true 32 1 /\ readable true 32 (-45) /\ readable true 32 0
  /\ spaced is_blank [txt "["; dec 1; txt ","; dec (-45); txt ","; dec 1; txt ","; dec 0; txt "]"] (txt "[1,  -45 ,1,0]x") (txt "x")
  /\ does noenv rectangle (TUser 3) (VUser 3 []) (txt "[1,  -45 ,1,0]x") SUCCESS (txt "x") (VUser 3 [VNum 1; VNum (-45); VNum 1; VNum 0]) []
  /\ does noenv rectangle (TUser 3) (VUser 3 []) (txt "[1, 45]") SUCCESS [] (VUser 3 [VNum 1; VNum 45]) []
  /\ does noenv pair_ (TUser 3) (VUser 3 []) (txt "1,45") SUCCESS [] (VUser 3 [VNum 1; VNum 45]) [].
Proof.
  cases; try perform; try (apply C53_readable; calc).
  tokens.
Qed.

Theorem C53_refuted :
  exists x, in_range true 32 x = true /\ parse noenv 99 (TUser 3) (VUser 3 []) pair_ (dec x ++ txt ",1") = Err (EUb UbOverflow).
Proof. exists (-2147483648)%Z. cases; calc. Qed.
Print Assumptions C53_refuted.
