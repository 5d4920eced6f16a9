(** C34 in sessions, C35, C36, C37 with skippers, and C39.

    [under sk p] is apply_skipper(p, sk).  [nested] (PropertiesCollect.v): marks are properly
    nested, and skippers hold none. *)
From Coq Require Import String List ZArith Bool Arith Lia.
From Verif Require Import Base CharSet Source Dst Pattern Parser Session.
From Verif Require Import SpecSession SpecRun SpecValue SpecCollect SpecSkip SpecLeaf SpecText.
From Verif Require Import Big BigLeaf Leaf PegSound Under RoundTrip Pieces Demo PropertiesCollect.
Import ListNotations.
Local Open Scope string_scope.
Local Open Scope list_scope.

(** ** C34 *)

(** All that is said about parse() into an object holds of text fed in pieces. *)
Theorem C34_sessions_store_and_call_the_same :
  forall env p t v l r v' k, complete l ->
  delivers env p t v l r v' k <-> exists s, does env p t v (fed l) r s v' k.
Proof. exact pieces. Qed.
Print Assumptions C34_sessions_store_and_call_the_same.

(** However the text is cut, the callback is called once, behind the calls made by the
    operand and with its value, if the operand matches, and not at all otherwise. *)
Theorem C34_action_once_in_pieces_partial :
  forall env, all_unbound env ->
  forall a q, unbound q = true -> forall t v l r v' k, complete l ->
  delivers env (Act a q) t v l r v' k <->
  (r = FAILURE /\ v' = v /\ exists x, delivers env q (ac_land a) (default_init (ac_land a)) l FAILURE x k) \/
  (r = SUCCESS /\ exists y x k1, delivers env q (ac_land a) (default_init (ac_land a)) l SUCCESS y k1 /\
     conv (ac_land a) y = Done x /\ called a t v x v' /\ k = k1 ++ [Event (ac_id a) x]).
Proof. exact act_pieces. Qed.
Print Assumptions C34_action_once_in_pieces_partial.

(** [](int x) { return x + 1; } *)
Definition C34_incr : action :=
  Action_ 5 int32 false false (fun x _ => (match x with VNum z => VNum (z + 1) | _ => VUndef end, VNil)).
Definition C34_l : list call := [Feed (txt "<4") false; Consume; Feed (txt "1") false; Consume; Feed (txt ">!") true; Consume].
Example C34_pieces_example :
  complete C34_l /\ delivers noenv (Act C34_incr (Seq [lc "<"; int_; lc ">"])) int32 (VNum 0) C34_l SUCCESS (VNum 42) [Event 5 (VNum 41)].
Proof.
  assert (complete C34_l) as H by (exists (removelast C34_l); cases; calc).
  split; [exact H|]. apply pieces; [exact H|]. exists (txt "!"). perform.
Qed.

(** ** C35 *)

(** A pattern made of parts, inside apply_skipper, is the pattern whose parts are inside
    apply_skipper: with the answer, the place, the values and the action calls. *)
Theorem C35_every_part_skips_partial :
  forall env, all_nested env ->
  forall sk p t v s r s' v' k, made_of_parts p = true -> nested (under sk p) ->
  does env (under sk p) t v s (res r) s' v' k <-> does env (inside sk p) t v s (res r) s' v' k.
Proof. exact under_inside. Qed.
Print Assumptions C35_every_part_skips_partial.

(** What reads by itself starts behind everything the skipper matches, as often as it does. *)
Theorem C35_leaf_starts_behind_skipped_text_partial :
  forall env, all_nested env ->
  forall sk p t v s r s' v' k, leaf p = true -> is_fail sk || sfree sk = true ->
  does env (under sk p) t v s (res r) s' v' k <->
  exists s0, skipped env sk s s0 /\ does env p t v s0 (res r) s' v' k.
Proof. exact leaf_under. Qed.
Print Assumptions C35_leaf_starts_behind_skipped_text_partial.

Definition C35_q : pat := Seq [int_; lc ";"].
Definition C35_sk : pat := Alt [lc " "; Char (CSingle ct_char 9)].
Example C35_parts_example :
  made_of_parts (plus C35_q) = true /\ nested (under C35_sk (plus C35_q))
  /\ inside C35_sk (plus C35_q) = plus (under C35_sk C35_q)
  /\ inside C35_sk C35_q = Seq [under C35_sk int_; under C35_sk (lc ";")]
  /\ does noenv (inside C35_sk (plus C35_q)) (TColl int32) (ints []) (txt " 1 ;  2; 3") SUCCESS (txt " 3") (ints [1; 2]%Z) []
  /\ does noenv (under C35_sk (plus C35_q)) (TColl int32) (ints []) (txt " 1 ;  2; 3") SUCCESS (txt " 3") (ints [1; 2]%Z) [].
Proof. cases; try simple; try reflexivity; perform. Qed.
Example C35_leaf_example :
  leaf int_ = true /\ sfree C35_sk = true
  /\ skipped noenv C35_sk (txt "  -5 ") (txt "-5 ")
  /\ does noenv (under C35_sk int_) int32 (VNum 0) (txt "  -5 ") SUCCESS (txt " ") (VNum (-5)) [].
Proof.
  cases; try simple; [|perform].
  apply skd_more with (txt " -5 "); [perform|]. apply skd_more with (txt "-5 "); [perform|]. apply skd_end with (txt "-5 "). perform.
Qed.

(** ** C36 *)

(** Behind the skipped text, lexeme(q) is q without skipper.  [mk0] (PegSound.v): q takes no
    mark when it is created. *)
Theorem C36_lexeme_reads_without_skipper_partial :
  forall env, all_nested env ->
  forall sk q t v s r s' v' k, mk0 default_req q = true -> is_fail sk || sfree sk = true -> nested q ->
  does env (under sk (Lexeme q)) t v s (res r) s' v' k <->
  exists s0, skipped env sk s s0 /\ does env q t v s0 (res r) s' v' k.
Proof. exact lexeme_under. Qed.
Print Assumptions C36_lexeme_reads_without_skipper_partial.

Definition C36_word : pat := plus (Char (CRange ct_char 97 122)).
Example C36_word_example :
  mk0 default_req C36_word = true /\ nested C36_word
  /\ does noenv (under ws (Lexeme C36_word)) str (chars "") (txt " ab c") SUCCESS (txt " c") (chars "ab") []
  /\ does noenv (under ws C36_word) str (chars "") (txt " ab c") SUCCESS (txt "") (chars "abc") [].
Proof. cases; try simple; perform. Qed.

(** ** C37 *)

(** Inside a skipper too, a Recur is its definition, behind the skipped text. *)
Theorem C37_recur_in_skipper_partial :
  forall env, all_nested env ->
  forall sk id b q t v s r s' v' k, env id = Some q -> sets_skipper q = false ->
  is_fail sk || sfree sk = true -> nested q ->
  does env (under sk (Recur id b)) t v s (res r) s' v' k <->
  exists s0, skipped env sk s s0 /\ does env (under sk q) t v s0 (res r) s' v' k.
Proof. exact recur_under. Qed.
Print Assumptions C37_recur_in_skipper_partial.

Definition C37_tree : pat := Alt [int_; Seq [lc "("; Recur 0 false; lc ")"]].
Definition C37_tree_env : nat -> option pat := fun id => if (id =? 0)%nat then Some C37_tree else None.
Example C37_skipper_example :
  all_nested C37_tree_env /\ C37_tree_env 0 = Some C37_tree /\ sets_skipper C37_tree = false /\ nested C37_tree
  /\ does C37_tree_env (under ws (Recur 0 false)) int32 (VNum 0) (txt " ( (7 ))") SUCCESS [] (VNum 7) [].
Proof.
  cases; try simple; [|perform]. intros id q. unfold C37_tree_env. destruct (id =? 0)%nat; [|discriminate]. intros E. injection E as <-. reflexivity.
Qed.

(** ** C39 *)

(** [spaced is_blank (bracketed zs) text rest] (SpecText.v): [text] is the list in brackets, with any
    white space around its tokens, and then [rest].  Partial: not for the least value of a
    signed type of 32 bits or more. *)
Theorem C39_list_roundtrip_partial :
  forall sg w, (1 <= w)%Z ->
  forall zs l0 text rest, Forall (readable sg w) zs -> Forall (tok ct_char) text ->
  spaced is_blank (bracketed zs) text rest ->
  does noenv readme (TColl (TNum sg w)) (ints l0) text SUCCESS rest (ints (l0 ++ zs)) [].
Proof. intros sg w Hw zs l0 text rest Hz Ht Hs. exact (readme_list noenv noenv_nested noenv_unbound sg w Hw zs l0 text rest Hz Ht Hs noenv_plain). Qed.
Print Assumptions C39_list_roundtrip_partial.

(** Fed in pieces. *)
Theorem C39_list_in_pieces_partial :
  forall sg w, (1 <= w)%Z ->
  forall zs l0 l rest, complete l -> Forall (readable sg w) zs -> Forall (tok ct_char) (fed l) ->
  spaced is_blank (bracketed zs) (fed l) rest ->
  delivers noenv readme (TColl (TNum sg w)) (ints l0) l SUCCESS (ints (l0 ++ zs)) [].
Proof.
  intros sg w Hw zs l0 l rest Hl Hz Ht Hs. apply pieces; auto. exists rest. now apply C39_list_roundtrip_partial.
Qed.
Print Assumptions C39_list_in_pieces_partial.

Definition C39_l : list call := [Feed (txt " [ 1") false; Consume; Feed (txt "2 ,-") false; Consume; Feed (txt "7]x") true; Consume].
Example C39_example :
  Forall (readable true 32) [12; -7]%Z /\ Forall (tok ct_char) (fed C39_l) /\ complete C39_l
  /\ spaced is_blank (bracketed [12; -7]%Z) (fed C39_l) (txt "x")
  /\ does noenv readme (TColl int32) (ints []) (fed C39_l) SUCCESS (txt "x") (ints [12; -7]%Z) [].
Proof.
  cases.
  - assert (readable true 32 12 /\ readable true 32 (-7)) as [A B] by (split; (split; [calc|]); intros _; discriminate). auto.
  - repeat (constructor; [unfold tok; calc|]). constructor.
  - exists (removelast C39_l). cases; calc.
  - apply (spc_tok is_blank (txt " ") (txt "[")); [repeat constructor|]. apply (spc_tok is_blank (txt " ") (txt "12")); [repeat constructor|].
    apply (spc_tok is_blank (txt " ") (txt ",")); [repeat constructor|]. apply (spc_tok is_blank [] (txt "-7")); [repeat constructor|].
    apply (spc_tok is_blank [] (txt "]")); [repeat constructor|]. apply spc_end.
  - perform.
Qed.

Theorem C39_refuted :
  exists z, in_range true 32 z = true /\
  parse noenv 99 (TColl int32) (ints []) readme (txt "[" ++ dec z ++ txt "]") = Err (EUb UbOverflow).
Proof. exists (-2147483648)%Z. split; calc. Qed.
Print Assumptions C39_refuted.
