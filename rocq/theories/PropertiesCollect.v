(** C19, C20, C33, C40, and more on C12 and C14-C17: what repetitions, lists, optionals,
    alternatives and Not do to the destination, in terms of their operands.

    [parses env p t r] (SpecCollect.v): parse() of [p] answers [r]; a step from a place and
    the object's value there to another place and value.  [under sk p] is
    apply_skipper(p, sk); [once p] is repeat<1, 1>(p), one element. *)
From Coq Require Import String List ZArith Bool Arith Lia.
From Verif Require Import Base CharSet Source Dst Pattern Parser Session.
From Verif Require Import SpecSession SpecRun SpecValue SpecCollect Big BigLeaf Fill Atomic Collect Element Quiet Gather Demo.
Import ListNotations.
Local Open Scope string_scope.
Local Open Scope list_scope.

Ltac cases := repeat match goal with |- _ /\ _ => apply conj end.
Ltac calc := lazymatch goal with |- _ = _ => vm_compute; reflexivity end.
Ltac perform := exists 99; eexists; cases; calc.

(** Marks are properly nested, everywhere in the pattern ([mok], Big.v: no Optional where
    something around it holds a mark; skippers hold none). *)
Definition nested (p : pat) : Prop := mok false default_req p = true.
Definition all_nested (env : nat -> option pat) : Prop := forall id q, env id = Some q -> mok true recur_req q = true.
Definition all_plain (env : nat -> option pat) : Prop := forall id q, env id = Some q -> plain q = true.
(** [R]: the recursive patterns that store a value whenever they match. *)
Definition filling (env : nat -> option pat) (R : nat -> bool) : Prop := forall id q, env id = Some q -> R id = true -> fills R q = true.

Ltac simple := try unfold nested; calc.

Definition none (_ : nat) : bool := false.
Lemma noenv_nested : all_nested noenv. Proof. intros id q H. discriminate. Qed.
Lemma noenv_plain : all_plain noenv. Proof. intros id q H. discriminate. Qed.
Lemma noenv_unbound : all_unbound noenv. Proof. intros id q H. discriminate. Qed.
Lemma noenv_filling : filling noenv none. Proof. intros id q H. discriminate. Qed.
#[local] Hint Resolve noenv_nested noenv_plain noenv_unbound noenv_filling : core.

Definition str : ty := TColl char8.
Definition chars (s : string) : val := VColl (map VNum (txt s)).

(** ** C12 *)

(** The alternatives are tried in order, all of them at the same place, until one matches;
    each finds in the destination what the ones before it left there. *)
Theorem C12_alternatives_in_order_partial :
  forall env, all_nested env ->
  forall t l v s r s' v' k, l <> [] -> forallb steady l = true -> nested (Alt l) ->
  does env (Alt l) t v s (res r) s' v' k <-> tried env t s l v (res r) s' v' k.
Proof. exact alt_law. Qed.
Print Assumptions C12_alternatives_in_order_partial.

Definition C12_l : list pat := [Seq [ch "a"; lc "b"]; Seq [ch "a"; lc "c"]; any].
Example C12_in_order_example :
  nested (Alt C12_l) /\ forallb steady C12_l = true
  /\ tried noenv str (txt "acd") C12_l (chars "") SUCCESS (txt "d") (chars "aa") []
  /\ does noenv (Alt C12_l) str (chars "") (txt "acd") SUCCESS (txt "d") (chars "aa") [].
Proof.
  cases; try simple.
  - apply try_next with (s1 := txt "cd") (v1 := chars "a") (k1 := []) (k := []); [perform|]. apply try_this. perform.
  - perform.
Qed.

(** ** C14 *)

(** A repetition is its elements one after the other, up to the first that does not match;
    it then goes back to where that one started, unless MIN = MAX. *)
Theorem C14_repetition_is_its_elements_partial :
  forall env, all_nested env ->
  forall sk t lo hi q v s r s' v' k, steady (under sk q) = true -> nested (under sk (Repeat lo hi q)) ->
  does env (under sk (Repeat lo hi q)) t v s (res r) s' v' k <->
  repeated (parses env (under sk (once q)) t SUCCESS) (parses env (under sk (once q)) t FAILURE)
    lo hi (back_unless_fixed lo hi) v s (res r) s' v' k.
Proof. exact repeat_place. Qed.
Print Assumptions C14_repetition_is_its_elements_partial.

(** The same for the other patterns, for everything but the place. *)
Theorem C14_skipping_repetition_partial :
  forall env, all_nested env ->
  forall sk t lo hi q v s r v' k, nested (under sk (Repeat lo hi q)) ->
  (exists s', does env (under sk (Repeat lo hi q)) t v s (res r) s' v' k) <->
  (exists s', repeated (parses env (under sk (once q)) t SUCCESS) (parses env (under sk (once q)) t FAILURE)
    lo hi anywhere v s (res r) s' v' k).
Proof. exact repeat_outcome. Qed.
Print Assumptions C14_skipping_repetition_partial.

Definition C14_q : pat := Seq [any; lc "."].
Example C14_elements_example :
  nested (under Fail (Repeat 1 3 C14_q)) /\ steady (under Fail C14_q) = true /\ steady (under ws C14_q) = true /\ nested (under ws (Repeat 1 3 C14_q))
  /\ repeated (parses noenv (under Fail (once C14_q)) str SUCCESS) (parses noenv (under Fail (once C14_q)) str FAILURE)
       1 3 (back_unless_fixed 1 3) (chars "!") (txt "a.b.cd") SUCCESS (txt "cd") (chars "!ab") []
  /\ does noenv (under Fail (Repeat 1 3 C14_q)) str (chars "!") (txt "a.b.cd") SUCCESS (txt "cd") (chars "!ab") []
  /\ does noenv (under ws (Repeat 1 3 C14_q)) str (chars "!") (txt "a . b. cd") SUCCESS (txt " cd") (chars "!ab") [].
Proof.
  cases; try simple.
  - apply (rpt_stop _ _ 1 3 _ _ _ 2 (txt "cd") (chars "!ab") [] (txt "d") (chars "!ab") [] (txt "cd")).
    + lia.
    + apply mat_one with (s1 := txt "b.cd") (v1 := chars "!a") (k1 := []) (k := []); [perform|].
      apply mat_one with (s1 := txt "cd") (v1 := chars "!ab") (k1 := []) (k := []); [perform|]. apply mat_none.
    + perform.
    + reflexivity.
  - perform.
  - perform.
Qed.

(** ** C15, C33 *)

(** !A answers the opposite of A, at the place where it started; the destination and the
    action calls are those of A. *)
Theorem C15_not_is_its_operand_partial :
  forall env, all_nested env ->
  forall sk t q v s r s' v' k, nested (under sk (Not q)) ->
  does env (under sk (Not q)) t v s (res r) s' v' k <->
  s' = s /\ exists s1, does env (under sk q) t v s (res (negb r)) s1 v' k.
Proof. exact not_law. Qed.
Print Assumptions C15_not_is_its_operand_partial.

Example C15_operand_example :
  nested (under ws (Not (Seq [any; lc "b"]))) /\ does noenv (under ws (Seq [any; lc "b"])) char8 (VNum 0) (txt "  a  c") FAILURE (txt "c") (VNum 97) []
  /\ does noenv (under ws (Not (Seq [any; lc "b"]))) char8 (VNum 0) (txt "  a  c") SUCCESS (txt "  a  c") (VNum 97) [].
Proof. cases; try simple; perform. Qed.

(** Operands that store nothing. *)
Theorem C33_not_writes_nothing_partial :
  forall env, all_nested env -> all_plain env ->
  forall sk q t v s r s' v' k, nested (under sk (Not q)) -> plain q = true -> quiet false q = true ->
  does env (under sk (Not q)) t v s (res r) s' v' k -> v' = v.
Proof. exact not_untouched. Qed.
Print Assumptions C33_not_writes_nothing_partial.

Definition C33_q : pat := Alt [Seq [lc "a"; Discard any]; Discard (plus uint_)].
Example C33_example :
  nested (under ws (Not C33_q)) /\ plain C33_q = true /\ quiet false C33_q = true
  /\ does noenv (under ws (Not C33_q)) str (chars "!") (txt " 12") FAILURE (txt " 12") (chars "!") []
  /\ does noenv (under ws (Not C33_q)) str (chars "!") (txt " x") SUCCESS (txt " x") (chars "!") [].
Proof. cases; try simple; perform. Qed.

(** False in general, whether the operand matches or not. *)
Theorem C33_refuted :
  (exists q t v s s' v', does noenv (Not q) t v s FAILURE s' v' [] /\ v' <> v) /\
  (exists q t v s s' v', does noenv (Not q) t v s SUCCESS s' v' [] /\ v' <> v).
Proof.
  split.
  - exists any, char8, (VNum 0), (txt "x"), (txt "x"), (VNum 120). split; [perform|discriminate].
  - exists (Seq [any; lc "z"]), str, (chars ""), (txt "xy"), (txt "xy"), (chars "x"). split; [perform|discriminate].
Qed.
Print Assumptions C33_refuted.

(** ** C16 *)

(** A list is elements and separators in turn; it stops behind the last element. *)
Theorem C16_list_is_its_elements_partial :
  forall env, all_nested env ->
  forall sk t, all_unbound env ->
  forall q sep v s r s' v' k, unbound sep = true -> nested (under sk (PList q sep)) ->
  does env (under sk (PList q sep)) t v s (res r) s' v' k <->
  r = true /\ items (parses env (under sk (once q)) t SUCCESS) (parses env (under sk (once q)) t FAILURE)
    (checks env (under sk sep)) s v s s' v' k.
Proof. exact list_law. Qed.
Print Assumptions C16_list_is_its_elements_partial.

Example C16_elements_example :
  nested (under ws (PList C14_q (lc ",")))
  /\ items (parses noenv (under ws (once C14_q)) str SUCCESS) (parses noenv (under ws (once C14_q)) str FAILURE)
       (checks noenv (under ws (lc ","))) (txt "a ., b.,c") (chars "!") (txt "a ., b.,c") (txt ",c") (chars "!ab") []
  /\ does noenv (under ws (PList C14_q (lc ","))) str (chars "!") (txt "a ., b.,c") SUCCESS (txt ",c") (chars "!ab") [].
Proof.
  cases; try simple.
  - apply itm_next with (s1 := txt ", b.,c") (v1 := chars "!a") (k1 := []) (s2 := txt " b.,c") (k2 := []) (k := []); [perform|perform|].
    apply itm_next with (s1 := txt ",c") (v1 := chars "!ab") (k1 := []) (s2 := txt "c") (k2 := []) (k := []); [perform|perform|].
    eapply itm_stop. perform.
  - perform.
Qed.

(** ** C17 *)
Theorem C17_optional_is_its_operand_partial :
  forall env, all_nested env ->
  forall sk t q v s r s' v' k, nested (under sk (Opt q)) ->
  does env (under sk (Opt q)) t v s (res r) s' v' k <->
  r = true /\ (parses env (under sk (once q)) t SUCCESS s v s' v' k \/
               (s' = s /\ exists s2, parses env (under sk (once q)) t FAILURE s v s2 v' k)).
Proof. exact opt_law. Qed.
Print Assumptions C17_optional_is_its_operand_partial.

Example C17_operand_example :
  nested (under ws (Opt C14_q))
  /\ parses noenv (under ws (once C14_q)) str FAILURE (txt " ab") (chars "!") (txt "b") (chars "!") []
  /\ does noenv (under ws (Opt C14_q)) str (chars "!") (txt " ab") SUCCESS (txt " ab") (chars "!") [].
Proof. cases; try simple; perform. Qed.

(** ** C19 *)

(** An element that fails leaves the destination as it was. *)
Theorem C19_failing_element_stores_nothing_partial :
  forall env, all_nested env -> all_plain env -> forall R, filling env R ->
  forall sk q t v s s' v' k, nested (under sk (once q)) ->
  storable R t q \/ (plain q = true /\ careful true q = true) ->
  parses env (under sk (once q)) t FAILURE s v s' v' k -> v' = v.
Proof. exact once_untouched. Qed.
Print Assumptions C19_failing_element_stores_nothing_partial.

(** ... in a repetition, ... *)
Theorem C19_repetition_partial :
  forall env, all_nested env -> all_plain env -> forall R, filling env R ->
  forall sk lo hi q t v s r v' k, nested (under sk (Repeat lo hi q)) ->
  storable R t q \/ (plain q = true /\ careful true q = true) ->
  (exists s', does env (under sk (Repeat lo hi q)) t v s (res r) s' v' k) <->
  exists s', repeated (parses env (under sk (once q)) t SUCCESS)
    (fun s v s' v' k => parses env (under sk (once q)) t FAILURE s v s' v' k /\ v' = v) lo hi anywhere v s (res r) s' v' k.
Proof. exact repeat_untouched. Qed.
Print Assumptions C19_repetition_partial.

(** ... in a list, ... *)
Theorem C19_list_partial :
  forall env, all_nested env -> all_plain env -> forall R, filling env R ->
  forall sk q sep t v s r s' v' k, nested (under sk (PList q sep)) -> unbound sep = true ->
  storable R t q \/ (plain q = true /\ careful true q = true) ->
  does env (under sk (PList q sep)) t v s (res r) s' v' k <->
  r = true /\ items (parses env (under sk (once q)) t SUCCESS)
    (fun s v s' v' k => parses env (under sk (once q)) t FAILURE s v s' v' k /\ v' = v)
    (checks env (under sk sep)) s v s s' v' k.
Proof. exact list_untouched. Qed.
Print Assumptions C19_list_partial.

(** ... and in an optional. *)
Theorem C19_optional_partial :
  forall env, all_nested env -> all_plain env -> forall R, filling env R ->
  forall sk q t v s r s' v' k, nested (under sk (Opt q)) ->
  storable R t q \/ (plain q = true /\ careful true q = true) ->
  does env (under sk (Opt q)) t v s (res r) s' v' k <->
  r = true /\ (parses env (under sk (once q)) t SUCCESS s v s' v' k \/
               (s' = s /\ v' = v /\ exists s2, parses env (under sk (once q)) t FAILURE s v s2 v k)).
Proof. exact opt_untouched. Qed.
Print Assumptions C19_optional_partial.

Ltac stored_in := split; [calc|right; cases; [discriminate|calc|calc]].
Definition C19_q : pat := Seq [any; uint_; lc "."].
Example C19_example :
  nested (under ws (once C19_q)) /\ storable none (TColl int32) C19_q /\ careful true C19_q = true /\ plain C19_q = true
  /\ parses noenv (under ws (once C19_q)) (TColl int32) FAILURE (txt "a 12;") (ints [7]%Z) (txt ";") (ints [7]%Z) []
  /\ does noenv (under ws (Repeat 2 3 C19_q)) (TColl int32) (ints [7]%Z) (txt "a12.b13") FAILURE (txt "b13") (ints [7; 12]%Z) [].
Proof.
  cases; try simple.
  - stored_in.
  - perform.
  - perform.
Qed.

(** False in general: !char_ is not buffered. *)
Theorem C19_refuted :
  exists q t v s s' v', parses noenv (once q) t FAILURE s v s' v' [] /\ v' <> v /\ does noenv (star q) t v s SUCCESS s' v' [].
Proof.
  exists (Not any), str, (chars ""), (txt "x"), (txt "x"), (chars "x"). cases; [perform|discriminate|perform].
Qed.
Print Assumptions C19_refuted.

(** ** C20 *)

(** The destination holds what the alternative that matched would have stored on its own:
    scalar objects that every alternative overwrites when it matches, ... *)
Theorem C20_failed_alternatives_leave_no_trace_partial :
  forall env, all_nested env -> all_plain env -> forall R, filling env R ->
  forall l t v s s' v' k, forallb steady l = true -> nested (Alt l) ->
  scalar t = true -> forallb plain l = true -> forallb (fills R) l = true ->
  does env (Alt l) t v s SUCCESS s' v' k -> first_alone env t l v s s' v' k.
Proof. exact alt_filling. Qed.
Print Assumptions C20_failed_alternatives_leave_no_trace_partial.

(** ... and objects of all types, for alternatives that store nothing when they fail. *)
Theorem C20_careful_alternatives_partial :
  forall env, all_nested env -> all_plain env ->
  forall l t v s s' v' k, forallb steady l = true -> nested (Alt l) ->
  forallb plain l = true -> forallb (careful false) l = true ->
  does env (Alt l) t v s SUCCESS s' v' k -> first_alone env t l v s s' v' k.
Proof. exact alt_careful. Qed.
Print Assumptions C20_careful_alternatives_partial.

Definition C20_l : list pat := [Seq [any; lc "b"]; Seq [uint_; lc "c"]; uint_].
Definition C20_m : list pat := [Seq [lc "1"; lc "b"]; Symbol [(txt "12c", VNum 5)]; any].
Example C20_example :
  nested (Alt C20_l) /\ forallb steady C20_l = true /\ scalar int32 = true /\ forallb plain C20_l = true /\ forallb (fills none) C20_l = true
  /\ does noenv (Alt C20_l) int32 (VNum 77) (txt "12d") SUCCESS (txt "d") (VNum 12) []
  /\ nested (Alt C20_m) /\ forallb steady C20_m = true /\ forallb plain C20_m = true /\ forallb (careful false) C20_m = true
  /\ does noenv (Alt C20_m) str (chars "!") (txt "12d") SUCCESS (txt "2d") (chars "!1") [].
Proof. cases; try simple; perform. Qed.

(** False in general: (char_ >> 'b') | (char_ >> 'c') into a string. *)
Theorem C20_refuted :
  exists p q t v s s1 s' v1 v', does noenv p t v s FAILURE s1 v1 [] /\ does noenv q t v s SUCCESS s' v' [] /\
    exists v2, does noenv (Alt [p; q]) t v s SUCCESS s' v2 [] /\ v2 <> v'.
Proof.
  exists (Seq [any; lc "b"]), (Seq [any; lc "c"]), str, (chars ""), (txt "ac"), (txt "c"), [], (chars "a"), (chars "a").
  cases; [perform|perform|]. exists (chars "aa"). split; [perform|discriminate].
Qed.
Print Assumptions C20_refuted.

(** ** C40 *)

(** repeat<MIN, MAX>(q): the values of the elements, in order, behind what was there;
    MIN and MAX count elements appended. *)
Theorem C40_repetition_appends_elements_partial :
  forall env, all_nested env -> all_plain env -> forall R, filling env R ->
  forall sk lo hi q e l s r v' k, storable R (TColl e) q -> nested (under sk (Repeat lo hi q)) ->
  (exists s', does env (under sk (Repeat lo hi q)) (TColl e) (VColl l) s (res r) s' v' k) <->
  exists ys s1 k1 k2, v' = VColl (l ++ ys) /\ k = k1 ++ k2 /\ elements env (under sk q) e s ys s1 k1 /\
    ((hi <> 0 /\ List.length ys = hi /\ r = true /\ k2 = []) \/
     ((hi = 0 \/ List.length ys < hi) /\ r = (lo <=? List.length ys)%nat /\ no_element env (under sk q) e s1 k2)).
Proof. exact repeat_appends. Qed.
Print Assumptions C40_repetition_appends_elements_partial.

(** q % sep. *)
Theorem C40_list_appends_elements_partial :
  forall env, all_nested env -> all_plain env -> forall R, filling env R ->
  forall sk q sep e l s r s' v' k, storable R (TColl e) q -> unbound sep = true -> nested (under sk (PList q sep)) ->
  does env (under sk (PList q sep)) (TColl e) (VColl l) s (res r) s' v' k <->
  r = true /\ exists ys, v' = VColl (l ++ ys) /\ separated env (under sk q) (under sk sep) e s s ys s' k.
Proof. exact list_appends. Qed.
Print Assumptions C40_list_appends_elements_partial.

(** -q. *)
Theorem C40_optional_appends_element_partial :
  forall env, all_nested env -> all_plain env -> forall R, filling env R ->
  forall sk q e l s r s' v' k, storable R (TColl e) q -> nested (under sk (Opt q)) ->
  does env (under sk (Opt q)) (TColl e) (VColl l) s (res r) s' v' k <->
  r = true /\ ((exists y, v' = VColl (l ++ [y]) /\ elements env (under sk q) e s [y] s' k) \/
               (v' = VColl l /\ s' = s /\ no_element env (under sk q) e s k)).
Proof. exact opt_appends. Qed.
Print Assumptions C40_optional_appends_element_partial.

Definition C40_q : pat := Seq [Discard (star (lc "+")); int_].
Example C40_example :
  nested (under ws (Repeat 1 0 C40_q)) /\ nested (under ws (PList C40_q (lc ","))) /\ nested (under ws (Opt C40_q))
  /\ storable none (TColl uint8) C40_q
  /\ elements noenv (under ws C40_q) uint8 (txt "1 +300 +-1 x") (map VNum [1; 44; 255]%Z) (txt " x") []
  /\ no_element noenv (under ws C40_q) uint8 (txt " x") []
  /\ (exists s, does noenv (under ws (Repeat 1 0 C40_q)) (TColl uint8) (ints [9]%Z) (txt "1 +300 +-1 x") SUCCESS s (ints [9; 1; 44; 255]%Z) [])
  /\ separated noenv (under ws C40_q) (under ws (lc ",")) uint8 (txt "1 , +2,x") (txt "1 , +2,x") (map VNum [1; 2]%Z) (txt ",x") []
  /\ does noenv (under ws (PList C40_q (lc ","))) (TColl uint8) (ints [9]%Z) (txt "1 , +2,x") SUCCESS (txt ",x") (ints [9; 1; 2]%Z) []
  /\ does noenv (under ws (Opt C40_q)) (TColl uint8) (ints [9]%Z) (txt " +7") SUCCESS [] (ints [9; 7]%Z) [].
Proof.
  cases; try simple.
  - stored_in.
  - apply els_one with (s1 := txt " +300 +-1 x") (x := VNum 1) (k1 := []) (k := []); [perform|calc|].
    apply els_one with (s1 := txt " +-1 x") (x := VNum 44) (k1 := []) (k := []); [perform|calc|].
    apply els_one with (s1 := txt " x") (x := VNum 255) (k1 := []) (k := []); [perform|calc|]. apply els_none.
  - do 2 eexists. perform.
  - eexists. perform.
  - apply spt_next with (s1 := txt " , +2,x") (x := VNum 1) (k1 := []) (s2 := txt " +2,x") (k2 := []) (k := []); [perform|calc|perform|].
    apply spt_next with (s1 := txt ",x") (x := VNum 2) (k1 := []) (s2 := txt "x") (k2 := []) (k := []); [perform|calc|perform|].
    apply spt_stop. do 2 eexists. perform.
  - perform.
  - perform.
Qed.

(** An element whose action empties p.bound_dst: what was there before is lost. *)
Definition C40_clear : action := Action_ 0 char8 true false (fun x _ => (x, VColl [])).
Theorem C40_refuted :
  exists q e l inp s v' k, does noenv (Repeat 0 0 q) (TColl e) (VColl l) inp SUCCESS s v' k /\ forall ys, v' <> VColl (l ++ ys).
Proof.
  exists (Act C40_clear any), char8, [VNum 9], (txt "ab"), [], (ints [98]%Z), [Event 0 (VNum 97); Event 0 (VNum 98)].
  split; [perform|]. intros ys [=].
Qed.
Print Assumptions C40_refuted.
