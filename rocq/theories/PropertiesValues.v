(** C13, C21, C30-C32, C34, C37: what the parts of a pattern do to the destination.

    [does env p t v inp r s v' calls] (SpecValue.v): parse() of [p] on [inp] into an object
    of type [t] that holds [v] answers [r], leaves [s] unread and [v'] in the object, and
    makes these action calls. *)
From Coq Require Import String List ZArith Bool Arith.
From Verif Require Import Base CharSet Source Dst Pattern Parser Session.
From Verif Require Import SpecSession SpecPeg SpecRun SpecValue BlindThms LocalThms Unary Transparent Group Demo.
Import ListNotations.
Local Open Scope string_scope.
Local Open Scope list_scope.

Ltac cases := repeat match goal with |- _ /\ _ => apply conj end.
Ltac calc := vm_compute; reflexivity.
Ltac run := exists TNil, VNil, 99; eexists; cbv beta iota; match goal with |- _ /\ _ => split; calc | |- _ => calc end.
(** parse() does this. *)
Ltac perform := exists 99; eexists; cases; calc.

Lemma unbound_none : all_unbound noenv.
Proof. intros id q H. discriminate. Qed.

(** ** C13 *)

(** For all patterns: the parts run in turn, each from where the one before it stopped. *)
Theorem C13_sequence_runs_parts_in_turn :
  forall env l inp r, through (says env) l inp r -> obeys env (Seq l) inp r.
Proof. exact seq_parts. Qed.
Print Assumptions C13_sequence_runs_parts_in_turn.

(** ... and in no other way. *)
Theorem C13_sequence_is_its_parts :
  forall env l inp r, says env (Seq l) inp r -> through (obeys env) l inp r.
Proof. exact parts_seq. Qed.
Print Assumptions C13_sequence_is_its_parts.

Definition C13_l : list pat := [Opt (lc "x"); uint_; Alt [Lit (txt "ab"); Lit (txt "ac")]].
Example C13_example :
  through (says noenv) C13_l (txt "x12acd") (Some (txt "d")) /\ through (says noenv) C13_l (txt "12") None
  /\ says noenv (Seq C13_l) (txt "12abab") (Some (txt "ab")).
Proof.
  assert (says noenv uint_ (txt "12acd") (Some (txt "acd"))) as H1 by (exists int32, (VNum 0), 99; eexists; split; calc).
  assert (says noenv uint_ (txt "12") (Some [])) as H2 by (exists int32, (VNum 0), 99; eexists; split; calc).
  cases.
  - apply thr_next with (txt "12acd"); [run|]. apply thr_next with (txt "acd"); [exact H1|]. apply thr_next with (txt "d"); [run|]. apply thr_end.
  - apply thr_next with (txt "12"); [run|]. apply thr_next with []; [exact H2|]. apply thr_no. run.
  - run.
Qed.

(** ** C21 *)

(** For all patterns: if parse() answers for one destination then, for every other one, it
    gives the same answer at the same place, unless the destination itself goes wrong. *)
Theorem C21_answer_does_not_depend_on_destination :
  forall env n t v p inp r w, parse env n t v p inp = Done (r, w) ->
  forall t' v', exists o, reaches (fun k => parse env k t' v' p inp) o /\
  match o with
  | Done (r', w') => r' = r /\ left_at w' = left_at w
  | Err e => dst_error e
  end.
Proof. exact same_answer. Qed.
Print Assumptions C21_answer_does_not_depend_on_destination.

Example C21_example :
  exists w w', parse noenv 99 (TColl int32) (VColl []) readme (txt "[1 ,2]x") = Done (SUCCESS, w)
  /\ parse noenv 99 TNil VNil readme (txt "[1 ,2]x") = Done (SUCCESS, w')
  /\ left_at w = txt "x" /\ left_at w' = txt "x" /\ w_cells w = [ints [1; 2]%Z] /\ w_cells w' = [VNil].
Proof. do 2 eexists. cases; calc. Qed.

(** ** C30 *)

(** [spread]: the k-th part that emits a value runs into slot k, as if parse() were called
    for it alone with that slot; the others touch nothing. *)
Theorem C30_parts_go_to_slots_partial :
  forall env, all_unbound env ->
  forall l ts vs inp r s v' k, l <> [] -> forallb unbound l = true -> length ts = length vs ->
  does env (Seq l) (TTuple ts) (VTuple vs) inp r s v' k <->
  exists vs', v' = VTuple vs' /\ spread env l ts vs inp r s vs' k.
Proof. exact seq_tuple. Qed.
Print Assumptions C30_parts_go_to_slots_partial.

(** Into anything but a tuple, the parts that emit a value all run into the same object. *)
Theorem C30_parts_share_one_object_partial :
  forall env, all_unbound env ->
  forall l t v inp r s v' k, l <> [] -> forallb unbound l = true -> one t ->
  does env (Seq l) t v inp r s v' k <-> chained env l t v inp r s v' k.
Proof. exact seq_one. Qed.
Print Assumptions C30_parts_share_one_object_partial.

Definition C30_l : list pat := [lc "("; int_; Lit (txt ", "); plus any].
Definition C30_t : list ty := [int32; TColl char8].
Example C30_example :
  all_unbound noenv /\ forallb unbound C30_l = true
  /\ does noenv (Seq C30_l) (TTuple C30_t) (VTuple [VNum 7; VColl []]) (txt "(-12, ab") SUCCESS []
       (VTuple [VNum (-12); VColl [VNum 97; VNum 98]])%Z []
  /\ spread noenv C30_l C30_t [VNum 7; VColl []] (txt "(-12, ab") SUCCESS [] [VNum (-12); VColl [VNum 97; VNum 98]]%Z [].
Proof.
  cases; [exact unbound_none|calc|perform|].
  change (@nil event) with (@nil event ++ ([] ++ ([] ++ ([] ++ [])))).
  eapply spr_quiet with (s1 := txt "-12, ab"); [calc|perform|].
  eapply spr_next with (s1 := txt ", ab"); [calc|perform|].
  eapply spr_quiet with (s1 := txt "ab"); [calc|perform|].
  eapply spr_next; [calc|perform|]. constructor.
Qed.

Example C30_one_example :
  one (TColl char8) /\ chained noenv [any; lc "-"; any] (TColl char8) (VColl []) (txt "a-b") SUCCESS [] (VColl [VNum 97; VNum 98]) [].
Proof.
  split; [split; [discriminate|intros l; discriminate]|].
  change (@nil event) with (@nil event ++ ([] ++ ([] ++ []))).
  eapply chn_next with (s1 := txt "-b"); [calc|perform|].
  eapply chn_quiet with (s1 := txt "b"); [calc|perform|].
  eapply chn_next; [calc|perform|]. constructor.
Qed.

(** An action that uses p.bound_dst writes to the whole tuple: part 1 changes slot 0. *)
Definition first_slot : action :=
  Action_ 0 (TNum true 8) true false (fun x _ => (x, VTuple [x; VNum 0])).
Theorem C30_refuted :
  exists l ts vs inp s v', does noenv (Seq l) (TTuple ts) (VTuple vs) inp SUCCESS s v' [Event 0 (VNum 98)]
  /\ forall vs' k, ~ (v' = VTuple vs' /\ spread noenv l ts vs inp SUCCESS s vs' k).
Proof.
  exists [any; Act first_slot any], [char8; char8], [VNum 0; VNum 0]%Z, (txt "ab"), [], (VTuple [VNum 98; VNum 98]%Z).
  split; [perform|]. intros vs' k [E H]. injection E as <-.
  inversion H; subst; try discriminate.
  match goal with H : does noenv any _ _ _ SUCCESS _ _ _ |- _ =>
    assert (does noenv any char8 (VNum 0) (txt "ab") SUCCESS (txt "b") (VNum 97) []) as H2 by perform;
    destruct (does_fun _ _ _ _ _ _ _ _ _ _ _ _ _ H H2) as (_ & _ & E & _); discriminate
  end.
Qed.
Print Assumptions C30_refuted.

(** ** C31 *)

Theorem C31_grouping_of_sequence :
  forall e1 e2, operands e1 = operands e2 -> built op_seq e1 = built op_seq e2.
Proof. exact group_seq. Qed.
Print Assumptions C31_grouping_of_sequence.

Theorem C31_grouping_of_alternative :
  forall e1 e2, operands e1 = operands e2 -> built op_alt e1 = built op_alt e2.
Proof. exact group_alt. Qed.
Print Assumptions C31_grouping_of_alternative.

(** What is built is the n-ary pattern of the operands. *)
Theorem C31_all_operands_in_one_pattern :
  forall e a b l, operands e = a :: b :: l ->
  (forallb (fun p => match p with Seq _ => false | _ => true end) (operands e) = true ->
   built op_seq e = Seq (operands e)) /\
  (forallb (fun p => match p with Alt _ => false | _ => true end) (operands e) = true ->
   built op_alt e = Alt (operands e)).
Proof. exact group_all. Qed.
Print Assumptions C31_all_operands_in_one_pattern.

Definition C31_l : expr := Op (Op (Operand int_) (Operand any)) (Op (Operand (lc "x")) (Operand Eoi)).
Definition C31_r : expr := Op (Operand int_) (Op (Operand any) (Op (Operand (lc "x")) (Operand Eoi))).
Example C31_example :
  operands C31_l = operands C31_r /\ C31_l <> C31_r /\ built op_seq C31_l = Seq [int_; any; lc "x"; Eoi].
Proof. cases; [reflexivity|discriminate|reflexivity]. Qed.

(** ** C32 *)

(** Partial: no action in the operand uses p.bound_dst. *)
Theorem C32_discard_keeps_destination_partial :
  forall env q, unbound q = true -> all_unbound env ->
  forall t v inp r s v' k,
  does env (Discard q) t v inp r s v' k <-> v' = v /\ does env q TNil VNil inp r s VNil k.
Proof. exact does_discard. Qed.
Print Assumptions C32_discard_keeps_destination_partial.

(** Validation (parse into Nil) writes nothing, whatever the pattern. *)
Theorem C32_validation_writes_nothing :
  forall env p v inp r s v' k, does env p TNil v inp r s v' k -> v' = v.
Proof. exact does_nil. Qed.
Print Assumptions C32_validation_writes_nothing.

Example C32_example :
  does noenv (Discard (Seq [int_; any])) (TTuple [int32; char8]) (VTuple [VNum 3; VNum 4]) (txt "12x") SUCCESS []
    (VTuple [VNum 3; VNum 4]) []
  /\ does noenv (Seq [int_; any]) (TTuple [int32; char8]) (VTuple [VNum 3; VNum 4]) (txt "12x") SUCCESS []
    (VTuple [VNum 12; VNum 120]) [].
Proof. cases; perform. Qed.

(** discard(char_[act]) where act assigns to p.bound_dst. *)
Definition to_bound : action := Action_ 0 (TNum true 8) true true (fun x _ => (VNil, x)).
Theorem C32_refuted :
  exists q t v inp r s v' k, does noenv (Discard q) t v inp r s v' k /\ v' <> v.
Proof.
  exists (Act to_bound any), char8, (VNum 0), (txt "a"), SUCCESS, [], (VNum 97), [Event 0 (VNum 97)].
  split; [perform|discriminate].
Qed.
Print Assumptions C32_refuted.

(** ** C34 *)

(** The operand runs into a fresh object of the type the callback takes; the callback is
    called after it if it matched, with what the object holds then, and not otherwise. *)
Theorem C34_action_once_per_match_partial :
  forall env, all_unbound env ->
  forall a q, unbound q = true -> forall t v inp r s v' k,
  does env (Act a q) t v inp r s v' k <->
  (r = FAILURE /\ v' = v /\ exists l, does env q (ac_land a) (default_init (ac_land a)) inp FAILURE s l k) \/
  (r = SUCCESS /\ exists l x k1, does env q (ac_land a) (default_init (ac_land a)) inp SUCCESS s l k1 /\
     conv (ac_land a) l = Done x /\ called a t v x v' /\ k = k1 ++ [Event (ac_id a) x]).
Proof. exact does_act. Qed.
Print Assumptions C34_action_once_per_match_partial.

(** construct<T> likewise: T is made from the values of the operand and stored. *)
Theorem C34_construct_partial :
  forall env, all_unbound env ->
  forall args q, unbound q = true -> forall t v inp r s v' k,
  does env (Construct args q) t v inp r s v' k <->
  (r = FAILURE /\ v' = v /\ exists l, does env q (TTuple args) (value_init (TTuple args)) inp FAILURE s l k) \/
  (r = SUCCESS /\ exists xs y, does env q (TTuple args) (value_init (TTuple args)) inp SUCCESS s (VTuple xs) k /\
     made t xs y /\ stored t v y v').
Proof. exact does_construct. Qed.
Print Assumptions C34_construct_partial.

(** [](int x) { return x + 1; } *)
Definition incr : action :=
  Action_ 5 int32 false false (fun x _ => (match x with VNum z => VNum (z + 1) | _ => VUndef end, VNil)).
Example C34_example :
  does noenv (Act incr (Seq [lc "<"; int_; lc ">"])) int32 (VNum 0) (txt "<41>!") SUCCESS (txt "!") (VNum 42) [Event 5 (VNum 41)]
  /\ does noenv (Act incr (Seq [lc "<"; int_; lc ">"])) int32 (VNum 0) (txt "<41") FAILURE [] (VNum 0) []
  /\ does noenv (Seq [lc "<"; int_; lc ">"]) int32 (default_init int32) (txt "<41>!") SUCCESS (txt "!") (VNum 41) []
  /\ does noenv (PList (Act incr int_) (lc ",")) (TColl int32) (VColl []) (txt "1,3,a") SUCCESS (txt ",a")
       (ints [2; 4]%Z) [Event 5 (VNum 1); Event 5 (VNum 3)]%Z
  /\ does noenv (Construct [int32; int32] (Seq [int_; lc ","; int_])) (TUser 1) (VUser 1 []) (txt "1,2") SUCCESS []
       (VUser 1 [VNum 1; VNum 2])%Z [].
Proof. cases; perform. Qed.

(** An operand that assigns to p.bound_dst: alone that is the object it runs into, within
    pat[act] it is the one pat[act] runs into. *)
Definition C34_first : action := Action_ 0 char8 true true (fun x _ => (VNil, VColl [x])).
Definition C34_second : action := Action_ 1 (TColl char8) false true (fun _ _ => (VNil, VNil)).
Theorem C34_refuted :
  exists a q t v inp s v' l x k1, does noenv q (ac_land a) (default_init (ac_land a)) inp SUCCESS s l k1
  /\ does noenv (Act a q) t v inp SUCCESS s v' (k1 ++ [Event (ac_id a) x]) /\ conv (ac_land a) l <> Done x.
Proof.
  exists C34_second, (Act C34_first any), (TColl char8), (VColl []), (txt "a"), [], (VColl [VNum 97]), (VColl [VNum 97]), (VColl []), [Event 0 (VNum 97)].
  cases; [perform|perform|discriminate].
Qed.
Print Assumptions C34_refuted.

(** ** C37 *)

Theorem C37_recur_is_its_definition_partial :
  forall env id b q, env id = Some q -> sets_skipper q = false ->
  forall t v inp o, reaches (fun n => parse env n t v (Recur id b) inp) o <-> reaches (fun n => parse env n t v q inp) o.
Proof. exact reaches_recur. Qed.
Print Assumptions C37_recur_is_its_definition_partial.

(** list = '[' >> (int_ | list) % ',' >> ']' *)
Definition C37_list : pat := Seq [lc "["; PList (Alt [int_; Recur 0 true]) (lc ","); lc "]"].
Definition C37_env : nat -> option pat := fun id => match id with 0 => Some C37_list | _ => None end.
Example C37_example :
  C37_env 0 = Some C37_list /\ sets_skipper C37_list = false
  /\ exists w, parse C37_env 99 TNil VNil (Recur 0 true) (txt "[1,[2,[]],3]") = Done (SUCCESS, w).
Proof. cases; [reflexivity|reflexivity|eexists; calc]. Qed.

(** A Recur defined as apply_skipper(lit('x'), ..): no skipping in front of 'x'. *)
Theorem C37_refuted :
  exists env id q inp, env id = Some q /\ says env q inp (Some []) /\ says env (Recur id true) inp None.
Proof.
  exists (fun id => match id with 0 => Some (WithSkipper (lc "x") ws) | _ => None end), 0, (WithSkipper (lc "x") ws), (txt " x").
  cases; [reflexivity|run|run].
Qed.
Print Assumptions C37_refuted.
