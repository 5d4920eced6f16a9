(** The theorems on types, indeterminate values, and on nothing going wrong. *)
From Coq Require Import String List ZArith Bool Arith Lia.
From Verif Require Import Base CharSet Source Dst Pattern Parser Session SpecSession SpecTerm SpecType.
From Verif Require Import TypeMem TypeThms Leaf Demo MathDemo.
Import ListNotations.
Local Open Scope string_scope.
Local Open Scope list_scope.

(** ** C42 *)

(** A pattern that fits its destination never attempts a store of the wrong type and never
    meets the state of another pattern; the destination keeps its type, and the actions get
    values of the types they take. *)
Theorem C42_parse_keeps_to_the_types :
  forall uses stores known env t p, welltyped false false uses stores known env t p ->
  forall v n inp, object t v ->
  match parse env n t v p inp with
  | Err e => e <> EType /\ e <> EShape
  | Done (_, w) => exists v', w_cells w = [v'] /\ object t v' /\ handed known (w_trace w)
  end.
Proof. exact parse_keeps. Qed.
Print Assumptions C42_parse_keeps_to_the_types.

Theorem C42_sessions_keep_to_the_types :
  forall uses stores known env t p, welltyped false false uses stores known env t p ->
  forall v n l, object t v -> legal l = true ->
  match run_session env n t v p l with
  | Err e => e <> EType /\ e <> EShape
  | Done s => exists v', w_cells (s_world s) = [v'] /\ object t v' /\ handed known (w_trace (s_world s))
  end.
Proof. exact session_keeps. Qed.
Print Assumptions C42_sessions_keep_to_the_types.

(** The README's pattern and a vector of int, ... *)
Example C42_readme : welltyped false false (fun _ _ _ => False) (fun _ => false) (fun _ => False) noenv (TColl int32) readme.
Proof. split; [discriminate|]. split; [reflexivity|]. cbn. intuition (eauto; try discriminate). eexists. cbn. intuition (eauto; try discriminate). Qed.

(** ... and what it does. *)
Example C42_readme_runs : exists w,
  parse noenv 200 (TColl int32) (VColl [VNum 9]) readme (txt "[ 1, -2 ]") = Done (SUCCESS, w) /\ w_cells w = [ints [9; 1; -2]%Z].
Proof. eexists. split; vm_compute; reflexivity. Qed.

(** A pattern that does not fit is not accepted and does go wrong: the README's pattern and
    a vector of strings. *)
Example C42_misfit :
  ~ welltyped false false (fun _ _ _ => False) (fun _ => false) (fun _ => False) noenv (TColl (TColl char8)) readme /\
  parse noenv 200 (TColl (TColl char8)) (VColl []) readme (txt "[ 1, -2 ]") = Err EType.
Proof.
  split; [|vm_compute; reflexivity]. intros (_ & _ & H). cbn in H.
  decompose [and or ex] H; clear H;
    repeat match goal with H : Some _ = Some _ |- _ => injection H as <- end; cbn in *; intuition discriminate.
Qed.

(** ** C41 *)

(** Missing: patterns outside the strict check, of which [C41_refuted] shows one. *)
Theorem C41_parse_never_reads_the_indeterminate_partial :
  forall uses stores known env t p, welltyped true false uses stores known env t p ->
  forall v n inp, object t v ->
  match parse env n t v p inp with
  | Err e => e <> EUb UbUninit
  | Done (r, w) => handed known (w_trace w) /\
      (Some r = Some SUCCESS -> sets stores p || binds p = true -> exists v', w_cells w = [v'] /\ has_ty t v' = true)
  end.
Proof. exact parse_filled. Qed.
Print Assumptions C41_parse_never_reads_the_indeterminate_partial.

Theorem C41_sessions_never_read_the_indeterminate_partial :
  forall uses stores known env t p, welltyped true false uses stores known env t p ->
  forall v n l, object t v ->
  match run_session env n t v p l with
  | Err e => e <> EUb UbUninit
  | Done s => handed known (w_trace (s_world s)) /\
      (s_res s = Some SUCCESS -> sets stores p || binds p = true -> exists v', w_cells (s_world s) = [v'] /\ has_ty t v' = true)
  end.
Proof. exact session_filled. Qed.
Print Assumptions C41_sessions_never_read_the_indeterminate_partial.

(** The README's pattern passes the strict check; a list of numbers in parentheses or not,
    into an uninitialised int, does as well and stores. *)
Example C41_readme : welltyped true false (fun _ _ _ => False) (fun _ => false) (fun _ => False) noenv (TColl int32) readme.
Proof. split; [discriminate|]. split; [reflexivity|]. cbn. intuition (eauto; try discriminate). eexists. cbn. intuition (eauto; try discriminate). Qed.

Definition C41_p : pat := Alt [Seq [lc "("; int_; lc ")"]; plus (Seq [int_; lc ";"])].
Example C41_example :
  welltyped true false (fun _ _ _ => False) (fun _ => false) (fun _ => False) noenv int32 C41_p /\ sets (fun _ => false) C41_p = true /\
  object int32 VUndef /\
  exists w, parse noenv 200 int32 VUndef C41_p (txt "12;-3;4") = Done (SUCCESS, w) /\ w_cells w = [VNum (-3)].
Proof.
  split; [|split; [reflexivity|split; [now right|eexists; split; vm_compute; reflexivity]]].
  split; [discriminate|]. split; [reflexivity|]. cbn. intuition (eauto; try discriminate).
  all: eexists; cbn; intuition (eauto; try discriminate).
Qed.

(** A repetition of a sequence that stores nothing, into a vector of int: the sequence gets a
    buffer of its own, which nothing fills, and which is copied. *)
Theorem C41_refuted :
  exists p t v inp, welltyped false false (fun _ _ _ => False) (fun _ => false) (fun _ => False) noenv t p /\
  has_ty t v = true /\ parse noenv 99 t v p inp = Err (EUb UbUninit).
Proof.
  exists (star (Seq [lc "a"; lc "b"])), (TColl int32), (VColl []), (txt "ab").
  split; [|split; vm_compute; reflexivity]. split; [discriminate|]. split; [reflexivity|]. cbn.
  intuition (eauto; try discriminate). all: eexists; cbn; intuition (eauto; try discriminate).
Qed.
Print Assumptions C41_refuted.

(** ** C45 *)

(** A pattern that passes all the checks answers, whatever the input, ... *)
Theorem C45_parse_always_answers :
  forall uses stores known env t p eager rank,
  welltyped true true uses stores known env t p -> all_defined uses env ->
  all_guarded eager rank env -> guarded eager rank None p = true ->
  forall v inp, object t v -> exists r w, (r = SUCCESS \/ r = FAILURE) /\
    reaches (fun n => parse env n t v p inp) (Done (r, w)).
Proof. exact parse_total. Qed.
Print Assumptions C45_parse_always_answers.

(** ... and however it is cut up. *)
Theorem C45_sessions_always_answer :
  forall uses stores known env t p eager rank,
  welltyped true true uses stores known env t p -> all_defined uses env ->
  all_guarded eager rank env -> guarded eager rank None p = true ->
  forall v l, object t v -> legal l = true -> exists s, reaches (fun n => run_session env n t v p l) (Done s) /\
    (ended (removelast l) = true -> last l (Feed [] false) = Consume -> s_res s = Some SUCCESS \/ s_res s = Some FAILURE).
Proof. exact session_total. Qed.
Print Assumptions C45_sessions_always_answer.

(** A calculator of unsigned numbers that is safe on any input. *)
Definition C45_u32 : ty := TNum false 32.
Definition C45_set : action := Action_ 0 C45_u32 true true (fun x _ => (VNil, x)).
Definition C45_op : action :=
  Action_ 1 (TTuple [char8; C45_u32]) true true (fun v b =>
    (VNil, match v, b with
           | VTuple [VNum c; VNum y], VNum x => VNum (wrap false 32 (if (c =? 43)%Z then x + y else x - y))
           | _, _ => VNum 0
           end)).
Definition C45_prim : pat := Alt [uint_; Seq [lc "("; Recur 0 false; lc ")"]].
Definition C45_env : nat -> option pat := fun id =>
  match id with
  | 0 => Some (BindDst (Seq [Act C45_set C45_prim; star (Act C45_op (Seq [Char (set_of_cstr (txt "+-" ++ [0%Z])); C45_prim]))]))
  | _ => None
  end.
Definition C45_calc : pat := WithSkipper (Recur 0 false) space.
Definition C45_uses (id : nat) (t bt : ty) : Prop := id = 0 /\ t = C45_u32 /\ (bt = C45_u32).
Definition C45_known (a : action) : Prop := a = C45_set \/ a = C45_op.

Lemma C45_callbacks t : callback C45_set t C45_u32 /\ callback C45_op t C45_u32.
Proof.
  split; intros x b Hx Hb; (split; [intros _ _|discriminate]).
  - exact Hx.
  - cbn [snd ac_fun C45_op]. destruct x as [| | | |[|[] [|[] []]]|]; try reflexivity. destruct b; try reflexivity.
    apply wrap_range. lia.
Qed.

Example C45_checked :
  welltyped true true C45_uses (fun _ => true) C45_known C45_env C45_u32 C45_calc /\ all_defined C45_uses C45_env /\
  all_guarded (fun _ => true) (fun _ => 0) C45_env /\ guarded (fun _ => true) (fun _ => 0) None C45_calc = true.
Proof.
  split; [|split; [|split; [|reflexivity]]].
  - split; [|split; [reflexivity|]].
    + intros [|id] q [= <-]. split; [reflexivity|]. intros t bt _ _ (_ & -> & ->).
      pose proof (C45_callbacks C45_u32) as [H1 H2]. pose proof (C45_callbacks TNil) as [H3 H4].
      cbn. unfold C45_known, C45_uses.
      repeat first [assumption | progress intros | split | discriminate | reflexivity | assumption | eexists; split; [reflexivity|] ].
      all: try (left; reflexivity). all: try (right; reflexivity).
    + cbn. unfold C45_uses. repeat split; try discriminate. right. repeat split; auto.
  - intros id t bt (-> & _). discriminate.
  - intros [|id] q [= <-]. split; reflexivity.
Qed.

Example C45_runs : exists w,
  parse C45_env 300 C45_u32 (VNum 0) C45_calc (txt " 7 - (2+ 3)-4294967297") = Done (SUCCESS, w) /\ w_cells w = [VNum 1].
Proof. eexists. split; vm_compute; reflexivity. Qed.
