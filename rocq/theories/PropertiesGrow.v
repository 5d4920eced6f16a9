(** The theorems on what the destination held before. *)
From Coq Require Import String List ZArith Bool Arith.
From Verif Require Import Base CharSet Source Dst Pattern Parser Session SpecSession SpecType SpecGrow.
From Verif Require Import GrowThms Leaf Demo PropertiesType.
Import ListNotations.
Local Open Scope string_scope.
Local Open Scope list_scope.

(** ** C46 *)

(** A collection is only ever appended to, and nothing depends on what it held: parsing into
    [pre ++ l] is parsing into [l] with [pre] put in front afterwards.  (With [l] empty: the
    values appended are those that go into an empty collection.) *)
Theorem C46_parse_appends :
  forall env e p pre, forallb (has_ty e) pre = true ->
  every_action_in indifferent env -> every_action indifferent p ->
  forall n l inp, parse env n (TColl e) (VColl (pre ++ l)) p inp =
                  parse_front pre (parse env n (TColl e) (VColl l) p inp).
Proof. exact parse_grows. Qed.
Print Assumptions C46_parse_appends.

Theorem C46_sessions_append :
  forall env e p pre, forallb (has_ty e) pre = true ->
  every_action_in indifferent env -> every_action indifferent p ->
  forall n l calls, run_session env n (TColl e) (VColl (pre ++ l)) p calls =
                    session_front pre (run_session env n (TColl e) (VColl l) p calls).
Proof. exact session_grows. Qed.
Print Assumptions C46_sessions_append.

(** The README's pattern, and one with a callback that calls push_back on the bound
    destination. *)
Definition C46_push : action :=
  Action_ 7 int32 true true (fun x b => (VNil, match b with VColl l => VColl (l ++ [x]) | _ => b end)).
Definition C46_p : pat := Seq [lc "<"; PList (Act C46_push int_) (lc ","); lc ">"; readme].
Example C46_hypotheses : every_action_in indifferent noenv /\ every_action indifferent readme /\ every_action indifferent C46_p.
Proof.
  split; [discriminate|]. split; [cbn; intuition|]. cbn. intuition.
  intros _ x l pre. cbn. now rewrite app_assoc.
Qed.
Example C46_runs :
  exists w1 w2, parse noenv 200 (TColl int32) (VColl []) C46_p (txt "<1,2>[3,4]") = Done (SUCCESS, w1) /\
  w_cells w1 = [ints [1; 2; 3; 4]%Z] /\
  parse noenv 200 (TColl int32) (ints [9; 8]%Z) C46_p (txt "<1,2>[3,4]") = Done (SUCCESS, w2) /\
  w_cells w2 = [ints [9; 8; 1; 2; 3; 4]%Z].
Proof. eexists. eexists. split; [vm_compute; reflexivity|]. split; [reflexivity|]. split; [vm_compute; reflexivity|reflexivity]. Qed.

(** A callback that looks at what the bound collection holds is not indifferent, and makes a
    difference. *)
Definition C46_look : action :=
  Action_ 8 int32 true true (fun x b => (VNil, match b with VColl [] => VColl [x] | _ => b end)).
Example C46_nosy :
  ~ indifferent C46_look /\
  exists w1 w2, parse noenv 200 (TColl int32) (VColl []) (Act C46_look int_) (txt "5") = Done (SUCCESS, w1) /\
  parse noenv 200 (TColl int32) (ints [9]%Z) (Act C46_look int_) (txt "5") = Done (SUCCESS, w2) /\
  w_cells w1 = [ints [5]%Z] /\ w_cells w2 = [ints [9]%Z].
Proof.
  split.
  - intros H. specialize (H eq_refl (VNum 5) [] [VNum 9]). discriminate.
  - do 2 eexists. split; [vm_compute; reflexivity|]. split; [vm_compute; reflexivity|]. split; reflexivity.
Qed.

(** ** C47 *)

(** A destination that is neither a collection nor a tuple is write-only: run with different
    contents, the same pattern gives the same answer at the same place and calls the same
    actions; and it either leaves what was there in both cases or puts the same there. *)
Theorem C47_parse_only_writes :
  forall env t p, (forall e, t <> TColl e) -> (forall l, t <> TTuple l) ->
  every_action_in unaware env -> every_action unaware p ->
  (is_num t = true -> exists uses stores known, welltyped true false uses stores known env t p) ->
  forall v w n inp, parse_alike v w (parse env n t v p inp) (parse env n t w p inp).
Proof. exact parse_writes. Qed.
Print Assumptions C47_parse_only_writes.

Theorem C47_sessions_only_write :
  forall env t p, (forall e, t <> TColl e) -> (forall l, t <> TTuple l) ->
  every_action_in unaware env -> every_action unaware p ->
  (is_num t = true -> exists uses stores known, welltyped true false uses stores known env t p) ->
  forall v w n l, session_alike v w (run_session env n t v p l) (run_session env n t w p l).
Proof. exact session_writes. Qed.
Print Assumptions C47_sessions_only_write.

(** The pattern of C41's example, and what it does with an int that holds 100. *)
Example C47_hypotheses :
  every_action_in unaware noenv /\ every_action unaware C41_p /\
  exists uses stores known, welltyped true false uses stores known noenv int32 C41_p.
Proof.
  split; [discriminate|]. split; [cbn; intuition|]. do 3 eexists. apply C41_example.
Qed.
Example C47_runs :
  exists w1 w2 w3, parse noenv 200 int32 (VNum 100) C41_p (txt "12;-3;4") = Done (SUCCESS, w1) /\ w_cells w1 = [VNum (-3)] /\
  parse noenv 200 int32 (VNum 100) C41_p (txt "(12") = Done (FAILURE, w2) /\ w_cells w2 = [VNum 12] /\
  parse noenv 200 int32 (VNum 100) (Seq [lc "a"; int_]) (txt "b") = Done (FAILURE, w3) /\ w_cells w3 = [VNum 100].
Proof. do 3 eexists. repeat (split; [vm_compute; reflexivity|]). reflexivity. Qed.
