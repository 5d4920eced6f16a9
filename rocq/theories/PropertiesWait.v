(** The theorems on what can be seen of a resumable parser between the calls. *)
From Coq Require Import String List ZArith Bool Arith.
From Verif Require Import Base CharSet Source Dst Pattern Parser Session SpecSession SpecGrow SpecWait WaitThms Leaf Demo.
Import ListNotations.
Local Open Scope string_scope.
Local Open Scope list_scope.

(** ** C60 *)

(** Two sessions given the same text, in whatever buffers and with consume() called wherever
    in between, show the same after the next consume(): the same answer or no answer yet, the
    same destination, the same calls; or both go wrong the same way, or neither ever returns. *)
Theorem C60_only_the_text_counts :
  forall env t v p l l', legal l = true -> legal l' = true -> fed l = fed l' -> ended l = ended l' ->
  forall o, reaches (fun n => session_shows (run_session env n t v p (l ++ [Consume]))) o <->
            reaches (fun n => session_shows (run_session env n t v p (l' ++ [Consume]))) o.
Proof. exact only_text. Qed.
Print Assumptions C60_only_the_text_counts.

(** In particular it is as if it had all come in one buffer ... *)
Theorem C60_as_from_one_buffer :
  forall env t v p l, legal l = true ->
  forall o, reaches (fun n => session_shows (run_session env n t v p (l ++ [Consume]))) o <->
            reaches (fun n => session_shows (run_session env n t v p [Feed (fed l) (ended l); Consume])) o.
Proof. exact one_buffer. Qed.
Print Assumptions C60_as_from_one_buffer.

(** ... and calling consume() again without more data changes nothing. *)
Theorem C60_asking_again_changes_nothing :
  forall env t v p l, legal l = true ->
  forall o, reaches (fun n => session_shows (run_session env n t v p (l ++ [Consume; Consume]))) o <->
            reaches (fun n => session_shows (run_session env n t v p (l ++ [Consume]))) o.
Proof. exact asking_again. Qed.
Print Assumptions C60_asking_again_changes_nothing.

(** The calls made so far are the first calls of whatever follows (the newest call is at the
    head of the trace): of the session when it goes on, ... *)
Theorem C60_calls_so_far_are_the_first :
  forall env t v p n l l2 s s',
  run_session env n t v p l = Done s -> run_session env n t v p (l ++ l2) = Done s' ->
  exists k, w_trace (s_world s') = k ++ w_trace (s_world s).
Proof. exact calls_first. Qed.
Print Assumptions C60_calls_so_far_are_the_first.

(** ... and of parse() over the text so far with anything after it. *)
Theorem C60_calls_so_far_are_the_first_of_parse :
  forall env t v p n l s rest m r w,
  run_session env n t v p l = Done s -> ended l = false -> parse env m t v p (fed l ++ rest) = Done (r, w) ->
  exists k, w_trace w = k ++ w_trace (s_world s).
Proof. exact parse_calls_first. Qed.
Print Assumptions C60_calls_so_far_are_the_first_of_parse.

(** The same for the elements of a collection. *)
Theorem C60_elements_so_far_are_the_first :
  forall env e p, every_action_in appends env -> every_action appends p ->
  forall n l l2 xs s s',
  run_session env n (TColl e) (VColl xs) p l = Done s -> run_session env n (TColl e) (VColl xs) p (l ++ l2) = Done s' ->
  exists v v', w_cells (s_world s) = [v] /\ w_cells (s_world s') = [v'] /\ starts_with v v'.
Proof. exact elements_first. Qed.
Print Assumptions C60_elements_so_far_are_the_first.

Theorem C60_elements_so_far_are_the_first_of_parse :
  forall env e p, every_action_in appends env -> every_action appends p ->
  forall n l xs s rest m r w,
  run_session env n (TColl e) (VColl xs) p l = Done s -> ended l = false ->
  parse env m (TColl e) (VColl xs) p (fed l ++ rest) = Done (r, w) ->
  exists v v', w_cells (s_world s) = [v] /\ w_cells w = [v'] /\ starts_with v v'.
Proof. exact parse_elements_first. Qed.
Print Assumptions C60_elements_so_far_are_the_first_of_parse.

(** The README's pattern, each element reported as well. *)
Definition C60_tell : action := Action_ 4 int32 false true (fun x b => (VNil, b)).
Definition C60_p : pat :=
  WithSkipper (Seq [lc "<"; PList (Act C60_tell int_) (lc ","); lc ">"; lc "["; PList int_ (lc ","); lc "]"]) ws.
Definition C60_l : list call :=
  [Consume; Feed (txt " <1, -2") false; Consume; Feed [] false; Consume; Consume; Feed (txt "2> [3,4") false; Feed (txt "5,") false].
Definition C60_l' : list call := [Feed (txt " <1, -22> [3,45,") false].
Example C60_hypotheses :
  legal C60_l = true /\ legal C60_l' = true /\ fed C60_l = fed C60_l' /\ ended C60_l = ended C60_l' /\
  every_action_in appends noenv /\ every_action appends C60_p.
Proof. repeat (split; [reflexivity|]). split; [discriminate|]. cbn. intuition. intros H. discriminate. Qed.
Example C60_waiting :
  session_shows (run_session noenv 60 (TColl int32) (VColl []) C60_p (C60_l ++ [Consume])) =
  session_shows (run_session noenv 60 (TColl int32) (VColl []) C60_p (C60_l' ++ [Consume])) /\
  session_shows (run_session noenv 60 (TColl int32) (VColl []) C60_p (C60_l' ++ [Consume])) =
  Done (None, [ints [3; 45]], [Event 4 (VNum (-22)); Event 4 (VNum 1)])%Z.
Proof. split; vm_compute; reflexivity. Qed.

(** An element under way is not in the collection yet. *)
Example C60_before :
  session_shows (run_session noenv 60 (TColl int32) (VColl []) C60_p [Feed (txt " <1, -22> [3,4") false; Consume]) =
  Done (None, [ints [3]], [Event 4 (VNum (-22)); Event 4 (VNum 1)])%Z.
Proof. vm_compute. reflexivity. Qed.

(** What is seen while waiting is not what parse() leaves over the same text: "-5" stores 5,
    and turns it into -5 when the digits have come to an end. *)
Example C60_not_what_parse_leaves :
  session_shows (run_session noenv 60 int32 (VNum 0) int_ [Feed (txt "-5") false; Consume]) = Done (None, [VNum 5], [])%Z /\
  parse_seen (parse noenv 60 int32 (VNum 0) int_ (txt "-5")) = Done (SUCCESS, [VNum (-5)], [])%Z.
Proof. split; vm_compute; reflexivity. Qed.
