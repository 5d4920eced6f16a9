(** C77: moving a parser. *)
From Coq Require Import String List ZArith Bool Arith.
From Verif Require Import Base CharSet Source Dst Pattern Parser Session Safety Move MoveThms MoveLoss Demo Run.
Import ListNotations.

(** C77, full statement: a resumable parser that is moved goes on from where it stood, and
    reads what it is fed; the object it was moved from is of no more use to it.
    What holds: if none of the buffers it was given is held any more when it is moved, and all
    further data is given to the object it was moved from, then it answers, leaves the data and
    the object, and makes the callbacks as if it had not been moved.  Missing: everything else,
    see below. *)
Theorem C77_a_moved_parser_goes_on_partial :
  forall env n t p v before l s0,
  run_session env n t v p before = Done s0 -> holds_nothing s0 ->
  (forall a b, l = a ++ b -> b <> [] ->
     exists s, run_session env n t v p (before ++ a) = Done s /\ s_res s = None) ->
  match run_session env n t v p (before ++ l), run_moved env n t p v before (map through_original l) with
  | Done s, Done m => sees m = shows s
  | Err e, Err e' => e = e'
  | _, _ => False
  end.
Proof. exact moved_in_place. Qed.
Print Assumptions C77_a_moved_parser_goes_on_partial.

(** '[' >> int_ >> ']' in three pieces, moved in the middle of the number. *)
Definition C77_p : pat := Seq [lc "["; int_; lc "]"].
Definition C77_before : list call := [Feed (txt "[12") false; Consume].
Definition C77_after : list call := [Feed (txt "3") false; Consume; Feed (txt "]") true; Consume].
Example C77_example :
  (exists s0, run_session noenv 99 int32 (VNum 0) C77_p C77_before = Done s0 /\ holds_nothing s0) /\
  (forall a b, C77_after = a ++ b -> b <> [] ->
     exists s, run_session noenv 99 int32 (VNum 0) C77_p (C77_before ++ a) = Done s /\ s_res s = None) /\
  exists m, run_moved noenv 99 int32 C77_p (VNum 0) C77_before (map through_original C77_after) = Done m /\
    mv_res m = Some SUCCESS /\ w_cells (mv_world m) = [VNum 123].
Proof.
  split; [eexists; split; [vm_compute; reflexivity|reflexivity]|].
  split; [|eexists; split; [vm_compute; reflexivity|split; reflexivity]].
  intros a b E Hb. destruct a as [|c1 [|c2 [|c3 [|c4 a]]]].
  - eexists. split; [vm_compute; reflexivity|reflexivity].
  - injection E as <- _. eexists. split; [vm_compute; reflexivity|reflexivity].
  - injection E as <- <- _. eexists. split; [vm_compute; reflexivity|reflexivity].
  - injection E as <- <- <- _. eexists. split; [vm_compute; reflexivity|reflexivity].
  - injection E as _ _ _ _ E. symmetry in E. now apply app_eq_nil in E.
Qed.

(** In particular a parser that has been given nothing yet. *)
Theorem C77_a_new_parser_partial :
  forall env n t p v l,
  (forall a b, l = a ++ b -> b <> [] -> exists s, run_session env n t v p a = Done s /\ s_res s = None) ->
  match run_session env n t v p l, run_moved env n t p v [] (map through_original l) with
  | Done s, Done m => sees m = shows s
  | Err e, Err e' => e = e'
  | _, _ => False
  end.
Proof. exact moved_before_use. Qed.
Print Assumptions C77_a_new_parser_partial.

Example C77_new_example :
  (forall a b, [Feed (txt "[7]") true; Consume] = a ++ b -> b <> [] ->
     exists s, run_session noenv 99 int32 (VNum 0) C77_p a = Done s /\ s_res s = None) /\
  exists m, run_moved noenv 99 int32 C77_p (VNum 0) [] [FeedOriginal (txt "[7]") true; Ask] = Done m /\
    mv_res m = Some SUCCESS /\ w_cells (mv_world m) = [VNum 7].
Proof.
  split; [|eexists; split; [vm_compute; reflexivity|split; reflexivity]].
  intros a b E Hb. destruct a as [|c1 [|c2 a]].
  - eexists. split; [vm_compute; reflexivity|reflexivity].
  - injection E as <- _. eexists. split; [vm_compute; reflexivity|reflexivity].
  - injection E as _ _ E. symmetry in E. now apply app_eq_nil in E.
Qed.

(** Nothing that has text in it can be given to the moved parser itself. *)
Theorem C77_a_moved_parser_can_be_fed_refuted :
  exists p b f,
  (exists s, run_session noenv 99 TNil VNil p [Feed b f; Consume] = Done s /\ s_res s = Some SUCCESS) /\
  run_moved noenv 99 TNil p VNil [] [FeedMoved b f; Ask] = Err (EUb UbRead).
Proof.
  exists int_, (txt "12"), true. split; [|vm_compute; reflexivity].
  eexists. split; [vm_compute; reflexivity|reflexivity].
Qed.
Print Assumptions C77_a_moved_parser_can_be_fed_refuted.

(** Text that was given before the move cannot be read behind it. *)
Theorem C77_what_was_fed_is_moved_refuted :
  exists p b,
  (exists s, run_session noenv 99 TNil VNil p [Feed b true; Consume] = Done s /\ s_res s = Some SUCCESS) /\
  run_moved noenv 99 TNil p VNil [Feed b true] [Ask] = Err (EUb UbRead).
Proof.
  exists int_, (txt "12"). split; [|vm_compute; reflexivity].
  eexists. split; [vm_compute; reflexivity|reflexivity].
Qed.
Print Assumptions C77_what_was_fed_is_moved_refuted.

(** The condition is needed: in the middle of a list, where the buffer is held so that the
    separator can be given back, the place to go back to is lost. *)
Theorem C77_in_the_middle_refuted :
  exists p before b,
  (exists s, run_session noenv 99 (TColl int32) (VColl []) p before = Done s /\ s_res s = None /\ cs_empty (w_src (s_world s)) = true) /\
  (exists s, run_session noenv 99 (TColl int32) (VColl []) p (before ++ [Feed b true; Consume]) = Done s /\ s_res s = Some SUCCESS) /\
  run_moved noenv 99 (TColl int32) p (VColl []) before [FeedOriginal b true; Ask] = Err (EUb UbMark).
Proof.
  exists (PList int_ (lc ",")), [Feed (txt "12,3") false; Consume], (txt "4"). split; [|split].
  - eexists. split; [vm_compute; reflexivity|split; reflexivity].
  - eexists. split; [vm_compute; reflexivity|reflexivity].
  - vm_compute. reflexivity.
Qed.
Print Assumptions C77_in_the_middle_refuted.

(** So it is always: a parser for a pattern without Optional (see C10) that is moved while it
    holds a buffer never answers, whatever it and the object it was moved from are given.
    Each time it is asked it wants more, or what happens is undefined. *)
Theorem C77_moved_while_holding_never_answers_partial :
  forall env n t v p,
  (forall id q, env id = Some q -> optfree q = true) -> optfree p = true ->
  forall before l s0 m,
  run_session env n t v p before = Done s0 -> s_res s0 = None -> cs_bufs (w_src (s_world s0)) <> [] ->
  run_moved env n t p v before l = Done m -> mv_res m = None.
Proof. exact moved_while_holding. Qed.
Print Assumptions C77_moved_while_holding_never_answers_partial.

Example C77_holding_example :
  optfree (PList int_ (lc ",")) = true /\
  (exists s0, run_session noenv 99 (TColl int32) (VColl []) (PList int_ (lc ",")) [Feed (txt "12,3") false; Consume] = Done s0 /\
     s_res s0 = None /\ cs_bufs (w_src (s_world s0)) <> []) /\
  exists m, run_moved noenv 99 (TColl int32) (PList int_ (lc ",")) (VColl []) [Feed (txt "12,3") false; Consume]
              [FeedOriginal (txt "4") false; Ask; FeedMoved [] true] = Done m /\ mv_res m = None.
Proof.
  split; [reflexivity|]. split.
  - eexists. split; [vm_compute; reflexivity|]. split; [reflexivity|discriminate].
  - eexists. split; [vm_compute; reflexivity|reflexivity].
Qed.

(** Optional is different, since it never ends the rollback point it takes when its operand
    matches: the point is lost, and nobody misses it. *)
Theorem C77_moved_while_holding_with_optional_refuted :
  exists p before l s0 m,
  run_session noenv 99 TNil VNil p before = Done s0 /\ s_res s0 = None /\ cs_bufs (w_src (s_world s0)) <> [] /\
  run_moved noenv 99 TNil p VNil before l = Done m /\ mv_res m = Some SUCCESS.
Proof.
  exists (Seq [Opt (lc "a"); lc "b"]), [Feed (txt "a") false; Consume], [FeedOriginal (txt "b") true; Ask].
  eexists. eexists. split; [vm_compute; reflexivity|]. split; [reflexivity|]. split; [discriminate|].
  split; [vm_compute; reflexivity|reflexivity].
Qed.
Print Assumptions C77_moved_while_holding_with_optional_refuted.

(** And the object it was moved from has to be kept. *)
Theorem C77_the_original_may_go_refuted :
  exists p b,
  (exists s, run_session noenv 99 TNil VNil p [Feed b true; Consume] = Done s /\ s_res s = Some SUCCESS) /\
  run_moved noenv 99 TNil p VNil [] [FeedOriginal b true; Destroy; Ask] = Err (EUb UbRead).
Proof.
  exists int_, (txt "12"). split; [|vm_compute; reflexivity].
  eexists. split; [vm_compute; reflexivity|reflexivity].
Qed.
Print Assumptions C77_the_original_may_go_refuted.
