(** C72: copies of a parser. *)
From Coq Require Import String List ZArith Bool Arith.
From Verif Require Import Base CharSet Source Dst Pattern Parser Session Copy CopyThms Demo Run.
Import ListNotations.

(** C72, full statement: a copy of a resumable parser is a parser of its own.  It goes on from
    where the original stood and reads what it is fed itself, whatever is done with the original.
    What holds: if all data is given to the original and, after the copy has been made, only one
    of the two is asked, then that one answers, leaves the data and the object, and makes the
    callbacks as if no copy had been made; the other one has not moved.  Missing: everything
    else, see below. *)
Theorem C72_a_copy_goes_on_partial :
  forall env n t p w v before l,
  (forall a b, l = a ++ b -> b <> [] ->
     exists s, run_session env n t v p (before ++ a) = Done s /\ s_res s = None) ->
  match run_session env n t v p (before ++ l), run_twins env n t p v before (map (asking w) l) with
  | Done s, Done tw => seen w tw = shown s /\
    exists s0, run_session env n t v p before = Done s0 /\ other w tw = (s_res s0, s_st s0)
  | Err e, Err e' => e = e'
  | _, _ => False
  end.
Proof. exact copy_in_place. Qed.
Print Assumptions C72_a_copy_goes_on_partial.

(** A list of numbers in three pieces, copied in the middle of the second number. *)
Definition C72_p : pat := PList int_ (lc ",").
Definition C72_before : list call := [Feed (txt "12,3") false; Consume].
Definition C72_after : list call := [Feed (txt "4,") false; Consume; Feed (txt "5") true; Consume].

Example C72_example :
  (forall a b, C72_after = a ++ b -> b <> [] ->
     exists s, run_session noenv 99 (TColl int32) (VColl []) C72_p (C72_before ++ a) = Done s /\ s_res s = None) /\
  exists tw, run_twins noenv 99 (TColl int32) C72_p (VColl []) C72_before (map (asking Copy) C72_after) = Done tw /\
    tw_cres tw = Some SUCCESS /\ tw_res tw = None /\ w_cells (tw_world tw) = [VColl [VNum 12; VNum 34; VNum 5]].
Proof.
  split; [|eexists; split; [vm_compute; reflexivity|repeat split; vm_compute; reflexivity]].
  intros a b E Hb. destruct a as [|c1 [|c2 [|c3 [|c4 a]]]].
  - eexists. split; [vm_compute; reflexivity|reflexivity].
  - injection E as <- _. eexists. split; [vm_compute; reflexivity|reflexivity].
  - injection E as <- <- _. eexists. split; [vm_compute; reflexivity|reflexivity].
  - injection E as <- <- <- _. eexists. split; [vm_compute; reflexivity|reflexivity].
  - injection E as _ _ _ _ E. symmetry in E. now apply app_eq_nil in E.
Qed.

(** The copy cannot be fed. *)
Theorem C72_a_copy_can_be_fed_refuted :
  exists p b f,
  (exists s, run_session noenv 99 TNil VNil p [Feed b f; Consume] = Done s /\ s_res s = Some SUCCESS) /\
  run_twins noenv 99 TNil p VNil [] [(Copy, Feed b f); (Copy, Consume)] = Err (EUb UbRead).
Proof.
  exists int_, (txt "12"), true. split; [|vm_compute; reflexivity].
  eexists. split; [vm_compute; reflexivity|reflexivity].
Qed.
Print Assumptions C72_a_copy_can_be_fed_refuted.

(** It takes away what the original has been fed: the original then fails. *)
Theorem C72_the_original_is_left_alone_refuted :
  exists p b, (exists s, run_session noenv 99 TNil VNil p [Feed b true; Consume] = Done s /\ s_res s = Some SUCCESS) /\
  exists tw, run_twins noenv 99 TNil p VNil [] [(Original, Feed b true); (Copy, Consume); (Original, Consume)] = Done tw /\
    tw_cres tw = Some SUCCESS /\ tw_res tw = Some FAILURE.
Proof.
  exists int_, (txt "12"). split; [eexists; split; [vm_compute; reflexivity|reflexivity]|].
  eexists. split; [vm_compute; reflexivity|split; reflexivity].
Qed.
Print Assumptions C72_the_original_is_left_alone_refuted.

(** Asking both after a copy in the middle of an alternative takes back one mark twice: undefined. *)
Theorem C72_asking_both_refuted :
  exists p before l, (exists s, run_session noenv 99 TNil VNil p (before ++ [l; Consume]) = Done s) /\
  exists e, run_twins noenv 99 TNil p VNil before [(Original, l); (Copy, Consume); (Original, Consume)] = Err (EUb e).
Proof.
  exists (Alt [Lit (txt "abc"); Lit (txt "abd")]), [Feed (txt "ab") false; Consume], (Feed (txt "c") true).
  split; [eexists; vm_compute; reflexivity|]. eexists. vm_compute. reflexivity.
Qed.
Print Assumptions C72_asking_both_refuted.

(** A buffer with nothing in it, given to the copy, makes no difference to either of them. *)
Theorem C72_empty_buffers_for_the_copy :
  forall env n t p v before l s,
  run_session env n t v p before = Done s -> cs_final (w_src (s_world s)) = false -> forallb open_ended l = true ->
  run_twins env n t p v before l = run_twins env n t p v before (filter (fun k => negb (nothing_new k)) l).
Proof. exact copy_told_nothing. Qed.
Print Assumptions C72_empty_buffers_for_the_copy.

(** Even after the last buffer of the original. *)
Example C72_empty_example :
  forallb open_ended [(Original, Feed (txt "4") true); (Copy, Feed [] false); (Copy, Consume)] = true /\
  exists s tw, run_session noenv 99 (TColl int32) (VColl []) C72_p C72_before = Done s /\ cs_final (w_src (s_world s)) = false /\
  run_twins noenv 99 (TColl int32) C72_p (VColl []) C72_before
    [(Original, Feed (txt "4") true); (Copy, Feed [] false); (Copy, Consume)] = Done tw /\
  tw_cres tw = Some SUCCESS /\ w_cells (tw_world tw) = [VColl [VNum 12; VNum 34]].
Proof.
  split; [reflexivity|]. eexists. eexists. split; [vm_compute; reflexivity|]. split; [reflexivity|].
  split; [vm_compute; reflexivity|]. split; reflexivity.
Qed.

(** Nor does the copy learn from its own last buffer that the data is over: it waits. *)
Theorem C72_the_copy_is_told_the_end_refuted :
  exists p before,
  (exists s, run_session noenv 99 TNil VNil p (before ++ [Feed [] true; Consume]) = Done s /\ s_res s = Some SUCCESS) /\
  exists tw, run_twins noenv 99 TNil p VNil before [(Copy, Feed [] true); (Copy, Consume)] = Done tw /\ tw_cres tw = None.
Proof.
  exists int_, [Feed (txt "12") false; Consume]. split; [eexists; split; [vm_compute; reflexivity|reflexivity]|].
  eexists. split; [vm_compute; reflexivity|reflexivity].
Qed.
Print Assumptions C72_the_copy_is_told_the_end_refuted.
