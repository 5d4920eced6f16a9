(** The theorems, one block per property of /verif/properties.jsonl. *)
From Coq Require Import String List ZArith Bool Arith.
From Verif Require Import Base CharSet Source Dst Pattern Parser Session.
From Verif Require Import SpecSource SourceHist SpecSession Safety SessionThms Demo.
Import ListNotations.
Local Open Scope string_scope.
Local Open Scope list_scope.

(** Takes conjunctions apart (and nothing else). *)
Ltac cases := repeat match goal with |- _ /\ _ => apply conj end.

(** ** C01 *)

(** After every history, the buffered source and a cursor over everything added either
    both went wrong, in the same way, or look the same. *)
Theorem C01_buffered_source_is_cursor :
  forall h,
  match run_ops cs_do h cs_make, run_ops a_do h cursor0 with
  | Done s, Done a => cs_empty s = a_empty a /\ cs_final s = a_fin a /\ cs_next s = a_next a
  | Err e, Err e' => e = e'
  | _, _ => False
  end.
Proof. exact cs_history. Qed.
Print Assumptions C01_buffered_source_is_cursor.

(** A history that reads two buffers, with marks taken on data and on nothing, and goes
    back twice over the border. *)
Definition C01_h : list sop :=
  [OPrepare; OAdd [97; 98] false; OAdvance; OPrepare; OAdvance; OPrepare; OAdd [] false;
   OAdd [99] false; OAdvance; OPrepare; OAdd [100] true; OAdvance; OCommit; OCancel; OCommit]%Z.

Example C01_example :
  exists s, run_ops cs_do C01_h cs_make = Done s /\ cs_next s = Done 98%Z.
Proof. eexists. split; vm_compute; reflexivity. Qed.

(** ** C02 *)

Theorem C02_range_source_is_cursor :
  forall h l,
  (forall b f, ~ In (OAdd b f) h) ->
  match run_ops sf_do h (sf_make l), run_ops a_do h (cursor_of l) with
  | Done s, Done a => sf_empty s = a_empty a /\ so_final sf_ops s = a_fin a /\ sf_next s = a_next a
  | Err e, Err e' => e = e'
  | _, _ => False
  end.
Proof. exact sf_history. Qed.
Print Assumptions C02_range_source_is_cursor.

Example C02_example :
  exists s, run_ops sf_do [OAdvance; OPrepare; OAdvance; OPrepare; OAdvance; OCancel; OCommit]
                          (sf_make [97; 98; 99]%Z) = Done s
            /\ sf_next s = Done 98%Z.
Proof. eexists. split; vm_compute; reflexivity. Qed.

(** ** C03 *)

(** The buffers still held are those with something at or behind the place the reader may
    go back to. *)
Theorem C03_buffers_held :
  forall h s,
  run_ops cs_do h cs_make = Done s ->
  exists a, run_ops a_do h cursor0 = Done a
            /\ map snd (cs_bufs s) = reaching (oldest a) (added h).
Proof. exact cs_history_held. Qed.
Print Assumptions C03_buffers_held.

Example C03_example :
  exists s, run_ops cs_do [OAdd [97; 98] false; OAdd [99] false; OAdvance; OPrepare; OAdvance;
                           OAdvance; OAdd [100; 101] false; OAdvance; OCancel]%Z cs_make = Done s
            /\ map snd (cs_bufs s) = [[100; 101]%Z].
Proof. eexists. split; vm_compute; reflexivity. Qed.

(** ** C04 *)

(** Whatever the buffers and wherever consume() is called in between, a session reaches an
    answer exactly when parse() over the whole input does, and then the answer, the
    destination and the action calls are the same; so are the errors. *)
Theorem C04_outcome_independent_of_cutting :
  forall env t v p l, complete l ->
  forall o : outcome seen,
  reaches (fun n => session_seen (run_session env n t v p l))
          (match o with Done x => Done (Some x) | Err e => Err e end) <->
  reaches (fun n => parse_seen (parse env n t v p (fed l))) o.
Proof. exact cutting. Qed.
Print Assumptions C04_outcome_independent_of_cutting.

(** ... and the same is left unread. *)
Theorem C04_position_independent_of_cutting :
  forall env t v p n l s0 s r,
  run_session env n t v p l = Done s0 -> s_res s0 = None -> ended l = true ->
  run_session env n t v p (l ++ [Consume]) = Done s -> s_res s = Some r ->
  exists m w, parse env m t v p (fed l) = Done (r, w)
              /\ w_cells w = w_cells (s_world s) /\ w_trace w = w_trace (s_world s)
              /\ sf_cur (w_src w) = cs_unread (w_src (s_world s)).
Proof. exact position. Qed.
Print Assumptions C04_position_independent_of_cutting.

Definition C04_l : list call :=
  [Consume; Feed (txt " [1, -2") false; Consume; Feed [] false; Consume; Feed (txt "2 ") false;
   Feed (txt ",3 ]rest") true; Consume].

Example C04_example :
  complete C04_l /\
  session_seen (run_session noenv 60 (TColl int32) (VColl []) readme C04_l)
  = Done (Some (SUCCESS, [ints [1; -22; 3]], []))%Z.
Proof.
  split; [|vm_compute; reflexivity].
  exists (removelast C04_l). cases; vm_compute; reflexivity.
Qed.

Example C04_position_example :
  exists s0 s, run_session noenv 60 (TColl int32) (VColl []) readme (removelast C04_l) = Done s0
            /\ s_res s0 = None /\ ended (removelast C04_l) = true
            /\ run_session noenv 60 (TColl int32) (VColl []) readme C04_l = Done s
            /\ s_res s = Some SUCCESS /\ cs_unread (w_src (s_world s)) = txt "rest".
Proof. do 2 eexists. cases; vm_compute; reflexivity. Qed.

(** ** C05 *)

Theorem C05_early_answer_is_final :
  forall env t v p n l s0 s r,
  run_session env n t v p l = Done s0 -> s_res s0 = None -> ended l = false ->
  run_session env n t v p (l ++ [Consume]) = Done s -> s_res s = Some r ->
  forall rest,
  exists m w, parse env m t v p (fed l ++ rest) = Done (r, w)
              /\ w_cells w = w_cells (s_world s) /\ w_trace w = w_trace (s_world s)
              /\ sf_cur (w_src w) = cs_unread (w_src (s_world s)) ++ rest.
Proof. exact early_answer. Qed.
Print Assumptions C05_early_answer_is_final.

Definition C05_l : list call := [Feed (txt "[1,2") false; Consume; Feed (txt " ] ") false].

Example C05_example :
  exists s0 s, run_session noenv 60 (TColl int32) (VColl []) readme C05_l = Done s0
            /\ s_res s0 = None /\ ended C05_l = false
            /\ run_session noenv 60 (TColl int32) (VColl []) readme (C05_l ++ [Consume]) = Done s
            /\ s_res s = Some SUCCESS /\ w_cells (s_world s) = [ints [1; 2]%Z].
Proof. do 2 eexists. cases; vm_compute; reflexivity. Qed.

(** ** C06 *)

Theorem C06_no_partial_after_final :
  forall env t v p n l s,
  ended l = true -> run_session env n t v p (l ++ [Consume]) = Done s ->
  s_res s = Some SUCCESS \/ s_res s = Some FAILURE.
Proof. exact no_partial_after_final. Qed.
Print Assumptions C06_no_partial_after_final.

Theorem C06_parse_is_never_partial :
  forall env t v p n inp r w,
  parse env n t v p inp = Done (r, w) -> r = SUCCESS \/ r = FAILURE.
Proof. exact parse_never_partial. Qed.
Print Assumptions C06_parse_is_never_partial.

Example C06_example :
  exists s, run_session noenv 60 (TColl int32) (VColl []) readme
              ([Feed (txt "[1,") false; Consume; Feed [] true] ++ [Consume]) = Done s
            /\ s_res s = Some FAILURE.
Proof. eexists. split; vm_compute; reflexivity. Qed.

(** ** C07 *)

Theorem C07_partial_means_starved :
  forall env t v p n l s,
  run_session env n t v p (l ++ [Consume]) = Done s -> s_res s = None ->
  ended l = false /\ cs_empty (w_src (s_world s)) = true /\ cs_final (w_src (s_world s)) = false.
Proof. exact starving. Qed.
Print Assumptions C07_partial_means_starved.

Example C07_example :
  exists s, run_session noenv 60 (TColl int32) (VColl []) readme
              ([Feed (txt "[1,") false; Consume; Feed (txt " 2") false] ++ [Consume]) = Done s
            /\ s_res s = None.
Proof. eexists. split; vm_compute; reflexivity. Qed.

(** ** C08, C09 *)

(** The ways the data sources can be misused. *)
Definition source_misuse : list err :=
  [EUb UbRead; EUb UbAdvance; EUb UbMark; EUb UbRelease; EUb UbFinal].

Theorem C08_no_source_misuse :
  forall env t v p n,
  (forall inp e, parse env n t v p inp = Err e -> ~ In e source_misuse) /\
  (forall l e, legal l = true -> run_session env n t v p l = Err e -> ~ In e source_misuse).
Proof. exact no_misuse. Qed.
Print Assumptions C08_no_source_misuse.

Theorem C09_assumptions_hold :
  forall env t v p n,
  (forall inp, parse env n t v p inp <> Err EShape) /\
  (forall l, legal l = true -> run_session env n t v p l <> Err EShape).
Proof. exact no_shape. Qed.
Print Assumptions C09_assumptions_hold.

(** The other errors do occur: an undefined Recur, a signed overflow. *)
Example C08_example :
  legal C04_l = true /\
  parse noenv 9 TNil VNil (Seq [Lit (txt "a"); Recur 0 true]) (txt "ab") = Err (EUb UbRecur) /\
  parse noenv 60 int32 VUndef int_ (txt "2147483648") = Err (EUb UbOverflow).
Proof. cases; vm_compute; reflexivity. Qed.

(** ** C10 *)

(** Partial: patterns without Optional (see C10_refuted). *)
Theorem C10_no_mark_left_partial :
  forall env t v p,
  (forall id q, env id = Some q -> optfree q = true) -> optfree p = true ->
  (forall n inp r w, parse env n t v p inp = Done (r, w) -> sf_stack (w_src w) = []) /\
  (forall n l s r, run_session env n t v p l = Done s -> s_res s = Some r ->
     let src := w_src (s_world s) in
     cs_marks src = [] /\ cs_starved src = 0 /\
     match cs_bufs src with
     | [] => cs_unread src = []
     | (_, b) :: tl => exists k, k < length b /\ cs_unread src = skipn k b ++ concat (map snd tl)
     end).
Proof. exact no_mark_left. Qed.
Print Assumptions C10_no_mark_left_partial.

Example C10_example :
  (forall id q, noenv id = Some q -> optfree q = true) /\ optfree readme = true /\
  exists s, run_session noenv 60 (TColl int32) (VColl []) readme C04_l = Done s
            /\ s_res s = Some SUCCESS.
Proof. split; [discriminate|]. split; [reflexivity|]. eexists. split; vm_compute; reflexivity. Qed.

(** An Optional whose operand matches leaves its mark behind; the buffer it points into is
    held for ever. *)
Theorem C10_refuted :
  exists p inp w,
  parse noenv 60 TNil VNil p inp = Done (SUCCESS, w) /\ sf_stack (w_src w) <> [].
Proof.
  exists (Seq [Opt (Lit (txt "a")); Lit (txt "b")]), (txt "ab").
  eexists. split; [vm_compute; reflexivity|discriminate].
Qed.
Print Assumptions C10_refuted.

Theorem C10_session_refuted :
  exists p l s,
  run_session noenv 60 TNil VNil p l = Done s /\ s_res s = Some SUCCESS /\
  cs_unread (w_src (s_world s)) = [] /\ cs_bufs (w_src (s_world s)) <> [].
Proof.
  exists (Seq [Opt (Lit (txt "a")); Lit (txt "b")]), [Feed (txt "a") false; Feed (txt "b") true; Consume].
  eexists. cases; [vm_compute; reflexivity..|discriminate].
Qed.
Print Assumptions C10_session_refuted.
