(** The theorems on the number of steps of a resumed parser. *)
From Coq Require Import String List ZArith Bool Arith.
From Verif Require Import Base CharSet Source Dst Pattern Parser Session SpecSession SpecSteps SpecTerm SpecResume ResumeThms Demo.
Import ListNotations.
Local Open Scope string_scope.

(** A data source that counts is one more data source: the session is the same. *)
Theorem C70_counting_only_counts :
  forall env t v p n l,
  match session_counted env n t v p l with
  | Done s => exists s', run_session env n t v p l = Done s' /\ s_res s' = s_res s /\ s_st s' = s_st s /\
                         w_src (s_world s') = fst (w_src (s_world s)) /\ w_cells (s_world s') = w_cells (s_world s) /\ w_trace (s_world s') = w_trace (s_world s)
  | Err e => run_session env n t v p l = Err e
  end.
Proof. exact session_uncounted. Qed.
Print Assumptions C70_counting_only_counts.

(** However the text is cut and whenever consume() is called: the steps of all the calls
    together are, to the last one, those of parse() over the whole text. *)
Theorem C70_resuming_rereads_nothing :
  forall env t v p l, complete l -> forall r k,
  reaches (fun n => session_bill (session_counted env n t v p l)) (Done (Some r, k)) <->
  reaches (fun m => parse_counted env m t v p (fed l)) (Done (r, k)).
Proof. exact rereads_nothing. Qed.
Print Assumptions C70_resuming_rereads_nothing.

(** So at any time before, no more. *)
Theorem C70_steps_so_far :
  forall env t v p n l1 l2 s1 s2, complete (l1 ++ l2) ->
  session_counted env n t v p l1 = Done s1 -> session_counted env n t v p (l1 ++ l2) = Done s2 ->
  exists r m k, parse_counted env m t v p (fed (l1 ++ l2)) = Done (r, k) /\ steps s1 <= k.
Proof. exact so_far. Qed.
Print Assumptions C70_steps_so_far.

(** And the bound of C69 is one for sessions, with the same constant whatever the number of
    buffers and of calls. *)
Theorem C70_steps_by_order :
  forall rank p, plain p = true -> guarded (fun _ => false) rank None p = true ->
  exists c, forall env n t v l1 l2 s1 s2, complete (l1 ++ l2) ->
  session_counted env n t v p l1 = Done s1 -> session_counted env n t v p (l1 ++ l2) = Done s2 ->
  steps s1 <= c * (List.length (fed (l1 ++ l2)) + 1) ^ order p.
Proof. exact session_order. Qed.
Print Assumptions C70_steps_by_order.

(** The README's list in five buffers, one of them empty, cut inside a number and in front of
    blanks; two calls in a row without new data: 14 steps, as many as in one piece. *)
Definition C70_calls : list call :=
  [Consume; Feed (txt "[ 1") false; Consume; Consume; Feed (txt "2, 3") false; Feed [] false; Consume;
   Feed (txt " ,45") false; Consume; Feed (txt " ] rest") true; Consume].
Example C70_readme :
  complete C70_calls /\ fed C70_calls = txt "[ 12, 3 ,45 ] rest" /\
  session_bill (session_counted noenv 200 (TColl int32) (VColl []) readme C70_calls) = Done (Some SUCCESS, 14) /\
  parse_counted noenv 200 (TColl int32) (VColl []) readme (txt "[ 12, 3 ,45 ] rest") = Done (SUCCESS, 14).
Proof.
  split; [|repeat split; vm_compute; reflexivity].
  exists (removelast C70_calls). repeat split; reflexivity.
Qed.

(** One letter at a time, into a pattern that reads everything and gives it back: the letters
    given back are read again by the next alternative, not by the next call. *)
Definition C70_letters : list call := flat_map (fun c => [Feed [c] false; Consume]) (txt "aaaa") ++ [Feed [] true; Consume].
Example C70_given_back :
  let p := Alt [Seq [plus (lc "a"); lc "b"]; plus (lc "a")] in
  complete C70_letters /\
  map (fun i => session_bill (session_counted noenv 200 TNil VNil p (firstn i C70_letters))) [0; 2; 4; 6; 8; 10] =
  map (fun x => Done x) [(None, 0); (None, 1); (None, 2); (None, 3); (None, 4); (Some SUCCESS, 8)] /\
  parse_counted noenv 200 TNil VNil p (txt "aaaa") = Done (SUCCESS, 8).
Proof.
  split; [|split; vm_compute; reflexivity].
  exists (removelast C70_letters). repeat split; reflexivity.
Qed.
