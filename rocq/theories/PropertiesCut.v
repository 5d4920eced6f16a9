(** The theorems on bounds that are not reached. *)
From Coq Require Import String List ZArith Bool Arith Lia.
From Verif Require Import Base CharSet Source Dst Pattern Parser Session SpecSession SpecRun SpecTerm SpecCut CutThms Demo MathDemo.
Import ListNotations.
Local Open Scope string_scope.
Local Open Scope list_scope.

(** ** C56 *)

(** Every repetition without a largest number of elements and every number without a largest
    number of digits, bounded beyond the length of the text: parse() does exactly the same. *)
Theorem C56_parse_ignores_bounds_beyond_the_text :
  forall eager rank env, all_guarded eager rank env ->
  forall N, 2 <= N ->
  forall t v p inp, guarded eager rank None p = true -> List.length inp < N ->
  exists o1 o2, reaches (fun n => parse env n t v p inp) o1 /\
                reaches (fun n => parse (cut_env N env) n t v (cut N p) inp) o2 /\
                parse_alike o1 o2.
Proof. exact parse_cut. Qed.
Print Assumptions C56_parse_ignores_bounds_beyond_the_text.

(** ... and so does every session that feeds less than that in all, wherever the text is cut,
    whether or not it has been fed to the end, and misused or not. *)
Theorem C56_sessions_ignore_bounds_beyond_the_text :
  forall eager rank env, all_guarded eager rank env ->
  forall N, 2 <= N ->
  forall t v p l, guarded eager rank None p = true -> List.length (fed l) < N ->
  exists o1 o2, reaches (fun n => run_session env n t v p l) o1 /\
                reaches (fun n => run_session (cut_env N env) n t v (cut N p) l) o2 /\
                session_alike o1 o2.
Proof. exact session_cut. Qed.
Print Assumptions C56_sessions_ignore_bounds_beyond_the_text.

(** The README's list, the math example: bounded by the largest int. *)
Definition int_max : nat := Z.to_nat 2147483647.

Example C56_readme inp : (Z.of_nat (List.length inp) < 2147483647)%Z ->
  exists o1 o2, reaches (fun n => parse noenv n (TColl int32) (VColl []) readme inp) o1 /\
                reaches (fun n => parse (cut_env int_max noenv) n (TColl int32) (VColl []) (cut int_max readme) inp) o2 /\
                parse_alike o1 o2.
Proof.
  intros H. eapply (C56_parse_ignores_bounds_beyond_the_text (fun _ => false) (fun _ => 0)).
  - intros id q. discriminate.
  - apply Nat2Z.inj_le. unfold int_max. rewrite Z2Nat.id; discriminate.
  - reflexivity.
  - apply Nat2Z.inj_lt. unfold int_max. rewrite Z2Nat.id; [exact H|discriminate].
Qed.

Example C56_math l : List.length (fed l) < int_max ->
  exists o1 o2, reaches (fun n => run_session math_env n int32 (VNum 0) math l) o1 /\
                reaches (fun n => run_session (cut_env int_max math_env) n int32 (VNum 0) (cut int_max math) l) o2 /\
                session_alike o1 o2.
Proof.
  intros H. eapply (C56_sessions_ignore_bounds_beyond_the_text (fun _ => true) (fun _ => 0)); auto.
  - intros [|id] q [= <-]. split; reflexivity.
  - apply Nat2Z.inj_le. unfold int_max. rewrite Z2Nat.id; discriminate.
Qed.

(** What becomes of the patterns. *)
Example C56_cut : cut 9 (Seq [star any; plus uint_; Repeat 2 3 (Int 10 1 4)]) =
  Seq [Repeat 0 9 any; Repeat 1 10 (UInt 10 1 9); Repeat 2 3 (Int 10 1 4)].
Proof. reflexivity. Qed.

(** Bounds that are reached do make a difference: the length cannot be dropped. *)
Theorem C56_reached_bounds_matter :
  exists p inp, guarded (fun _ => false) (fun _ => 0) None p = true /\ List.length inp = 3 /\
  exists w1 w2, parse noenv 50 TNil VNil p inp = Done (SUCCESS, w1) /\ parse noenv 50 TNil VNil (cut 2 p) inp = Done (SUCCESS, w2) /\
  left_at w1 <> left_at w2.
Proof.
  exists (star any), (txt "abc"). split; [reflexivity|]. split; [reflexivity|]. do 2 eexists. split; [vm_compute; reflexivity|]. split; [vm_compute; reflexivity|].
  vm_compute. discriminate.
Qed.
Print Assumptions C56_reached_bounds_matter.
