(** C71: several parsers in one program. *)
From Coq Require Import String List ZArith Bool Arith.
From Verif Require Import Base CharSet Source Dst Pattern Parser Session Program SpecProgram ProgramThms Demo Run.
Import ListNotations.

(** C71.  A program makes any number of parsers, calls them in any order, writes to its own
    objects in between and calls parse() into them.  If no object belongs to two parsers, each
    of them ends up with the answer, the data source, the callbacks and the object it has when
    used alone; the other objects hold what the program's own deeds put into them, and parse()
    answers and makes the callbacks it does if these are all there is. *)
Theorem C71_parsers_do_not_disturb_each_other :
  forall env n ts objs l g, apart l -> run_prog env n ts objs l = Done g ->
  (forall i p k, nth_error (makes l) i = Some (p, k) ->
     exists s, SpecProgram.alone env n ts objs p k (calls_of i l) = Done s /\ sees g i k s) /\
  (forall k, (forall x, k = Some x -> x < List.length objs /\ ~ In x (targets l)) ->
     exists v, by_itself env n ts objs k (deeds k l) = Done (v, answers k (g_parsed g)) /\
     forall x, k = Some x -> nth_error (g_objs g) x = Some v) /\
  List.length (g_parsers g) = List.length (makes l) /\ List.length (g_objs g) = List.length objs.
Proof. exact parsers_apart. Qed.
Print Assumptions C71_parsers_do_not_disturb_each_other.

(** And the program goes wrong only if one of them would alone, or a call of parse(). *)
Theorem C71_the_program_runs_if_each_parser_does :
  forall env n ts objs l, apart l -> sensible (List.length objs) 0 l ->
  (forall i p k, nth_error (makes l) i = Some (p, k) ->
     exists s, SpecProgram.alone env n ts objs p k (calls_of i l) = Done s) ->
  (forall k, exists r, by_itself env n ts objs k (deeds k l) = Done r) ->
  exists g, run_prog env n ts objs l = Done g.
Proof. exact program_runs. Qed.
Print Assumptions C71_the_program_runs_if_each_parser_does.

(** So the order in which the parsers and the other objects are served does not matter. *)
Theorem C71_order_of_service :
  forall env n ts objs l l' g, apart l -> apart l' -> sensible (List.length objs) 0 l' ->
  makes l' = makes l -> (forall i, calls_of i l' = calls_of i l) ->
  (forall k, deeds k l' = deeds k l) ->
  run_prog env n ts objs l = Done g ->
  exists g', run_prog env n ts objs l' = Done g' /\ g_objs g' = g_objs g /\
    map q_res (g_parsers g') = map q_res (g_parsers g) /\
    map q_src (g_parsers g') = map q_src (g_parsers g) /\
    (forall i, log_of i (g_log g') = log_of i (g_log g)) /\
    forall k, answers k (g_parsed g') = answers k (g_parsed g).
Proof. exact order_irrelevant. Qed.
Print Assumptions C71_order_of_service.

(** Two parsers of one recursive pattern with a callback on the bound destination,
    n = discard((int_[sum += x] | '(' n ')') % ','), and one that stores nothing; parse() of the
    same pattern into a third object in between. *)
Definition C71_add : action :=
  Action_ 7 int32 true true (fun x b => match x, b with VNum a, VNum c => (VNil, VNum (a + c)%Z) | _, _ => (VNil, b) end).
Definition C71_env (id : nat) : option pat :=
  match id with 0 => Some (Discard (PList (Alt [Act C71_add int_; Seq [lc "("; Recur 0 true; lc ")"]]) (lc ","))) | _ => None end.
Definition C71_l : list stmt :=
  [SMake (Recur 0 true) (Some 0); SMake (Recur 0 true) (Some 2); SCall 0 (Feed (txt "1,(2") false);
   SCall 1 (Feed (txt "(30,4") false); SCall 1 Consume; SCall 0 Consume; SSet 1 (VNum 9);
   SParse (Recur 0 true) (Some 1) (txt "5,((6))"); SParse int_ None (txt "x"); SMake (star any) None; SCall 2 (Feed (txt "xyz") true); SCall 0 (Feed (txt "5,3)") true);
   SCall 1 (Feed (txt "0)") true); SCall 2 Consume; SCall 0 Consume; SCall 1 Consume].
(** The same, one parser after the other. *)
Definition C71_l' : list stmt :=
  [SMake (Recur 0 true) (Some 0); SCall 0 (Feed (txt "1,(2") false); SCall 0 Consume;
   SCall 0 (Feed (txt "5,3)") true); SCall 0 Consume; SParse int_ None (txt "x"); SSet 1 (VNum 9);
   SMake (Recur 0 true) (Some 2); SCall 1 (Feed (txt "(30,4") false); SCall 1 Consume;
   SCall 1 (Feed (txt "0)") true); SCall 1 Consume;
   SMake (star any) None; SCall 2 (Feed (txt "xyz") true); SCall 2 Consume;
   SParse (Recur 0 true) (Some 1) (txt "5,((6))")].
Definition C71_ts : list ty := [int32; int32; int32].
Definition C71_objs : list val := [VNum 0; VNum 0; VNum 100].

Lemma C71_apart l : targets l = [0; 2] -> written_to l = [1; 1] -> apart l.
Proof.
  intros E1 E2. unfold apart. rewrite E1, E2. split.
  - repeat constructor; cbn; intuition discriminate.
  - cbn. intuition congruence.
Qed.

Example C71_example :
  apart C71_l /\ sensible 3 0 C71_l /\ apart C71_l' /\ sensible 3 0 C71_l' /\
  makes C71_l' = makes C71_l /\ (forall i, calls_of i C71_l' = calls_of i C71_l) /\
  (forall k, deeds k C71_l' = deeds k C71_l) /\
  exists g, run_prog C71_env 99 C71_ts C71_objs C71_l = Done g /\
    g_objs g = [VNum 29; VNum 20; VNum 170] /\
    map q_res (g_parsers g) = [Some SUCCESS; Some SUCCESS; Some SUCCESS] /\
    map (fun e => (fst e, ev_val (snd e))) (g_log g) =
      [(1, VNum 40); (0, VNum 3); (0, VNum 25); (0, VNum 1); (1, VNum 30)] /\
    map (fun x => (fst x, fst (fst (snd x)), map ev_val (snd (snd x)))) (g_parsed g) =
      [(Some 1, SUCCESS, [VNum 6; VNum 5]); (None, FAILURE, [])].
Proof.
  split; [now apply C71_apart|]. split; [cbn; auto 20|]. split; [now apply C71_apart|]. split; [cbn; auto 20|].
  split; [reflexivity|]. split; [intros [|[|[|i]]]; reflexivity|]. split; [intros [[|[|x]]|]; reflexivity|].
  eexists. split; [vm_compute; reflexivity|]. repeat split; vm_compute; reflexivity.
Qed.

(** Two parsers with one object: what one of them stores is lost. *)
Theorem C71_shared_object_refuted :
  exists l g, NoDup (makes l) /\ sensible 1 0 l /\ run_prog noenv 99 [int32] [VNum 0] l = Done g /\
  exists i p s, nth_error (makes l) i = Some (p, Some 0) /\
    SpecProgram.alone noenv 99 [int32] [VNum 0] p (Some 0) (calls_of i l) = Done s /\ ~ sees g i (Some 0) s.
Proof.
  exists [SMake int_ (Some 0); SMake uint_ (Some 0); SCall 0 (Feed (txt "12") false); SCall 0 Consume;
          SCall 1 (Feed (txt "7") true); SCall 1 Consume; SCall 0 (Feed (txt "3") true); SCall 0 Consume].
  eexists. split; [|split; [|split; [vm_compute; reflexivity|]]].
  - repeat constructor; cbn; intuition discriminate.
  - cbn. auto 20.
  - exists 0, int_. eexists. split; [reflexivity|]. split; [vm_compute; reflexivity|].
    intros (_ & _ & H). destruct (H 0 eq_refl) as (v & H1 & H2). cbn in H1, H2. congruence.
Qed.
Print Assumptions C71_shared_object_refuted.
