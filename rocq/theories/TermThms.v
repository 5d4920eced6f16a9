(** Guarded patterns come to an end: parse() and sessions (C38). *)
From Coq Require Import List ZArith Bool Arith Lia.
From Verif Require Import Base CharSet Source Dst Pattern Parser Session SpecSession SpecTerm SpecCut.
From Verif Require Import Rel Safety Limit SessionProofs SessionThms Run Term.
Import ListNotations.

Section Thms.
Context (eager : nat -> bool) (rank : nat -> nat) (env : nat -> option pat).
Context (Henv : all_guarded eager rank env).

Lemma a_run_cut t v p inp fin : guarded eager rank None p = true ->
  exists n o, o <> Err EFuel /\ forall N m, far inp N -> n <= m -> a_run (envf env N) t v (cut N p) m inp fin = o.
Proof.
  intros Hp. set (w0 := World (Cursor inp fin 0 []) [v] []).
  assert (H0 : Term.St inp 0 [] 0 w0).
  { constructor; cbn; auto; [lia|]. exists []. repeat split; auto. }
  assert (HT : tot inp (fun N n => top_run (a_ops true) (envf env N) n t (cut N p)) (fun _ _ => True) w0).
  { unfold top_run. apply tot_bind. eapply tot_cons; [apply (t_create inp Fail (top_dst t)); exact H0|].
    intros st w1 (A & B & C). eapply tot_cons; [|intros; exact I].
    eapply (run_all inp eager rank env Henv (length inp) p Fail Hp (or_introl eq_refl)); [exact C| |exact A]. lia. }
  destruct HT as (n & o & Hn & HO). exists n, o. split; [intros ->; now apply HO|exact Hn].
Qed.

Lemma a_run_ends t v p inp : guarded eager rank None p = true ->
  exists o, lim (fun n => a_run env t v p n inp true) o.
Proof.
  intros Hp. destruct (a_run_cut t v p inp true Hp) as (n & o & Ho & H). exists o. split; auto. exists n.
  rewrite <- (H 0 n); auto; [now rewrite cut_none|now left].
Qed.

Lemma parse_ends t v p inp : guarded eager rank None p = true ->
  exists o, reaches (fun n => parse env n t v p inp) o.
Proof.
  intros Hp. destruct (a_run_ends t v p inp Hp) as (o & Ho & n & Hn).
  exists (parse env n t v p inp). apply reaches_lim; [apply mono_parse|]. split; [|now exists n].
  intros E. pose proof (parse_sim env t v p n inp) as HP. rewrite E, Hn in HP. destruct o as [x|e]; [destruct HP|]. cbn in HP. congruence.
Qed.

(** What consume() may be called on. *)
Lemma ended_app l1 l2 : ended (l1 ++ l2) = ended l1 || ended l2.
Proof. apply existsb_app. Qed.

Lemma legal_more l : legal l = true -> ended l = false -> legal (l ++ [Feed [] true]) = true.
Proof. induction l as [|[b []|] l IH]; cbn; auto; discriminate. Qed.

Lemma session_ends t v p l : guarded eager rank None p = true -> legal l = true ->
  exists o, reaches (fun n => run_session env n t v p l) o.
Proof.
  intros Hp Hl.
  assert (HC : exists l2, complete (l ++ l2)).
  { destruct (ended l) eqn:E.
    - exists [Consume], l. auto.
    - exists [Feed [] true; Consume], (l ++ [Feed [] true]). rewrite <- app_assoc. split; auto. split; [now apply legal_more|].
      rewrite ended_app. apply orb_true_r. }
  destruct HC as [l2 HC]. destruct (a_run_ends t v p (fed (l ++ l2)) Hp) as (o & HL).
  destruct (complete_ends env t v p _ _ HC HL) as [n Hn]. rewrite a_session_app in Hn.
  assert (Hm : run_session env n t v p l <> Err EFuel).
  { intros E. pose proof (session_sim env t v p n l) as HS. rewrite E in HS. destruct (a_session env t v p n l); [destruct HS|].
    cbn in HS. subst. now apply Hn. }
  exists (run_session env n t v p l). apply reaches_lim; [|split; eauto].
  assert (M1 : forall k s, mono (fun n => do_call cs_ops cs_add env n t p k s)).
  { intros k s n1 n2 H. unfold do_call. destruct (s_res s); auto. destruct k as [b f|]; auto.
    destruct (Mono_mono _ (s_world s) (Mono_consume cs_ops env (top_ctx t) default_req (top_dst t) p (s_st s)) n1 n2 H) as [E|E]; unfold top_consume; cbn in E; rewrite E; auto. }
  assert (M2 : forall l s, mono (fun n => do_calls cs_ops cs_add env n t p l s)).
  { clear l Hl HC Hn Hm HL l2. induction l as [|k l IH]; intros s n1 n2 H; cbn [do_calls]; auto.
    destruct (M1 k s n1 n2 H) as [E|E]; cbn in E; rewrite E; auto.
    destruct (do_call _ _ _ n2 _ _ _ _) as [a|]; cbn; auto. apply (IH a n1 n2 H). }
  intros n1 n2 H. unfold run_session. destruct (top_create _ _ _ _) as [[st w]|]; auto. now apply M2.
Qed.

(** ... with an answer, or with an error that the pattern or the numbers are to blame for. *)
Lemma parse_answers_or t v p inp : guarded eager rank None p = true ->
  exists o, reaches (fun n => parse env n t v p inp) o /\
  match o with
  | Done (r, _) => r = SUCCESS \/ r = FAILURE
  | Err e => e = EType \/ e = EUb UbOverflow \/ e = EUb UbUninit \/ e = EUb UbRecur
  end.
Proof.
  intros Hp. destruct (parse_ends t v p inp Hp) as (o & Ho). exists o. split; auto. destruct Ho as [Hf [n Hn]]. specialize (Hn n (le_n n)).
  destruct o as [[r w]|e]; [eapply parse_never_partial; eauto|]. apply parse_errors in Hn. destruct Hn as [->|Hn]; [congruence|exact Hn].
Qed.

Lemma session_answers_or t v p l : guarded eager rank None p = true -> legal l = true ->
  exists o, reaches (fun n => run_session env n t v p l) o /\
  match o with
  | Done s => ended (removelast l) = true -> last l (Feed [] false) = Consume -> s_res s = Some SUCCESS \/ s_res s = Some FAILURE
  | Err e => e = EType \/ e = EUb UbOverflow \/ e = EUb UbUninit \/ e = EUb UbRecur
  end.
Proof.
  intros Hp Hl. destruct (session_ends t v p l Hp Hl) as (o & Ho). exists o. split; auto. destruct Ho as [Hf [n Hn]]. specialize (Hn n (le_n n)).
  destruct o as [s|e].
  - intros E1 E2. assert (l <> []) as Hne by (intros ->; discriminate). rewrite (app_removelast_last (Feed [] false) Hne), E2 in Hn.
    eapply no_partial_after_final; eauto.
  - apply session_errors in Hn; auto. destruct Hn as [->|Hn]; [congruence|exact Hn].
Qed.
End Thms.

(** ** Without the guard *)
Lemma star_pass_runs env n t w : forall c, consume sf_ops env n (top_ctx t) default_req (top_dst t) (Repeat 0 0 Pass) (PRepeat c PLeaf) w = Err EFuel.
Proof.
  induction n as [|n IH]; intros c; [reflexivity|]. cbn [consume consume_step repeat_consume]. unfold repeat_consume, bind.
  destruct n as [|n]; [reflexivity|]. cbn [consume consume_step fst snd ret Nat.eqb negb andb]. exact (IH (S c)).
Qed.

Lemma star_pass_diverges env n t v inp : parse env n t v (Repeat 0 0 Pass) inp = Err EFuel.
Proof. unfold parse, top_run, bind. cbn. unfold top_consume. now rewrite star_pass_runs. Qed.

(** p = p >> lit('x'). *)
Definition left_env : nat -> option pat := fun _ => Some (Seq [Recur 0 false; Lit [120%Z]]).

Lemma left_runs bound rq n : forall w, consume sf_ops left_env n (Ctx Fail bound) rq DNil (Recur 0 false) (PRecur None) w = Err EFuel.
Proof.
  revert rq. induction n as [n IH] using lt_wf_ind. intros rq w. destruct n as [|n]; [reflexivity|]. destruct n as [|n]; [reflexivity|].
  cbn. unfold recur_consume, bind. cbn. unfold bind. cbn. now rewrite IH by lia.
Qed.

Lemma left_diverges n v inp : parse left_env n TNil v (Recur 0 false) inp = Err EFuel.
Proof. unfold parse, top_run, bind. cbn. unfold top_consume. change (top_ctx TNil) with (Ctx Fail DNil). change (top_dst TNil) with DNil. now rewrite left_runs. Qed.
