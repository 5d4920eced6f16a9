(** Copies of a parser. *)
From Coq Require Import List ZArith Bool Arith Lia.
From Verif Require Import Base CharSet Source Dst Pattern Parser Session Program SpecProgram ProgramThms Copy.
Import ListNotations.

(** The data goes to the original; [w] is asked. *)
Definition asking (w : who) (c : call) : who * call :=
  match c with Feed _ _ => (Original, c) | Consume => (w, c) end.

(** What one sees of the one that is asked. *)
Definition seen (w : who) (s : twins) : option result * pst * world cseq :=
  match w with Original => (tw_res s, tw_st s, tw_world s) | Copy => (tw_cres s, tw_cst s, tw_world s) end.
Definition shown (s : session cseq) : option result * pst * world cseq := (s_res s, s_st s, s_world s).

(** Where the other one stands: its answer and its parser. *)
Definition other (w : who) (s : twins) : option result * pst :=
  match w with Original => (tw_cres s, tw_cst s) | Copy => (tw_res s, tw_st s) end.

(** The copy is given a buffer with nothing in it, and told that more will come. *)
Definition nothing_new (k : who * call) : bool :=
  match k with (Copy, Feed [] false) => true | _ => false end.
(** The copy is not told that its data is over. *)
Definition open_ended (k : who * call) : bool :=
  match k with (Copy, Feed _ true) => false | _ => true end.

Section Thms.
Context (env : nat -> option pat) (n : nat) (t : ty) (p : pat).
Notation calls := (do_calls cs_ops cs_add env n t p).

Lemma one_asked w l : forall s tw, seen w tw = shown s ->
  (forall a b, l = a ++ b -> b <> [] -> exists s', calls a s = Done s' /\ s_res s' = None) ->
  match calls l s, do_twins env n t p (map (asking w) l) tw with
  | Done s', Done tw' => seen w tw' = shown s'
  | Err e, Err e' => e = e'
  | _, _ => False
  end.
Proof.
  induction l as [|c l IH]; intros s tw E H; [exact E|].
  destruct (H [] (c :: l) eq_refl) as (s0 & E0 & Hr); [discriminate|]. injection E0 as <-.
  cbn [do_calls map do_twins].
  assert (match do_call cs_ops cs_add env n t p c s, do_twin env n t p (asking w c) tw with
          | Done s', Done tw' => seen w tw' = shown s'
          | Err e, Err e' => e = e'
          | _, _ => False
          end) as H1.
  { unfold do_call. rewrite Hr. destruct s as [rs st wd], w, tw as [r1 t1 r2 t2 f tw].
    all: cbn in E, Hr; injection E as -> -> ->; subst rs; destruct c as [b f'|]; cbn -[cs_add top_consume].
    all: try (destruct (cs_add b f' (w_src wd)); cbn; auto; fail).
    all: destruct (top_consume cs_ops env n t p st wd) as [[[[] st'] w']|]; cbn; auto. }
  destruct (do_call cs_ops cs_add env n t p c s) as [s'|e] eqn:Ec,
           (do_twin env n t p (asking w c) tw) as [tw'|e']; try contradiction; [|exact H1].
  cbn [obind]. apply IH; auto. intros a b -> Hb.
  destruct (H (c :: a) b eq_refl Hb) as (s2 & E2 & H2). exists s2. cbn in E2. rewrite Ec in E2. auto.
Qed.

Lemma other_stands w l : forall tw tw', do_twins env n t p (map (asking w) l) tw = Done tw' -> other w tw' = other w tw.
Proof.
  induction l as [|c l IH]; intros tw tw' E; [now injection E as <-|]. cbn [map do_twins] in E.
  destruct (do_twin env n t p (asking w c) tw) as [tw1|] eqn:E1; [|discriminate]. cbn [obind] in E. rewrite (IH _ _ E).
  clear -E1. destruct c as [b f|]; cbn -[cs_add top_consume] in E1.
  - destruct (cs_add _ _ _); [|discriminate]. injection E1 as <-. now destruct w.
  - destruct w; cbn -[cs_add top_consume] in E1; (match type of E1 with match ?X with _ => _ end = _ => destruct X end; [now injection E1 as <-|]);
    destruct (top_consume _ _ _ _ _ _ _) as [[[? ?] ?]|]; try discriminate; now injection E1 as <-.
Qed.

Theorem copy_in_place w v before l :
  (forall a b, l = a ++ b -> b <> [] ->
     exists s, run_session env n t v p (before ++ a) = Done s /\ s_res s = None) ->
  match run_session env n t v p (before ++ l), run_twins env n t p v before (map (asking w) l) with
  | Done s, Done tw => seen w tw = shown s /\
    exists s0, run_session env n t v p before = Done s0 /\ other w tw = (s_res s0, s_st s0)
  | Err e, Err e' => e = e'
  | _, _ => False
  end.
Proof.
  intros H. unfold run_twins. rewrite run_session_app.
  destruct (run_session env n t v p before) as [s|e] eqn:E; cbn [obind]; [|auto].
  assert (match calls l s, do_twins env n t p (map (asking w) l) (copied s) with
          | Done s', Done tw' => seen w tw' = shown s' | Err e, Err e' => e = e' | _, _ => False end) as HA.
  { apply one_asked; [now destruct w|]. intros a b El Hb. destruct (H a b El Hb) as (s' & E1 & E2).
    rewrite run_session_app, E in E1. eauto. }
  destruct (calls l s), (do_twins env n t p (map (asking w) l) (copied s)) eqn:E2; auto.
  split; auto. exists s. split; auto. rewrite (other_stands _ _ _ _ E2). now destruct w.
Qed.

Lemma nothing_happens l : forall tw, tw_final tw = false -> forallb open_ended l = true ->
  do_twins env n t p l tw = do_twins env n t p (filter (fun k => negb (nothing_new k)) l) tw.
Proof.
  induction l as [|[w c] l IH]; intros tw Hf Ho; auto. cbn [forallb] in Ho. apply andb_prop in Ho as [Hc Ho].
  assert (forall tw', do_twin env n t p (w, c) tw = Done tw' -> tw_final tw' = false) as Hk.
  { intros tw' E. destruct w, c as [b f|]; cbn -[cs_add top_consume] in E.
    - destruct (cs_add _ _ _); [|discriminate]. now injection E as <-.
    - destruct (tw_res tw); [now injection E as <-|]. destruct (top_consume _ _ _ _ _ _ _) as [[[? ?] ?]|]; [|discriminate]. now injection E as <-.
    - rewrite Hf in E. destruct b; [|discriminate]. injection E as <-. cbn in Hc |- *. now destruct f.
    - destruct (tw_cres tw); [now injection E as <-|]. destruct (top_consume _ _ _ _ _ _ _) as [[[? ?] ?]|]; [|discriminate]. now injection E as <-. }
  cbn [filter]. destruct (nothing_new (w, c)) eqn:En; cbn [negb].
  - destruct w, c as [[|z b] [|]|]; try discriminate. cbn [do_twins do_twin]. rewrite Hf. cbn [obind].
    rewrite IH; auto. f_equal. destruct tw; cbn in *; congruence.
  - cbn [do_twins]. destruct (do_twin env n t p (w, c) tw) as [tw'|] eqn:E; auto. cbn [obind]. apply IH; auto.
Qed.

Theorem copy_told_nothing v before l s :
  run_session env n t v p before = Done s -> cs_final (w_src (s_world s)) = false -> forallb open_ended l = true ->
  run_twins env n t p v before l = run_twins env n t p v before (filter (fun k => negb (nothing_new k)) l).
Proof. intros E Hf Ho. unfold run_twins. rewrite E. cbn [obind]. apply nothing_happens; auto. Qed.
End Thms.
