(** Sessions on the buffered source, parse() and runs over the cursor. *)
From Coq Require Import List ZArith Bool Arith Lia.
From Verif Require Import Base CharSet Source Dst Pattern Parser Session SourceProofs SpecSource.
From Verif Require Import SpecSession Rel Safety Keep Limit Chunk.
Import ListNotations.

Definition never (e : err) : Prop := False.

Lemma unread_split pre id b post off :
  ~ In id (map fst pre) ->
  unread_from id off (pre ++ (id, b) :: post) = skipn off b ++ contents post.
Proof.
  induction pre as [|[i b'] pre IH]; cbn; intros Hn.
  - now rewrite Nat.eqb_refl.
  - destruct (i =? id) eqn:E; [apply Nat.eqb_eq in E; tauto|]. apply IH. tauto.
Qed.

Lemma cs_unread_spec s a : R_cs s a -> cs_unread s = skipn (a_pos a) (a_inp a).
Proof.
  intros [d H]. destruct H. unfold cs_unread. destruct (cs_cur s) as [[id off]|].
  - destruct (loc_split _ _ _ _ _ rc_cur) as (pre & b & post & E & Hn & Ho & Hp).
    rewrite E, unread_split by auto. rewrite rc_inp, E, Hp, contents_app, contents_cons.
    rewrite <- Nat.add_assoc, skipn_app, (skipn_all2 d) by lia. cbn [app].
    replace (length d + (length (contents pre) + off) - length d) with (length (contents pre) + off) by lia.
    rewrite skipn_app, (skipn_all2 (contents pre)) by lia. cbn [app].
    replace (length (contents pre) + off - length (contents pre)) with off by lia.
    rewrite skipn_app. replace (off - length b) with 0 by lia. reflexivity.
  - rewrite skipn_all2; auto. lia.
Qed.

Section Session.
Context (env : nat -> option pat) (t : ty) (v : val) (p : pat).

(** ** The same session over the cursor *)
Definition a_session0 : outcome (session cursor) :=
  match top_create (a_ops true) t p (World cursor0 [v] []) with
  | Err e => Err e
  | Done (st, w) => Done (Session_ None st w)
  end.
Definition a_calls (n : nat) (l : list call) (s : session cursor) : outcome (session cursor) :=
  do_calls (a_ops true) a_add env n t p l s.
Definition a_session (n : nat) (l : list call) : outcome (session cursor) :=
  obind a_session0 (a_calls n l).

Definition Rs (s : session cseq) (s' : session cursor) : Prop :=
  s_res s = s_res s' /\ s_st s = s_st s' /\ Rw R_cs (s_world s) (s_world s').

Lemma do_call_sim n k s s' :
  Rs s s' -> rel_out Rs (do_call cs_ops cs_add env n t p k s) (do_call (a_ops true) a_add env n t p k s').
Proof.
  intros (H1 & H2 & H3). unfold do_call. rewrite H1. destruct (s_res s') eqn:Er.
  - repeat split; cbn; auto; try apply H3. congruence.
  - destruct k as [b f|].
    + destruct H3 as (Hr & Hc & Ht). pose proof (R_cs_add b f _ _ Hr) as HA.
      destruct (cs_add b f _), (a_add b f _); cbn; try contradiction; auto.
      repeat split; cbn; auto.
    + unfold top_consume. rewrite H2.
      pose proof (lsim_consume_same cs_ops (a_ops true) R_cs never ops_rel_cs (or_introl eq_refl) env n
                    (top_ctx t) default_req (top_dst t) p (s_st s') _ _ H3) as HL.
      destruct (consume cs_ops env n _ _ _ _ _ _) as [[[r st] w]|e].
      * destruct HL as (w' & -> & Hw). destruct r; repeat split; cbn; auto; apply Hw.
      * destruct HL as [[]| ->]. reflexivity.
Qed.

Lemma do_calls_sim n l : forall s s',
  Rs s s' -> rel_out Rs (do_calls cs_ops cs_add env n t p l s) (do_calls (a_ops true) a_add env n t p l s').
Proof.
  induction l as [|k l IH]; intros s s' H; cbn [do_calls].
  - exact H.
  - pose proof (do_call_sim n k s s' H) as HC. destruct (do_call cs_ops _ _ _ _ _ _ _), (do_call (a_ops true) _ _ _ _ _ _ _);
      cbn in HC |- *; try contradiction; auto.
Qed.

Lemma session_sim n l : rel_out Rs (run_session env n t v p l) (a_session n l).
Proof.
  unfold run_session, a_session, a_session0, a_calls, top_create.
  pose proof (lsim_create cs_ops (a_ops true) R_cs never ops_rel_cs (top_ctx t) default_req (top_dst t) p
     (World cs_make [v] []) (World cursor0 [v] [])) as HL.
  destruct (create cs_ops _ _ _ _ _) as [[st w]|e].
  - destruct HL as (w' & -> & Hw); [repeat split; apply R_cs_init|]. cbn [obind]. apply do_calls_sim.
    repeat split; apply Hw.
  - destruct HL as [[]| ->]; [repeat split; apply R_cs_init|]. reflexivity.
Qed.

(** ** parse() over the cursor *)
Definition a_run (n : nat) (inp : list Z) (fin : bool) : outcome ((result * pst) * world cursor) :=
  top_run (a_ops true) env n t p (World (Cursor inp fin 0 []) [v] []).

(** Running safely from the start. *)
Section Run.
Context (leak : bool).
Hypothesis Henv : forall id q, env id = Some q -> fits leak q.
Hypothesis Hp : fits leak p.

Lemma fits_fail : fits leak Fail.
Proof. right. reflexivity. Qed.

Lemma okc_top : okc leak (top_ctx t) (top_dst t) p 1.
Proof.
  repeat split; auto using fits_fail; apply dst_cell_ok; lia.
Qed.

Lemma create_safe res inp fin w :
  St leak inp fin 1 [] 0 w ->
  match top_create (a_ops res) t p w with
  | Err e => okerr e
  | Done (st, w') => St leak inp fin 1 [] (owed st + 0) w' /\ sh res env Fail p st
  end.
Proof.
  clear Henv Hp. intros HS.
  pose proof (create_ok res leak env inp fin (top_ctx t) default_req (top_dst t) p 1 [] 0 w
     (created res leak env inp fin 1 [] 0 Fail p)) as H.
  apply H; auto. apply dst_cell_ok; lia.
Qed.

Lemma St_init inp fin : St leak inp fin 1 [] 0 (World (Cursor inp fin 0 []) [v] []).
Proof.
  clear Henv Hp. constructor; cbn; auto. exists []. split; auto. unfold lrel. destruct leak; auto.
Qed.

Lemma run_safe res n inp fin :
  res = true \/ fin = true ->
  match top_run (a_ops res) env n t p (World (Cursor inp fin 0 []) [v] []) with
  | Err e => okerr e
  | Done ((r, st), w') => Post res leak env inp fin 1 [] 0 Fail p r st w'
  end.
Proof.
  intros Hf. unfold top_run, bind. pose proof (create_safe res inp fin _ (St_init inp fin)) as HC.
  destruct (top_create _ _ _ _) as [[st w]|e]; auto. destruct HC as [HS Hsh].
  pose proof (consume_safe res leak env inp fin Hf Henv n (top_ctx t) default_req (top_dst t) p st 1 [] 0 w
    (fun x w' => Post res leak env inp fin 1 [] 0 Fail p (fst x) (snd x) w') okc_top Hsh HS) as H.
  unfold wp in H. unfold top_consume. destruct (consume _ _ _ _ _ _ _ _ _) as [[[r st'] w']|e].
  - apply H. auto.
  - apply H. auto.
Qed.
End Run.

Lemma fits_leak q : fits true q.
Proof. left. reflexivity. Qed.

Lemma lsim_top_run {S1 S2} (o1 : source_ops S1) (o2 : source_ops S2) R bad n :
  ops_rel o1 o2 R ->
  so_resumable o1 = so_resumable o2 \/ (so_resumable o2 = true /\ bad EShape) ->
  lsim R bad (top_run o1 env n t p) (top_run o2 env n t p).
Proof.
  intros Ho Hr. unfold top_run. apply lsim_bind.
  - now apply lsim_create.
  - intros st. now apply lsim_consume_same.
Qed.

Definition Rp (x : result * world sfwd) (y : (result * pst) * world cursor) : Prop :=
  fst x = fst (fst y) /\ Rw R_sf (snd x) (snd y).

Lemma parse_sim n inp : rel_out Rp (parse env n t v p inp) (a_run n inp true).
Proof.
  unfold parse, a_run.
  assert (HR : Rw R_sf (World (sf_make inp) [v] []) (World (Cursor inp true 0 []) [v] [])).
  { repeat split; apply R_sf_init. }
  pose proof (lsim_top_run sf_ops (a_ops true) R_sf (fun e => e = EShape) n (ops_rel_sf true)
               (or_intror (conj eq_refl eq_refl)) _ _ HR) as HT.
  destruct (top_run sf_ops _ _ _ _ _) as [[[r st] w]|e] eqn:E.
  - destruct HT as (w' & -> & Hw). split; auto.
  - destruct HT as [->| ->]; [|reflexivity]. exfalso.
    pose proof (lsim_top_run sf_ops (a_ops false) R_sf never n (ops_rel_sf false) (or_introl eq_refl) _ _ HR) as HF.
    rewrite E in HF. destruct HF as [[]|HF].
    pose proof (run_safe true (fun _ q _ => fits_leak q) (fits_leak p) false n inp true (or_intror eq_refl)) as HS.
    rewrite HF in HS. unfold okerr in HS. intuition discriminate.
Qed.

(** ** Histories of the session over the cursor *)
Lemma do_calls_app {S} (ops : source_ops S) add n l1 : forall l2 s,
  do_calls ops add env n t p (l1 ++ l2) s =
  obind (do_calls ops add env n t p l1 s) (do_calls ops add env n t p l2).
Proof.
  induction l1 as [|k l1 IH]; intros l2 s; cbn [do_calls app]; [reflexivity|].
  destruct (do_call _ _ _ _ _ _ _ _); cbn; auto.
Qed.

Lemma a_calls_app n l1 l2 s : a_calls n (l1 ++ l2) s = obind (a_calls n l1 s) (a_calls n l2).
Proof. apply do_calls_app. Qed.

Lemma a_session_app n l1 l2 : a_session n (l1 ++ l2) = obind (a_session n l1) (a_calls n l2).
Proof.
  unfold a_session. destruct a_session0; cbn; [|reflexivity]. apply a_calls_app.
Qed.

Lemma a_calls_one n k s : a_calls n [k] s = do_call (a_ops true) a_add env n t p k s.
Proof. unfold a_calls. cbn. destruct (do_call _ _ _ _ _ _ _ _); reflexivity. Qed.

(** After the answer nothing happens any more. *)
Lemma a_calls_some n l s r : s_res s = Some r -> a_calls n l s = Done s.
Proof.
  intros H. unfold a_calls. induction l as [|k l IH]; cbn; [reflexivity|].
  unfold do_call at 1. rewrite H. exact IH.
Qed.

(** The session invariant. *)
Definition SI (leak : bool) (s : session cursor) : Prop :=
  let a := w_src (s_world s) in
  match s_res s with
  | None => St leak (a_inp a) (a_fin a) 1 [] (owed (s_st s) + 0) (s_world s) /\ sh true env Fail p (s_st s)
  | Some r => St leak (a_inp a) (a_fin a) 1 [] 0 (s_world s) /\ r <> PARTIAL
  end.

Lemma St_self leak inp fin L base k w :
  St leak inp fin L base k w -> St leak (a_inp (w_src w)) (a_fin (w_src w)) L base k w.
Proof. intros [H1 H2 H3 H4]. constructor; auto. Qed.

Lemma St_feed leak inp fin inp' fin' L base k w w' :
  St leak inp fin L base k w -> a_stk (w_src w') = a_stk (w_src w) -> w_cells w' = w_cells w ->
  a_inp (w_src w') = inp' -> a_fin (w_src w') = fin' -> St leak inp' fin' L base k w'.
Proof. intros [H1 H2 H3 H4] E1 E2 E3 E4. constructor; auto; [congruence|now rewrite E1]. Qed.

Section Inv.
Context (leak : bool).
Hypothesis Henv : forall id q, env id = Some q -> fits leak q.
Hypothesis Hp : fits leak p.

Lemma SI_init s : a_session0 = Done s -> SI leak s /\ s_res s = None /\
  a_inp (w_src (s_world s)) = [] /\ a_fin (w_src (s_world s)) = false.
Proof.
  unfold a_session0. intros E.
  pose proof (create_safe leak true [] false _ (St_init leak [] false)) as HC.
  change (Cursor [] false 0 []) with cursor0 in HC.
  destruct (top_create _ _ _ _) as [[st w]|]; inversion E; subst; clear E.
  destruct HC as [HS Hsh]. unfold SI. cbn.
  pose proof (st_inp _ _ _ _ _ _ _ HS) as H3. pose proof (st_fin _ _ _ _ _ _ _ HS) as H4.
  rewrite H3, H4. split; [split; assumption|auto].
Qed.

Lemma a_session0_err e : a_session0 = Err e -> okerr e.
Proof.
  unfold a_session0. intros E.
  pose proof (create_safe leak true [] false _ (St_init leak [] false)) as HC.
  change (Cursor [] false 0 []) with cursor0 in HC.
  destruct (top_create _ _ _ _) as [[st w]|]; inversion E; subst; auto.
Qed.

(** One call. *)
Lemma SI_consume n s : SI leak s -> s_res s = None ->
  match do_call (a_ops true) a_add env n t p Consume s with
  | Err e => okerr e
  | Done s' => SI leak s' /\ a_inp (w_src (s_world s')) = a_inp (w_src (s_world s))
               /\ a_fin (w_src (s_world s')) = a_fin (w_src (s_world s))
               /\ (s_res s' = None -> a_empty (w_src (s_world s')) = true /\ a_fin (w_src (s_world s)) = false)
  end.
Proof.
  unfold SI at 1. intros HSI Hr. unfold do_call. rewrite Hr in *. destruct HSI as [HS Hsh].
  pose proof (consume_safe true leak env _ _ (or_introl eq_refl) Henv n (top_ctx t) default_req (top_dst t) p
    (s_st s) 1 [] 0 (s_world s)
    (fun x w' => Post true leak env (a_inp (w_src (s_world s))) (a_fin (w_src (s_world s))) 1 [] 0 Fail p (fst x) (snd x) w')
    (okc_top leak Hp) Hsh HS) as H.
  unfold wp in H. unfold top_consume. destruct (consume _ _ _ _ _ _ _ _ _) as [[[r st'] w']|e].
  - specialize (H (fun _ _ _ h => h)). cbn [fst snd] in H.
    unfold SI. destruct r; cbn; unfold Post in H.
    + pose proof (st_inp _ _ _ _ _ _ _ H) as E1. pose proof (st_fin _ _ _ _ _ _ _ H) as E2.
      rewrite E1, E2. repeat split; auto; try discriminate; apply H.
    + pose proof (st_inp _ _ _ _ _ _ _ H) as E1. pose proof (st_fin _ _ _ _ _ _ _ H) as E2.
      rewrite E1, E2. repeat split; auto; try discriminate; apply H.
    + destruct H as (H & H' & He & Hf).
      pose proof (st_inp _ _ _ _ _ _ _ H) as E1. pose proof (st_fin _ _ _ _ _ _ _ H) as E2.
      rewrite E1, E2. repeat split; auto; try apply H.
  - apply H. auto.
Qed.

Lemma SI_feed n b f s : SI leak s -> s_res s = None ->
  match do_call (a_ops true) a_add env n t p (Feed b f) s with
  | Err e => e = EUb UbFinal /\ a_fin (w_src (s_world s)) = true
  | Done s' => SI leak s' /\ a_fin (w_src (s_world s)) = false /\ s_res s' = None /\ s_st s' = s_st s /\
               s_world s' = World (Cursor (a_inp (w_src (s_world s)) ++ b) f (a_pos (w_src (s_world s))) (a_stk (w_src (s_world s))))
                                  (w_cells (s_world s)) (w_trace (s_world s))
  end.
Proof.
  unfold SI at 1. intros HSI Hr. unfold do_call. rewrite Hr in *. destruct HSI as [HS Hsh].
  unfold a_add. destruct (a_fin (w_src (s_world s))) eqn:Ef; cbn; auto.
  split; [|repeat split; auto]. unfold SI. cbn. split; auto. eapply St_feed; eauto.
Qed.

Lemma SI_calls n l : forall s s',
  SI leak s -> a_calls n l s = Done s' ->
  SI leak s' /\
  (s_res s' = None -> s_res s = None /\ a_inp (w_src (s_world s')) = a_inp (w_src (s_world s)) ++ fed l
                      /\ a_fin (w_src (s_world s')) = a_fin (w_src (s_world s)) || ended l).
Proof.
  induction l as [|k l IH]; intros s s' HS E.
  - cbn in E. inversion E; subst. cbn. rewrite app_nil_r, orb_false_r. auto.
  - destruct (s_res s) as [r|] eqn:Er.
    + rewrite (a_calls_some _ _ _ _ Er) in E. inversion E; subst. split; auto. congruence.
    + change (k :: l) with ([k] ++ l) in E. rewrite a_calls_app, a_calls_one in E.
      destruct k as [b f|].
      * pose proof (SI_feed n b f s HS Er) as HF. destruct (do_call _ _ _ _ _ _ _ _) as [s1|]; [|discriminate].
        destruct HF as (HS1 & Hf & Hr1 & Hst & Hw). cbn in E. destruct (IH _ _ HS1 E) as [H1 H2].
        split; auto. intros Hn. specialize (H2 Hn) as (H3 & H4 & H5). rewrite Hw in H4, H5. cbn in H4, H5.
        repeat split; auto. { rewrite H4. cbn [fed]. now rewrite app_assoc. } rewrite H5, Hf. reflexivity.
      * pose proof (SI_consume n s HS Er) as HC. destruct (do_call _ _ _ _ _ _ _ _) as [s1|]; [|discriminate].
        destruct HC as (HS1 & Hi & Hf & _). cbn in E. destruct (IH _ _ HS1 E) as [H1 H2].
        split; auto. intros Hn. specialize (H2 Hn) as (H3 & H4 & H5). rewrite Hi in H4. rewrite Hf in H5.
        repeat split; auto.
Qed.

Lemma SI_session n l s :
  a_session n l = Done s ->
  SI leak s /\ (s_res s = None -> a_inp (w_src (s_world s)) = fed l /\ a_fin (w_src (s_world s)) = ended l).
Proof.
  unfold a_session. destruct a_session0 as [s0|] eqn:E0; [|discriminate]. cbn. intros E.
  destruct (SI_init _ E0) as (HS & Hr & Hi & Hf). destruct (SI_calls n l s0 s HS E) as [H1 H2].
  split; auto. intros Hn. destruct (H2 Hn) as (_ & H3 & H4). rewrite Hi in H3. rewrite Hf in H4. auto.
Qed.

(** Errors. *)
Lemma legal_cons_consume l : legal (Consume :: l) = legal l.
Proof. reflexivity. Qed.

Definition legal_from (fin : bool) (l : list call) : bool :=
  if fin then forallb (fun k => match k with Feed _ _ => false | Consume => true end) l else legal l.

Lemma SI_calls_err n l : forall s e,
  SI leak s -> legal_from (a_fin (w_src (s_world s))) l = true -> a_calls n l s = Err e -> okerr e.
Proof.
  induction l as [|k l IH]; intros s e HS Hl E; [discriminate|].
  destruct (s_res s) as [r|] eqn:Er.
  - rewrite (a_calls_some _ _ _ _ Er) in E. discriminate.
  - change (k :: l) with ([k] ++ l) in E. rewrite a_calls_app, a_calls_one in E.
    destruct k as [b f|].
    + pose proof (SI_feed n b f s HS Er) as HF. destruct (do_call _ _ _ _ _ _ _ _) as [s1|].
      * destruct HF as (HS1 & Hf & Hr1 & Hst & Hw). cbn in E. apply (IH s1); auto.
        rewrite Hw. cbn. rewrite Hf in Hl. cbn in Hl. destruct f; auto.
      * destruct HF as [-> Hf]. rewrite Hf in Hl. discriminate.
    + pose proof (SI_consume n s HS Er) as HC. destruct (do_call _ _ _ _ _ _ _ _) as [s1|].
      * destruct HC as (HS1 & Hi & Hf & _). cbn in E. apply (IH s1); auto. rewrite Hf.
        destruct (a_fin _); auto.
      * cbn in E. inversion E; subst. auto.
Qed.

Lemma session_err n l e : legal l = true -> a_session n l = Err e -> okerr e.
Proof.
  unfold a_session. destruct a_session0 as [s0|] eqn:E0; cbn; intros Hl E.
  - destruct (SI_init _ E0) as (HS & Hr & Hi & Hf). eapply SI_calls_err; eauto. now rewrite Hf.
  - inversion E; subst. now apply a_session0_err.
Qed.

End Inv.

(** ** The run so far, seen as a part of a run over everything *)

Definition may (a : cursor) (more : list Z) (f : bool) : Prop :=
  a_fin a = true -> more = [] /\ f = true.

Definition CI (s : session cursor) : Prop :=
  let w := s_world s in
  forall more f, may (w_src w) more f ->
  match s_res s with
  | None => EQ (fun m => a_run m (a_inp (w_src w) ++ more) f)
               (fun m => top_consume (a_ops true) env m t p (s_st s) (ext more f w))
  | Some r => lim (fun m => a_run m (a_inp (w_src w) ++ more) f) (Done ((r, s_st s), ext more f w))
  end.

Lemma ext_self w : a_fin (w_src w) = true -> ext [] true w = w.
Proof.
  intros H. destruct w as [[i f q k] c tr]. cbn in *. unfold ext, ext_src. cbn. now rewrite app_nil_r, H.
Qed.

Lemma Mono_top m0 : Mono (fun m => top_consume (a_ops true) env m t p m0).
Proof. apply Mono_consume. Qed.

Lemma mono_a_run inp f : mono (fun m => a_run m inp f).
Proof.
  apply (Mono_mono (fun m => top_run (a_ops true) env m t p)).
  unfold top_run. apply Mono_bind; [apply Mono_const|]. intros st. apply Mono_top.
Qed.

Lemma CI_init s : a_session0 = Done s -> CI s.
Proof.
  intros E. pose proof (SI_init true s E) as (_ & Hr & Hi & _).
  unfold CI. intros more f _. rewrite Hr, Hi. cbn [app].
  unfold a_session0 in E.
  pose proof (neu_create more f (top_ctx t) default_req (top_dst t) p (World cursor0 [v] []) eq_refl) as HN.
  unfold neu_at in HN. unfold top_create in E.
  destruct (create _ _ _ _ _ _) as [[st w]|]; inversion E; subst; clear E. destruct HN as [_ HN].
  apply EQ_pt. intros k. unfold a_run, top_run, bind, top_create. cbn in HN |- *.
  change (World (Cursor more f 0 []) [v] []) with (ext more f (World cursor0 [v] [])).
  fold (ext more f (World cursor0 [v] [])) in HN.
  change (ext more f (World cursor0 [v] [])) with (World (Cursor more f 0 []) [v] []) in *.
  rewrite HN. reflexivity.
Qed.

Lemma CI_err m e : a_session0 = Err e -> forall inp, a_run m inp true = Err e.
Proof.
  unfold a_session0. intros E inp.
  pose proof (neu_create inp true (top_ctx t) default_req (top_dst t) p (World cursor0 [v] []) eq_refl) as HN.
  unfold neu_at in HN. unfold top_create in E.
  destruct (create _ _ _ _ _ _) as [[st w]|e'] eqn:Ec; inversion E; subst; clear E.
  unfold a_run, top_run, bind, top_create.
  change (World (Cursor inp true 0 []) [v] []) with (ext inp true (World cursor0 [v] [])).
  now rewrite HN.
Qed.

Lemma CI_consume n s : CI s -> SI true s -> s_res s = None ->
  match do_call (a_ops true) a_add env n t p Consume s with
  | Done s' => CI s'
  | Err e => e = EFuel \/ forall more f, may (w_src (s_world s)) more f ->
                          lim (fun m => a_run m (a_inp (w_src (s_world s)) ++ more) f) (Err e)
  end.
Proof.
  intros HC HS Hr. pose proof (SI_consume true (fun _ q _ => fits_leak q) (fits_leak p) n s HS Hr) as HI.
  unfold CI in HC. rewrite Hr in HC.
  unfold do_call in *. rewrite Hr in *. unfold top_consume in *.
  destruct (a_fin (w_src (s_world s))) eqn:Ef.
  - (* no more data *)
    specialize (HC [] true (fun _ => conj eq_refl eq_refl)). rewrite (ext_self _ Ef) in HC.
    destruct (consume _ _ _ _ _ _ _ _ _) as [[[r st'] w']|e] eqn:E.
    + destruct r; try (destruct HI as (_ & _ & _ & HI); destruct (HI eq_refl); discriminate).
      * destruct HI as (_ & Hi & Hf & _). cbn in Hi, Hf. intros more f HM. cbn in HM |- *.
        destruct (HM Hf) as [-> ->]. rewrite (ext_self _ Hf), Hi. apply HC.
        split; [discriminate|eauto].
      * destruct HI as (_ & Hi & Hf & _). cbn in Hi, Hf. intros more f HM. cbn in HM |- *.
        destruct (HM Hf) as [-> ->]. rewrite (ext_self _ Hf), Hi. apply HC.
        split; [discriminate|eauto].
    + destruct (match e with EFuel => true | _ => false end) eqn:Ee; [left; destruct e; congruence|].
      right. intros more f HM. destruct (HM Ef) as [-> ->]. apply HC. split; [intros HH; inversion HH; subst; discriminate|eauto].
  - pose proof (fun more f => chk_all env more f n (top_ctx t) default_req (top_dst t) p (s_st s) (s_world s) Ef) as HK.
    unfold CHK in HK.
    destruct (consume _ _ _ _ _ _ _ _ (s_world s)) as [[[r st'] w']|e] eqn:E.
    + destruct r; destruct HI as (_ & Hi & Hf & _); intros more f HM; cbn in HM, Hi, Hf |- *; rewrite Hi;
      (assert (may (w_src (s_world s)) more f) as HM' by (unfold may; rewrite Ef; discriminate));
      destruct (HK more f) as [HK1 HK2].
      * apply (HC more f HM'). split; [discriminate|eauto].
      * apply (HC more f HM'). split; [discriminate|eauto].
      * eapply EQ_trans; [apply (HC more f HM')|]. exact HK2.
    + destruct (match e with EFuel => true | _ => false end) eqn:Ee; [left; destruct e; congruence|].
      right. intros more f HM. apply (HC more f HM). split; [intros HH; inversion HH; subst; discriminate|]. exists n. apply HK.
Qed.

Lemma CI_feed n b f0 s : CI s -> SI true s -> s_res s = None ->
  match do_call (a_ops true) a_add env n t p (Feed b f0) s with
  | Done s' => CI s'
  | Err _ => True
  end.
Proof.
  intros HC HS Hr. pose proof (SI_feed true n b f0 s HS Hr) as HI.
  destruct (do_call _ _ _ _ _ _ _ _) as [s'|]; auto.
  destruct HI as (_ & Hf & Hr' & Hst & Hw). unfold CI in *. rewrite Hr in HC. rewrite Hr', Hw, Hst.
  intros more f HM. cbn in HM |- *. rewrite <- app_assoc.
  specialize (HC (b ++ more) f). unfold ext, ext_src in *. cbn in *. rewrite <- app_assoc.
  apply HC. intros HH. congruence.
Qed.

Lemma CI_calls n l : forall s s', CI s -> SI true s -> a_calls n l s = Done s' -> CI s'.
Proof.
  induction l as [|k l IH]; intros s s' HC HS E; [inversion E; now subst|].
  destruct (s_res s) as [r|] eqn:Er.
  - rewrite (a_calls_some _ _ _ _ Er) in E. inversion E; now subst.
  - change (k :: l) with ([k] ++ l) in E. rewrite a_calls_app, a_calls_one in E.
    destruct k as [b f|].
    + pose proof (CI_feed n b f s HC HS Er) as H1. pose proof (SI_feed true n b f s HS Er) as H2.
      destruct (do_call _ _ _ _ _ _ _ _) as [s1|]; [|discriminate]. apply (IH s1); auto. apply H2.
    + pose proof (CI_consume n s HC HS Er) as H1.
      pose proof (SI_consume true (fun _ q _ => fits_leak q) (fits_leak p) n s HS Er) as H2.
      destruct (do_call _ _ _ _ _ _ _ _) as [s1|]; [|discriminate]. apply (IH s1); auto. apply H2.
Qed.

Lemma CI_session n l s : a_session n l = Done s -> CI s.
Proof.
  unfold a_session. destruct a_session0 as [s0|] eqn:E0; [|discriminate]. cbn. intros E.
  apply (CI_calls n l s0); auto using CI_init. now apply (SI_init true).
Qed.

(** ** Complete schedules *)

(** [rest] is what is still going to be fed. *)
Lemma may_feed l a : legal_from (a_fin a) l = true -> a_fin a || ended l = true -> may a (fed l) true.
Proof.
  intros Hl _ Hf. split; auto. rewrite Hf in Hl. cbn in Hl.
  induction l as [|[b f|] l IH]; cbn in *; auto. discriminate.
Qed.

Lemma legal_from_step k l fin : legal_from fin (k :: l) = true ->
  match k with Feed _ f => fin = false /\ legal_from f l = true | Consume => legal_from fin l = true end.
Proof.
  destruct k as [b f|], fin; cbn; try discriminate; auto.
Qed.

(** What is fed after the answer does not matter. *)
Lemma calls_rest n l : forall s s',
  SI true s -> legal_from (a_fin (w_src (s_world s))) l = true -> a_fin (w_src (s_world s)) || ended l = true ->
  s_res s = None -> a_calls n l s = Done s' ->
  exists rest, a_inp (w_src (s_world s)) ++ fed l = a_inp (w_src (s_world s')) ++ rest
               /\ may (w_src (s_world s')) rest true.
Proof.
  induction l as [|k l IH]; intros s s' HS Hl He Er E.
  - inversion E; subst. exists []. cbn in *. split; auto. intros _. auto.
  - pose proof (may_feed _ _ Hl He) as HM. apply legal_from_step in Hl.
    change (k :: l) with ([k] ++ l) in E. rewrite a_calls_app, a_calls_one in E.
    destruct k as [b f|].
    + destruct Hl as [Hf0 Hl]. pose proof (SI_feed true n b f s HS Er) as H2.
      destruct (do_call _ _ _ _ _ _ _ _) as [s1|]; [|discriminate].
      destruct H2 as (HS1 & Hf & Hr1 & Hst & Hw). cbn [obind] in E. rewrite Hf0 in He.
      specialize (IH s1 s' HS1). rewrite Hw in IH. cbn in IH. cbn [fed]. rewrite app_assoc. apply IH; auto.
    + pose proof (SI_consume true (fun _ q _ => fits_leak q) (fits_leak p) n s HS Er) as H2.
      destruct (do_call _ _ _ _ _ _ _ _) as [s1|]; [|discriminate].
      destruct H2 as (HS1 & Hi & Hf & _). cbn [obind] in E. destruct (s_res s1) as [r|] eqn:Er1.
      * rewrite (a_calls_some _ _ _ _ Er1) in E. inversion E; subst. exists (fed (Consume :: l)).
        rewrite Hi. split; auto. unfold may in *. rewrite Hf. auto.
      * specialize (IH s1 s' HS1). rewrite Hi, Hf in IH. cbn [fed]. apply IH; auto.
Qed.

(** Errors along a complete schedule are errors of the run over everything. *)
Lemma calls_err n l : forall s e,
  CI s -> SI true s -> legal_from (a_fin (w_src (s_world s))) l = true ->
  a_fin (w_src (s_world s)) || ended l = true ->
  a_calls n l s = Err e -> e <> EFuel ->
  lim (fun m => a_run m (a_inp (w_src (s_world s)) ++ fed l) true) (Err e).
Proof.
  induction l as [|k l IH]; intros s e HC HS Hl He E Hne; [discriminate|].
  destruct (s_res s) as [r|] eqn:Er.
  { rewrite (a_calls_some _ _ _ _ Er) in E. discriminate. }
  pose proof (may_feed _ _ Hl He) as HM.
  apply legal_from_step in Hl.
  change (k :: l) with ([k] ++ l) in E. rewrite a_calls_app, a_calls_one in E.
  destruct k as [b f|].
  - destruct Hl as [Hf0 Hl].
    pose proof (CI_feed n b f s HC HS Er) as H1. pose proof (SI_feed true n b f s HS Er) as H2.
    destruct (do_call _ _ _ _ _ _ _ _) as [s1|].
    + destruct H2 as (HS1 & Hf & Hr1 & Hst & Hw). cbn in E.
      specialize (IH s1 e H1 HS1). rewrite Hw in IH. cbn in IH. cbn [fed]. rewrite app_assoc. apply IH; auto.
      rewrite Hf0 in He. exact He.
    + destruct H2 as [_ H2]. congruence.
  - pose proof (CI_consume n s HC HS Er) as H1.
    pose proof (SI_consume true (fun _ q _ => fits_leak q) (fits_leak p) n s HS Er) as H2.
    destruct (do_call _ _ _ _ _ _ _ _) as [s1|].
    + destruct H2 as (HS1 & Hi & Hf & _). cbn in E. specialize (IH s1 e H1 HS1). rewrite Hi, Hf in IH.
      cbn [fed]. apply IH; auto.
    + cbn in E. inversion E; subst. destruct H1 as [->|H1]; [congruence|]. apply H1. exact HM.
Qed.

(** Fuel. *)
Lemma do_call_mono k s : mono (fun n => do_call (a_ops true) a_add env n t p k s).
Proof.
  intros n m H. unfold do_call. destruct (s_res s); auto. destruct k as [b f|]; auto.
  destruct (Mono_mono _ (s_world s) (Mono_top (s_st s)) n m H) as [E|E]; cbn in E; rewrite E; auto.
Qed.

Lemma a_calls_mono l : forall s, mono (fun n => a_calls n l s).
Proof.
  unfold a_calls. induction l as [|k l IH]; intros s n m H; cbn [do_calls]; auto.
  destruct (do_call_mono k s n m H) as [E|E]; cbn in E; rewrite E; auto.
  destruct (do_call _ _ _ m _ _ _ _) as [a|]; cbn; auto. apply (IH a n m H).
Qed.

Lemma a_session_mono l : mono (fun n => a_session n l).
Proof.
  intros n m H. unfold a_session. destruct a_session0; cbn; auto. now apply a_calls_mono.
Qed.

(** If the run over everything ends, so does every session feeding it. *)
Lemma calls_fuel l o : forall s,
  CI s -> SI true s -> s_res s = None -> legal_from (a_fin (w_src (s_world s))) l = true ->
  a_fin (w_src (s_world s)) || ended l = true ->
  lim (fun m => a_run m (a_inp (w_src (s_world s)) ++ fed l) true) o ->
  exists n, a_calls n l s <> Err EFuel.
Proof.
  induction l as [|k l IH]; intros s HC HS Er Hl He HL; [exists 0; discriminate|].
  pose proof (may_feed _ _ Hl He) as HM.
  apply legal_from_step in Hl.
  assert (HN : forall n k s1, do_call (a_ops true) a_add env n t p k s = Done s1 ->
     (exists n', a_calls n' l s1 <> Err EFuel) -> exists n', a_calls n' (k :: l) s <> Err EFuel).
  { intros n k0 s1 E1 [n' Hn']. exists (max n n'). unfold a_calls. cbn [do_calls].
    rewrite (mono_lim _ _ _ (do_call_mono k0 s) E1) by (try discriminate; lia). cbn [obind].
    change (a_calls (max n n') l s1 <> Err EFuel). intros HH. destruct (a_calls n' l s1) as [s2|e] eqn:E2.
    - rewrite (mono_lim (fun n => a_calls n l s1) n' (Done s2) (a_calls_mono l s1) E2) in HH by (try discriminate; lia). discriminate.
    - rewrite (mono_lim (fun n => a_calls n l s1) n' (Err e) (a_calls_mono l s1) E2) in HH by (try congruence; lia). congruence. }
  destruct k as [b f|].
  - destruct Hl as [Hf0 Hl].
    pose proof (CI_feed 0 b f s HC HS Er) as H1. pose proof (SI_feed true 0 b f s HS Er) as H2.
    destruct (do_call _ _ _ _ _ _ _ _) as [s1|] eqn:E.
    + destruct H2 as (HS1 & Hf & Hr1 & Hst & Hw). apply (HN 0 _ s1 E).
      specialize (IH s1 H1 HS1 Hr1). rewrite Hw in IH. cbn in IH. cbn [fed] in HL. rewrite app_assoc in HL.
      apply IH; auto. rewrite Hf0 in He. exact He.
    + destruct H2 as [_ H2]. congruence.
  - assert (exists n, do_call (a_ops true) a_add env n t p Consume s <> Err EFuel) as [n Hn].
    { unfold CI in HC. rewrite Er in HC. apply (HC _ _ HM) in HL. destruct HL as [Ho [n Hn]]. exists n.
      unfold do_call. rewrite Er. unfold top_consume in *.
      destruct (a_fin (w_src (s_world s))) eqn:Ef.
      - destruct (HM Ef) as [HM1 _]. cbn [fed] in *. rewrite HM1, (ext_self _ Ef) in Hn. rewrite Hn.
        destruct o as [[[[] ?] ?]|]; congruence.
      - pose proof (chk_all env (fed (Consume :: l)) true n (top_ctx t) default_req (top_dst t) p (s_st s) (s_world s) Ef) as HK.
        unfold CHK in HK.
        destruct (consume _ _ _ _ _ _ _ _ (s_world s)) as [[[r st'] w']|e] eqn:E.
        + destruct r; discriminate.
        + intros HH. inversion HH; subst e. congruence. }
    pose proof (CI_consume n s HC HS Er) as H1.
    pose proof (SI_consume true (fun _ q _ => fits_leak q) (fits_leak p) n s HS Er) as H2.
    destruct (do_call _ _ _ _ _ _ _ _) as [s1|e] eqn:E.
    + apply (HN n _ s1 E). destruct H2 as (HS1 & Hi & Hf & _).
      destruct (s_res s1) eqn:Er1.
      * exists 0. rewrite (a_calls_some _ _ _ _ Er1). discriminate.
      * apply (IH s1 H1 HS1 Er1); rewrite ?Hi, ?Hf; auto.
    + exists n. unfold a_calls. cbn [do_calls]. rewrite E. exact Hn.
Qed.

(** A complete schedule gets an answer. *)
Lemma complete_answers n l s : complete l -> a_session n l = Done s -> exists r, s_res s = Some r.
Proof.
  intros (l' & -> & Hl & He) E. rewrite a_session_app in E.
  destruct (a_session n l') as [s1|] eqn:E1; [|discriminate]. cbn [obind] in E.
  destruct (SI_session true (fun _ q _ => fits_leak q) (fits_leak p) n l' s1 E1) as [HS HN].
  destruct (s_res s1) as [r|] eqn:Er.
  - rewrite (a_calls_some _ _ _ _ Er) in E. inversion E; subst. eauto.
  - rewrite a_calls_one in E.
    pose proof (SI_consume true (fun _ q _ => fits_leak q) (fits_leak p) n s1 HS Er) as H.
    rewrite E in H. destruct H as (_ & _ & _ & H). destruct (s_res s) as [r|]; eauto.
    destruct (H eq_refl) as [_ H1]. destruct (HN eq_refl) as [_ H2]. congruence.
Qed.

End Session.
