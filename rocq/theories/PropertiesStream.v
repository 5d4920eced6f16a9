(** C48: a parser that reads a stream of items keeps no data but that of the item under way. *)
From Coq Require Import String List ZArith Bool Arith Lia.
From Verif Require Import Base CharSet Source Dst Pattern Parser Session.
From Verif Require Import SpecSource SpecSession SpecRun SpecValue SpecCollect SpecPeg SpecStream Safety Big PegSound StreamThms StreamList StreamSeq Demo PropertiesCollect.
Import ListNotations.
Local Open Scope string_scope.
Local Open Scope list_scope.

(** No Optional in any definition of a recursive pattern. *)
Definition all_optfree (env : nat -> option pat) : Prop := forall id q, env id = Some q -> optfree q = true.

(** A session of repeat<lo, hi>(q) that waits for more: what was fed is [A ++ B], where

    - [A] is [c] items, whatever is fed next: they took the object from [v] to [v1] and made
      the calls [k];
    - [B] is an item under way: a parser for one item, fed [B] alone, waits for more as well,
      with the same object and the same calls since;
    - the buffers held are those the parser for one item needs: none that lies in [A]. *)
Theorem C48_stream_keeps_the_item_under_way_partial :
  forall env, all_nested env -> all_optfree env ->
  forall n t v lo hi q l s, nested (Repeat lo hi q) -> optfree q = true ->
  run_session env n t v (Repeat lo hi q) (l ++ [Consume]) = Done s -> s_res s = None ->
  exists c A B v1 k o, fed l = A ++ B
  /\ (forall more, matches (parses env (once q) t SUCCESS) v (A ++ B ++ more) c (B ++ more) v1 k)
  /\ (exists m s1, run_session env m t v1 (item_of lo hi q) [Feed B false; Consume] = Done s1 /\ s_res s1 = None
       /\ w_cells (s_world s) = w_cells (s_world s1) /\ w_trace (s_world s) = w_trace (s_world s1) ++ rev k
       /\ map snd (cs_bufs (w_src (s_world s1))) = reaching o (buffers [Feed B false]))
  /\ map snd (cs_bufs (w_src (s_world s))) = reaching (length A + o) (buffers l).
Proof.
  intros env Hn Ho n t v lo hi q l s Hq Hf E Hr.
  destruct (stream_plain env t v lo hi q n l s Ho Hf E Hr) as (c & A & B & v1 & k & o & H1 & H2 & H3 & H4).
  exists c, A, B, v1, k, o. repeat (split; auto).
Qed.
Print Assumptions C48_stream_keeps_the_item_under_way_partial.

(** *(uint_ >> ';') is fed "1;2;", "3" and "4": two items are complete, and their buffer is
    gone; the two buffers of the third are held, because it may still fail. *)
Definition C48_q : pat := Seq [uint_; lc ";"].
Example C48_example :
  nested (star C48_q) /\ optfree C48_q = true /\
  exists s, run_session noenv 99 (TColl int32) (ints []) (star C48_q)
              ([Feed (txt "1;2;") false; Consume; Feed (txt "3") false; Consume; Feed (txt "4") false] ++ [Consume]) = Done s
  /\ s_res s = None /\ w_cells (s_world s) = [ints [1; 2]%Z]
  /\ map snd (cs_bufs (w_src (s_world s))) = [txt "3"; txt "4"].
Proof. cases; try simple. eexists. cases; simple. Qed.

(** With an Optional in the item it is false: the mark of the Optional stays, and all buffers
    with it, although the items are complete. *)
Definition C48_opt : pat := Seq [Opt (ch "-"); lc ";"].
Theorem C48_optional_refuted :
  exists l s, run_session noenv 99 str (chars "") (star C48_opt) (l ++ [Consume]) = Done s /\ s_res s = None
  /\ (forall more, matches (parses noenv (once C48_opt) str SUCCESS) (chars "") (fed l ++ more) 3 more (chars "---") [])
  /\ map snd (cs_bufs (w_src (s_world s))) = buffers l.
Proof.
  exists [Feed (txt "-;") false; Consume; Feed (txt "-;") false; Consume; Feed (txt "-;") false].
  eexists. cases; try calc.
  intros more. change (@nil event) with (@nil event ++ @nil event ++ @nil event ++ @nil event).
  apply mat_one with (s1 := txt "-;-;" ++ more) (v1 := chars "-"); [exists 99; eexists; cases; calc|].
  apply mat_one with (s1 := txt "-;" ++ more) (v1 := chars "--"); [exists 99; eexists; cases; calc|].
  apply mat_one with (s1 := more) (v1 := chars "---"); [exists 99; eexists; cases; calc|].
  apply mat_none.
Qed.
Print Assumptions C48_optional_refuted.

(** A session of q % sep that waits for more: what was fed is [A ++ B], where

    - [A] is [c] elements with separators between them, whatever is fed next: they took the
      object from [v] to [v1] and made the calls [k];
    - [B] is the first element under way, or a separator under way, or a separator and an
      element under way: the parser for it, fed its part alone, waits for more as well, with
      the same object and the same calls since;
    - the buffers held are those behind the last element: none that lies in [A]. *)
Theorem C48_list_keeps_what_is_behind_the_last_element_partial :
  forall env, all_optfree env ->
  forall n t v q sep l s, optfree q = true -> optfree sep = true ->
  run_session env n t v (PList q sep) (l ++ [Consume]) = Done s -> s_res s = None ->
  exists c A B v1 k, fed l = A ++ B
  /\ (forall more, elements env (once q) (Discard sep) t v (A ++ B ++ more) c (B ++ more) v1 k)
  /\ ((c = 0 /\ under_way env (once q) t v1 B k s)
      \/ (0 < c /\ under_way env (Discard sep) t v1 B k s)
      \/ (0 < c /\ exists B1 B2 v2 k2, B = B1 ++ B2
          /\ (forall more, parses env (Discard sep) t SUCCESS (B1 ++ B2 ++ more) v1 (B2 ++ more) v2 k2)
          /\ under_way env (once q) t v2 B2 (k ++ k2) s))
  /\ map snd (cs_bufs (w_src (s_world s))) = reaching (length A) (buffers l).
Proof. intros env Ho n t v q sep l s Hq Hs E Hr. exact (list_plain env t v q sep n l s Ho Hq Hs E Hr). Qed.
Print Assumptions C48_list_keeps_what_is_behind_the_last_element_partial.

(** (uint_ >> ';') % ',' is fed "1;,", "2;", "," and "3": two elements are complete; the
    buffers of the separator and of the element behind them are held, because what comes
    next may turn out to be no element, and the list then ends in front of the separator. *)
Example C48_list_example :
  optfree C48_q = true /\ optfree (lc ",") = true /\
  exists s, run_session noenv 99 (TColl int32) (ints []) (PList C48_q (lc ","))
              ([Feed (txt "1;,") false; Consume; Feed (txt "2;") false; Consume; Feed (txt ",") false; Consume; Feed (txt "3") false] ++ [Consume]) = Done s
  /\ s_res s = None /\ w_cells (s_world s) = [ints [1; 2]%Z]
  /\ map snd (cs_bufs (w_src (s_world s))) = [txt ","; txt "3"].
Proof. cases; try simple. eexists. cases; simple. Qed.

(** The same with a skipper that reads one character around the repetition: what it skips in
    front of an item counts as part of the item. *)
Theorem C48_skipping_stream_keeps_the_item_under_way_partial :
  forall env, all_nested env -> all_optfree env ->
  forall T skp, skipper1 T skp = true ->
  forall n t v lo hi q l s, nested (WithSkipper (Repeat lo hi q) skp) -> optfree q = true ->
  run_session env n t v (WithSkipper (Repeat lo hi q) skp) (l ++ [Consume]) = Done s -> s_res s = None ->
  exists c A B v1 k o, fed l = A ++ B
  /\ (forall more, matches (parses env (WithSkipper (once q) skp) t SUCCESS) v (A ++ B ++ more) c (B ++ more) v1 k)
  /\ (exists m s1, run_session env m t v1 (WithSkipper (item_of lo hi q) skp) [Feed B false; Consume] = Done s1 /\ s_res s1 = None
       /\ w_cells (s_world s) = w_cells (s_world s1) /\ w_trace (s_world s) = w_trace (s_world s1) ++ rev k
       /\ map snd (cs_bufs (w_src (s_world s1))) = reaching o (buffers [Feed B false]))
  /\ map snd (cs_bufs (w_src (s_world s))) = reaching (length A + o) (buffers l).
Proof.
  intros env Hn Ho T skp Hs n t v lo hi q l s Hq Hf E Hr.
  destruct (stream_under env T skp t v lo hi q n l s Ho Hs Hf E Hr) as (c & A & B & v1 & k & o & H1 & H2 & H3 & H4).
  exists c, A, B, v1, k, o. repeat (split; auto).
Qed.
Print Assumptions C48_skipping_stream_keeps_the_item_under_way_partial.

(** apply_skipper( *(uint_ >> ';'), lit(' ') | lit('.')) is fed " 1 ; 2;", " ." and "3": two
    items are complete and their buffer is gone; the blanks in front of the third are held. *)
Definition C48_blank : pat := Alt [lc " "; lc "."].
Example C48_skipping_example :
  skipper1 ct_char C48_blank = true /\ nested (WithSkipper (star C48_q) C48_blank) /\ optfree C48_q = true /\
  exists s, run_session noenv 99 (TColl int32) (ints []) (WithSkipper (star C48_q) C48_blank)
              ([Feed (txt " 1 ; 2;") false; Consume; Feed (txt " .") false; Consume; Feed (txt "3") false] ++ [Consume]) = Done s
  /\ s_res s = None /\ w_cells (s_world s) = [ints [1; 2]%Z]
  /\ map snd (cs_bufs (w_src (s_world s))) = [txt " ."; txt "3"].
Proof. cases; try simple. eexists. cases; simple. Qed.

(** The same for lists. *)
Theorem C48_skipping_list_keeps_what_is_behind_the_last_element_partial :
  forall env, all_optfree env ->
  forall T skp, skipper1 T skp = true ->
  forall n t v q sep l s, optfree q = true -> optfree sep = true ->
  run_session env n t v (WithSkipper (PList q sep) skp) (l ++ [Consume]) = Done s -> s_res s = None ->
  exists c A B v1 k, fed l = A ++ B
  /\ (forall more, elements env (WithSkipper (once q) skp) (WithSkipper (Discard sep) skp) t v (A ++ B ++ more) c (B ++ more) v1 k)
  /\ ((c = 0 /\ under_way env (WithSkipper (once q) skp) t v1 B k s)
      \/ (0 < c /\ under_way env (WithSkipper (Discard sep) skp) t v1 B k s)
      \/ (0 < c /\ exists B1 B2 v2 k2, B = B1 ++ B2
          /\ (forall more, parses env (WithSkipper (Discard sep) skp) t SUCCESS (B1 ++ B2 ++ more) v1 (B2 ++ more) v2 k2)
          /\ under_way env (WithSkipper (once q) skp) t v2 B2 (k ++ k2) s))
  /\ map snd (cs_bufs (w_src (s_world s))) = reaching (length A) (buffers l).
Proof. intros env Ho T skp Hk n t v q sep l s Hq Hs E Hr. exact (list_under env T skp t v q sep n l s Ho Hk Hq Hs E Hr). Qed.
Print Assumptions C48_skipping_list_keeps_what_is_behind_the_last_element_partial.

(** apply_skipper((uint_ >> ';') % ',', lit(' ') | lit('.')) is fed "1; ,", " 2 ;", " , " and
    "3": the buffers of the separator and of what follows it are held, with their blanks. *)
Example C48_skipping_list_example :
  skipper1 ct_char C48_blank = true /\ optfree C48_q = true /\ optfree (lc ",") = true /\
  exists s, run_session noenv 99 (TColl int32) (ints []) (WithSkipper (PList C48_q (lc ",")) C48_blank)
              ([Feed (txt "1; ,") false; Consume; Feed (txt " 2 ;") false; Consume; Feed (txt " , ") false; Consume; Feed (txt "3") false] ++ [Consume]) = Done s
  /\ s_res s = None /\ w_cells (s_world s) = [ints [1; 2]%Z]
  /\ map snd (cs_bufs (w_src (s_world s))) = [txt " , "; txt "3"].
Proof. cases; try simple. eexists. cases; simple. Qed.

(** A session of p0 >> p1 >> ... that waits for more, the object not being a tuple: what was
    fed is [A ++ B], where

    - [A] is the parts in front of the [j]-th, whatever is fed next;
    - [B] is the [j]-th part under way: a parser for it, fed [B] alone, waits for more as well,
      with the same object and the same calls since;
    - the buffers held are those this parser needs: none that lies in [A];
    - if that part is repeat<lo, hi>(q), then [B] is [c] items and an item under way, and the
      buffers held are those of the item: a stream behind a header is kept no longer than a
      stream on its own. *)
Theorem C48_sequence_keeps_the_part_under_way_partial :
  forall env, all_nested env -> all_optfree env ->
  forall n t v ps l s, nested (Seq ps) -> (forall ts, t <> TTuple ts) -> forallb optfree ps = true ->
  run_session env n t v (Seq ps) (l ++ [Consume]) = Done s -> s_res s = None ->
  exists j p A B v1 k o, nth_error ps j = Some p /\ fed l = A ++ B
  /\ (forall more, through env (fun p => p) t (firstn j ps) v (A ++ B ++ more) (B ++ more) v1 k)
  /\ waits_alone env (part t p) t v1 B k o s
  /\ map snd (cs_bufs (w_src (s_world s))) = reaching (length A + o) (buffers l)
  /\ (forall lo hi q, part t p = Repeat lo hi q ->
      exists c A' B' v2 k' o', B = A' ++ B'
      /\ (forall more, matches (parses env (once q) t SUCCESS) v1 (A' ++ B' ++ more) c (B' ++ more) v2 k')
      /\ waits_alone env (item_of lo hi q) t v2 B' (k ++ k') o' s
      /\ map snd (cs_bufs (w_src (s_world s))) = reaching (length A + length A' + o') (buffers l)).
Proof.
  intros env Hn Ho n t v ps l s Hq Ht Hf E Hr.
  destruct (sequence_plain env t v n ps l s Ho Ht Hf E Hr) as (j & p & A & B & v1 & k & o & H1 & H2 & H3 & H4 & H5 & H6).
  exists j, p, A, B, v1, k, o. repeat (split; [assumption|]). intros lo hi q Hp.
  destruct (H6 lo hi q Hp) as (c & A' & B' & v2 & k' & o' & K1 & K2 & K3 & K4).
  exists c, A', B', v2, k', o'. repeat (split; [assumption|]). split; [|auto]. apply K2; [exact Hn|].
  eapply part_nested; [| |exact Hp]; eauto.
Qed.
Print Assumptions C48_sequence_keeps_the_part_under_way_partial.

(** "ITEMS:" >> *(uint_ >> ';') is fed "ITE", "MS:1;", "2;" and "3": the header and two items
    are complete and their buffers are gone; the buffer of the third item is held. *)
Definition C48_file : list pat := [Lit (txt "ITEMS:"); star C48_q].
Example C48_sequence_example :
  nested (Seq C48_file) /\ forallb optfree C48_file = true /\ part (TColl int32) (star C48_q) = star C48_q /\
  exists s, run_session noenv 99 (TColl int32) (ints []) (Seq C48_file)
              ([Feed (txt "ITE") false; Consume; Feed (txt "MS:1;") false; Consume; Feed (txt "2;") false; Consume; Feed (txt "3") false] ++ [Consume]) = Done s
  /\ s_res s = None /\ w_cells (s_world s) = [ints [1; 2]%Z]
  /\ map snd (cs_bufs (w_src (s_world s))) = [txt "3"].
Proof. cases; try simple. eexists. cases; simple. Qed.

(** The same with a skipper that reads one character around the sequence. *)
Theorem C48_skipping_sequence_keeps_the_part_under_way_partial :
  forall env, all_nested env -> all_optfree env ->
  forall T skp, skipper1 T skp = true ->
  forall n t v ps l s, nested (WithSkipper (Seq ps) skp) -> (forall ts, t <> TTuple ts) -> forallb optfree ps = true ->
  run_session env n t v (WithSkipper (Seq ps) skp) (l ++ [Consume]) = Done s -> s_res s = None ->
  exists j p A B v1 k o, nth_error ps j = Some p /\ fed l = A ++ B
  /\ (forall more, through env (fun p => WithSkipper p skp) t (firstn j ps) v (A ++ B ++ more) (B ++ more) v1 k)
  /\ waits_alone env (WithSkipper (part t p) skp) t v1 B k o s
  /\ map snd (cs_bufs (w_src (s_world s))) = reaching (length A + o) (buffers l)
  /\ (forall lo hi q, part t p = Repeat lo hi q ->
      exists c A' B' v2 k' o', B = A' ++ B'
      /\ (forall more, matches (parses env (WithSkipper (once q) skp) t SUCCESS) v1 (A' ++ B' ++ more) c (B' ++ more) v2 k')
      /\ waits_alone env (WithSkipper (item_of lo hi q) skp) t v2 B' (k ++ k') o' s
      /\ map snd (cs_bufs (w_src (s_world s))) = reaching (length A + length A' + o') (buffers l)).
Proof.
  intros env Hn Ho T skp Hs n t v ps l s Hq Ht Hf E Hr.
  destruct (sequence_under env T skp t v n ps l s Ho Hs Ht Hf E Hr) as (j & p & A & B & v1 & k & o & H1 & H2 & H3 & H4 & H5 & H6).
  exists j, p, A, B, v1, k, o. repeat (split; [assumption|]). intros lo hi q Hp.
  destruct (H6 lo hi q Hp) as (c & A' & B' & v2 & k' & o' & K1 & K2 & K3 & K4).
  exists c, A', B', v2, k', o'. repeat (split; [assumption|]). split; [|auto]. apply K2; [exact Hn|].
  unfold nested in Hq. cbn [mok] in Hq. apply andb_prop in Hq as [Hq1 Hq2]. unfold under. cbn [mok]. rewrite Hq1.
  change (mok false default_req (Repeat lo hi q) = true).
  eapply part_nested; [| |exact Hp]; eauto.
Qed.
Print Assumptions C48_skipping_sequence_keeps_the_part_under_way_partial.

Example C48_skipping_sequence_example :
  skipper1 ct_char C48_blank = true /\ nested (WithSkipper (Seq C48_file) C48_blank) /\ forallb optfree C48_file = true /\
  exists s, run_session noenv 99 (TColl int32) (ints []) (WithSkipper (Seq C48_file) C48_blank)
              ([Feed (txt " ITE") false; Consume; Feed (txt "MS: 1 ;") false; Consume; Feed (txt " .") false; Consume; Feed (txt "3") false] ++ [Consume]) = Done s
  /\ s_res s = None /\ w_cells (s_world s) = [ints [1]%Z]
  /\ map snd (cs_bufs (w_src (s_world s))) = [txt " ."; txt "3"].
Proof. cases; try simple. eexists. cases; simple. Qed.
