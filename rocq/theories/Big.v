(** What the machine does on a complete input, without objects and marks: a big-step
    relation.  It covers the patterns whose marks are properly nested ([mok]) and skippers
    that take no mark when they are made ([sfree]).  BigSound.v and BigComplete.v prove that it is what the
    machine does; the properties of the combinators are then read off the relation. *)
From Coq Require Import List ZArith Bool Arith Lia.
From Verif Require Import Base CharSet Source Dst Pattern Parser.
Import ListNotations.

(** Input that is left, memory cells, calls made. *)
Record sw := SW { q_s : list Z; q_c : list val; q_t : list event }.

Definition at_ (x : list Z) (w : sw) : sw := SW x (q_c w) (q_t w).
Definition with_c (c : list val) (w : sw) : sw := SW (q_s w) c (q_t w).

(** Patterns that read a stretch of text on their own, without objects: blanks, comments.
    [rq]: the requirements they are made with. *)
Fixpoint moves (p : pat) : bool :=
  match p with
  | Char _ | Fail => true
  | Lit l => match l with [] => false | _ => true end
  | Seq l => existsb moves l
  | Alt l => forallb moves l
  | Repeat lo _ q => negb (lo =? 0) && moves q
  | Except q _ | Discard q | Lexeme q => moves q
  | _ => false
  end.

Fixpoint sblk (rq : req) (p : pat) : bool :=
  match p with
  | Char _ | CharSymbol _ | Eoi | Fail | Lit _ => true
  | Seq l => match l with [] => false | _ => negb (r_atomic rq) && forallb (sblk seq_req) l end
  | Alt l => match l with [] => false | _ => forallb (sblk (alt_req rq)) l end
  | Repeat lo hi q => negb (r_atomic rq) && negb (r_consumes rq && (lo =? 0)) && (hi =? 0) && moves q && sblk (repeat_req lo hi rq) q
  | Except q neg => sblk neg_req neg && sblk (except_req rq) q
  | Discard q | Lexeme q => sblk rq q
  | _ => false
  end.

(** Skippers that take no mark when they are made; what one of them does. *)
Fixpoint sfree (p : pat) : bool :=
  match p with
  | Char _ | CharSymbol _ | Eoi | Fail => true
  | Alt l => match l with [] => false | q :: l' => sfree q && forallb (sblk skip_req) l' end
  | Discard q | Lexeme q => sfree q
  | _ => false
  end.

Fixpoint skip1 (p : pat) (s : list Z) : option (list Z) :=
  match p with
  | Char cs => match s with x :: t => if is_valid cs x then Some t else None | [] => None end
  | CharSymbol m => match s with x :: _ => match assoc x m with Some _ => Some s | None => None end | [] => None end
  | Eoi => match s with [] => Some [] | _ => None end
  | Lit l => (fix go (l s : list Z) := match l, s with
                                       | [], _ => Some s
                                       | x :: l', y :: t => if Z.eqb y x then go l' t else None
                                       | _ :: _, [] => None
                                       end) l s
  | Seq l => (fix go (l : list pat) s := match l with
                                         | [] => Some s
                                         | q :: t => match skip1 q s with Some r => go t r | None => None end
                                         end) l s
  | Alt l => (fix go (l : list pat) := match l with
                                       | [] => None
                                       | q :: t => match skip1 q s with Some r => Some r | None => go t end
                                       end) l
  | Repeat lo _ q => (fix go (f n : nat) s := match f with
                                              | 0 => None
                                              | S f' => match skip1 q s with
                                                        | Some r => go f' (S n) r
                                                        | None => if lo <=? n then Some s else None
                                                        end
                                              end) (S (length s)) 0 s
  | Except q neg => match skip1 neg s with Some _ => None | None => skip1 q s end
  | Discard q | Lexeme q => skip1 q s
  | _ => None
  end.

(** The contexts considered. *)
Definition cok (c : ctx) : bool := is_fail (c_skip c) || sfree (c_skip c).

(** Leaves. *)
Fixpoint lit_run (l s : list Z) : bool * list Z :=
  match l, s with
  | [], _ => (true, s)
  | x :: l', y :: t => if Z.eqb y x then lit_run l' t else (false, s)
  | _ :: _, [] => (false, [])
  end.

Fixpoint uint_run (b lo hi : Z) (d : dst) (cnt : Z) (cs : list val) (s : list Z)
  : outcome (bool * list Z * list val) :=
  match s with
  | [] => Done ((lo <=? cnt)%Z, [], cs)
  | x :: t =>
    if digit_valid b x then
      obind (num_op (fun z => z * b)%Z cs d) (fun c1 =>
      obind (num_op (fun z => z + digit_value b x)%Z c1 d) (fun c2 =>
      if (cnt + 1 =? hi)%Z then Done (true, t, c2) else uint_run b lo hi d (cnt + 1) c2 t))
    else Done ((lo <=? cnt)%Z, s, cs)
  end.

Definition neg_cells (d : dst) (neg : bool) (cs : list val) : outcome (list val) :=
  if neg then num_op (fun z => z * -1)%Z cs d else Done cs.

Definition int_run (b lo hi : Z) (d : dst) (cs : list val) (s : list Z)
  : outcome (bool * list Z * list val) :=
  let '(neg, s1) := match s with
                    | x :: t => if (x =? 45)%Z then (true, t) else if (x =? 43)%Z then (false, t) else (false, s)
                    | [] => (false, [])
                    end in
  obind (uint_run b lo hi d 0 cs s1) (fun '(r, s2, c2) =>
  obind (neg_cells d neg c2) (fun c3 => Done (r, s2, c3))).

(** [m]: behind the last complete key. *)
Definition sym_end (d : dst) (valid : option trie) (m : list Z) (cs : list val) (s : list Z)
  : outcome (bool * list Z * list val) :=
  match valid with
  | None => Done (false, s, cs)
  | Some n => obind (sym_value n) (fun v => obind (assign cs d v) (fun c => Done (true, m, c)))
  end.
Fixpoint sym_run (d : dst) (nx : trie) (valid : option trie) (m : list Z) (cs : list val) (s : list Z)
  : outcome (bool * list Z * list val) :=
  match s with
  | [] => sym_end d valid m cs []
  | x :: t =>
    match assoc x (trie_child nx) with
    | None => sym_end d valid m cs s
    | Some n' =>
      match trie_val n' with
      | None => sym_run d n' valid m cs t
      | Some v =>
        match trie_child n' with
        | [] => obind (assign cs d v) (fun c => Done (true, t, c))
        | _ :: _ => sym_run d n' (Some n') t cs t
        end
      end
    end
  end.

(** act_dispatch on cells and trace. *)
Definition act_run (a : action) (v : val) (d : dst) (c : ctx) (w : sw) : outcome sw :=
  match act_dispatch a v d c (World tt (q_c w) (q_t w)) with
  | Done (_, w') => Done (SW (q_s w) (w_cells w') (w_trace w'))
  | Err e => Err e
  end.

(** Which part of the life of an object: as adapted, behind the skipping, ... *)
Inductive stage : Type :=
| GRun | GSkip | GCln | GAtm | GRaw
| GSeq (i : nat) | GAlt (i : nat) | GRep (n : nat) | GElem (m : list Z) | GSep (m : list Z).

Definition wants_clean (rq : req) (p : pat) : bool := r_clean rq && negb (f_clean p).
Definition wants_atomic (rq : req) (p : pat) : bool := r_atomic rq && negb (f_atomic p).

Section Big.
Context (env : nat -> option pat).

(** [ev g c rq d p x w r w']: what [p], created at [x] and run from [w], comes to. *)
Inductive ev : stage -> ctx -> req -> dst -> pat -> list Z -> sw -> bool -> sw -> Prop :=
| ev_recur c rq d p x w r w' :
    r_recur rq = true -> ev GRaw c rq d p x w r w' -> ev GRun c rq d p x w r w'
| ev_noskip c rq d p x w r w' :
    r_recur rq = false -> is_fail (c_skip c) = true ->
    ev GCln c rq d p x w r w' -> ev GRun c rq d p x w r w'
| ev_skip c rq d p x w r w' :
    r_recur rq = false -> is_fail (c_skip c) = false ->
    ev GSkip c rq d p x w r w' -> ev GRun c rq d p x w r w'
| ev_skip_more c rq d p x w s r w' :
    skip1 (c_skip c) (q_s w) = Some s ->
    ev GSkip c rq d p x (at_ s w) r w' -> ev GSkip c rq d p x w r w'
| ev_skip_end c rq d p x w r w' :
    skip1 (c_skip c) (q_s w) = None ->
    ev GCln c rq d p x w r w' -> ev GSkip c rq d p x w r w'
| ev_cln_no c rq d p x w r w' :
    wants_clean rq p = false ->
    ev GAtm c rq d p x w r w' -> ev GCln c rq d p x w r w'
| ev_cln_ok c rq d p x w w' :
    wants_clean rq p = true ->
    ev GAtm c (unclean_req rq) d p x w true w' -> ev GCln c rq d p x w true w'
| ev_cln_ko c rq d p x w w' :
    wants_clean rq p = true ->
    ev GAtm c (unclean_req rq) d p x w false w' -> ev GCln c rq d p x w false (at_ x w')
| ev_atm_no c rq d p x w r w' :
    wants_atomic rq p = false ->
    ev GRaw c rq d p x w r w' -> ev GAtm c rq d p x w r w'
| ev_atm_ok c rq d p x w s cs v tr cs' :
    wants_atomic rq p = true ->
    ev GRaw c (unatomic_req rq) (dst_cell (length (q_c w)) (dst_value_ty d)) p x
       (with_c (q_c w ++ [default_init (dst_value_ty d)]) w) true (SW s (cs ++ [v]) tr) ->
    length cs = length (q_c w) -> assign cs d v = Done cs' ->
    ev GAtm c rq d p x w true (SW s cs' tr)
| ev_atm_ko c rq d p x w s cs v tr :
    wants_atomic rq p = true ->
    ev GRaw c (unatomic_req rq) (dst_cell (length (q_c w)) (dst_value_ty d)) p x
       (with_c (q_c w ++ [default_init (dst_value_ty d)]) w) false (SW s (cs ++ [v]) tr) ->
    length cs = length (q_c w) ->
    ev GAtm c rq d p x w false (SW s cs tr)

| ev_char_ok c rq d cs x y t ce tr ce' :
    is_valid cs y = true -> assign ce d (VNum y) = Done ce' ->
    ev GRaw c rq d (Char cs) x (SW (y :: t) ce tr) true (SW t ce' tr)
| ev_char_ko c rq d cs x w :
    match q_s w with y :: _ => is_valid cs y = false | [] => True end ->
    ev GRaw c rq d (Char cs) x w false w
| ev_csym_ok c rq d m x y t ce tr v ce' :
    assoc y m = Some v -> assign ce d v = Done ce' ->
    ev GRaw c rq d (CharSymbol m) x (SW (y :: t) ce tr) true (SW (y :: t) ce' tr)
| ev_csym_ko c rq d m x w :
    match q_s w with y :: _ => assoc y m = None | [] => True end ->
    ev GRaw c rq d (CharSymbol m) x w false w
| ev_eoi c rq d x w :
    ev GRaw c rq d Eoi x w (match q_s w with [] => true | _ => false end) w
| ev_pass c rq d x w : r_consumes rq = false -> ev GRaw c rq d Pass x w true w
| ev_fail c rq d x w : ev GRaw c rq d Fail x w false w
| ev_lit c rq d l x w r s :
    lit_run l (q_s w) = (r, s) -> ev GRaw c rq d (Lit l) x w r (at_ s w)
| ev_sym c rq d m x w r s cs :
    sym_run d (trie_build m) None [] (q_c w) (q_s w) = Done (r, s, cs) ->
    ev GRaw c rq d (Symbol m) x w r (SW s cs (q_t w))
| ev_uint c rq d b lo hi x w c0 r s cs :
    num_zero (q_c w) d = Done c0 -> uint_run b lo hi d 0 c0 (q_s w) = Done (r, s, cs) ->
    ev GRaw c rq d (UInt b lo hi) x w r (SW s cs (q_t w))
| ev_int c rq d b lo hi x w c0 r s cs :
    num_zero (q_c w) d = Done c0 -> int_run b lo hi d c0 (q_s w) = Done (r, s, cs) ->
    ev GRaw c rq d (Int b lo hi) x w r (SW s cs (q_t w))

| ev_seq c rq d l x w r w' :
    ev (GSeq 0) c rq d (Seq l) x w r w' -> ev GRaw c rq d (Seq l) x w r w'
| ev_seq_ko c rq d l i q di x w w' :
    nth_error l i = Some q -> seq_dst l i d = Done di ->
    ev GRun c seq_req di q x w false w' -> ev (GSeq i) c rq d (Seq l) x w false w'
| ev_seq_end c rq d l i q di x w w' :
    nth_error l i = Some q -> nth_error l (S i) = None -> seq_dst l i d = Done di ->
    ev GRun c seq_req di q x w true w' -> ev (GSeq i) c rq d (Seq l) x w true w'
| ev_seq_next c rq d l i q q' di x w w1 r w' :
    nth_error l i = Some q -> nth_error l (S i) = Some q' -> seq_dst l i d = Done di ->
    ev GRun c seq_req di q x w true w1 ->
    ev (GSeq (S i)) c rq d (Seq l) (q_s w1) w1 r w' -> ev (GSeq i) c rq d (Seq l) x w r w'

| ev_alt c rq d l x w r w' :
    ev (GAlt 0) c rq d (Alt l) x w r w' -> ev GRaw c rq d (Alt l) x w r w'
| ev_alt_ok c rq d l i q x w w' :
    nth_error l i = Some q ->
    ev GRun c (alt_req rq) d q x w true w' -> ev (GAlt i) c rq d (Alt l) x w true w'
| ev_alt_ko c rq d l i q x w w' :
    nth_error l i = Some q -> nth_error l (S i) = None ->
    ev GRun c (alt_req rq) d q x w false w' -> ev (GAlt i) c rq d (Alt l) x w false w'
| ev_alt_next c rq d l i q q' x w w1 r w' :
    nth_error l i = Some q -> nth_error l (S i) = Some q' ->
    ev GRun c (alt_req rq) d q x w false w1 ->
    ev (GAlt (S i)) c rq d (Alt l) (q_s w1) w1 r w' -> ev (GAlt i) c rq d (Alt l) x w r w'

| ev_rep c rq d lo hi q x w r w' :
    r_consumes rq && (lo =? 0) = false ->
    ev (GRep 0) c rq d (Repeat lo hi q) x w r w' -> ev GRaw c rq d (Repeat lo hi q) x w r w'
| ev_rep_stop c rq d lo hi q n x w w' :
    ev GRun c (repeat_req lo hi rq) d q x w false w' ->
    ev (GRep n) c rq d (Repeat lo hi q) x w (lo <=? n) w'
| ev_rep_full c rq d lo hi q n x w w' :
    ev GRun c (repeat_req lo hi rq) d q x w true w' -> negb (hi =? 0) && (S n =? hi) = true ->
    ev (GRep n) c rq d (Repeat lo hi q) x w true w'
| ev_rep_more c rq d lo hi q n x w w1 r w' :
    ev GRun c (repeat_req lo hi rq) d q x w true w1 -> negb (hi =? 0) && (S n =? hi) = false ->
    ev (GRep (S n)) c rq d (Repeat lo hi q) (q_s w1) w1 r w' ->
    ev (GRep n) c rq d (Repeat lo hi q) x w r w'

| ev_not c rq d q x w r w' :
    ev GRun c (not_req rq) d q x w r w' -> ev GRaw c rq d (Not q) x w (negb r) (at_ x w')
| ev_opt_ok c rq d q x w w' :
    ev GRun c (opt_req rq) d q x w true w' -> ev GRaw c rq d (Opt q) x w true w'
| ev_opt_ko c rq d q x w w' :
    ev GRun c (opt_req rq) d q x w false w' -> ev GRaw c rq d (Opt q) x w true (at_ x w')

| ev_discard c rq d q x w r w' :
    ev GRun c rq DNil q x w r w' -> ev GRaw c rq d (Discard q) x w r w'
| ev_lexeme c rq d q x w r w' :
    ev GRun (Ctx Fail (c_bound c)) rq d q x w r w' -> ev GRaw c rq d (Lexeme q) x w r w'
| ev_skipper c rq d q s x w r w' :
    ev GRun (Ctx s (c_bound c)) rq d q x w r w' -> ev GRaw c rq d (WithSkipper q s) x w r w'
| ev_bind c rq d q x w r w' :
    ev GRun (Ctx (c_skip c) d) (unatomic_req rq) d q x w r w' -> ev GRaw c rq d (BindDst q) x w r w'

| ev_construct_ok c rq d args q x w s cs v tr y cs' :
    ev GRun c (unatomic_req rq) (dst_cell (length (q_c w)) (TTuple args)) q x
       (with_c (q_c w ++ [value_init (TTuple args)]) w) true (SW s (cs ++ [v]) tr) ->
    length cs = length (q_c w) -> make_from (dst_ty d) v = Done y -> assign cs d y = Done cs' ->
    ev GRaw c rq d (Construct args q) x w true (SW s cs' tr)
| ev_construct_ko c rq d args q x w s cs v tr :
    ev GRun c (unatomic_req rq) (dst_cell (length (q_c w)) (TTuple args)) q x
       (with_c (q_c w ++ [value_init (TTuple args)]) w) false (SW s (cs ++ [v]) tr) ->
    length cs = length (q_c w) ->
    ev GRaw c rq d (Construct args q) x w false (SW s cs tr)
| ev_act_ok c rq d a q x w s cs v tr w' :
    ev GRun c (action_req rq) (dst_cell (length (q_c w)) (ac_land a)) q x
       (with_c (q_c w ++ [default_init (ac_land a)]) w) true (SW s (cs ++ [v]) tr) ->
    length cs = length (q_c w) -> act_run a v d c (SW s cs tr) = Done w' ->
    ev GRaw c rq d (Act a q) x w true w'
| ev_act_ko c rq d a q x w s cs v tr :
    ev GRun c (action_req rq) (dst_cell (length (q_c w)) (ac_land a)) q x
       (with_c (q_c w ++ [default_init (ac_land a)]) w) false (SW s (cs ++ [v]) tr) ->
    length cs = length (q_c w) ->
    ev GRaw c rq d (Act a q) x w false (SW s cs tr)

| ev_exc_hit c rq d q neg x w w' :
    ev GRun c neg_req DNil neg x w true w' -> ev GRaw c rq d (Except q neg) x w false w'
| ev_exc_go c rq d q neg x w w1 r w' :
    ev GRun c neg_req DNil neg x w false w1 ->
    ev GRun c (except_req rq) d q (q_s w1) w1 r w' -> ev GRaw c rq d (Except q neg) x w r w'

| ev_list c rq d q sep x w r w' :
    ev (GElem x) c rq d (PList q sep) x w r w' -> ev GRaw c rq d (PList q sep) x w r w'
| ev_elem_end c rq d q sep m x w w' :
    ev GRun c list_req d q x w false w' -> ev (GElem m) c rq d (PList q sep) x w true (at_ m w')
| ev_elem_next c rq d q sep m x w w1 r w' :
    ev GRun c list_req d q x w true w1 ->
    ev (GSep (q_s w1)) c rq d (PList q sep) (q_s w1) w1 r w' ->
    ev (GElem m) c rq d (PList q sep) x w r w'
| ev_sep_end c rq d q sep m x w w' :
    ev GRun c sep_req DNil sep x w false w' -> ev (GSep m) c rq d (PList q sep) x w true (at_ m w')
| ev_sep_next c rq d q sep m x w w1 r w' :
    ev GRun c sep_req DNil sep x w true w1 ->
    ev (GElem m) c rq d (PList q sep) (q_s w1) w1 r w' ->
    ev (GSep m) c rq d (PList q sep) x w r w'

| ev_rec c rq d id b q x w r w' :
    env id = Some q ->
    ev GRun c recur_req d q (q_s w) w r w' -> ev GRaw c rq d (Recur id b) x w r w'.

(** The requirements the parser of [p] itself is built with. *)
Definition raw_req (rq : req) (p : pat) : req :=
  if r_recur rq then rq
  else let rq1 := if wants_clean rq p then unclean_req rq else rq in
       if wants_atomic rq1 p then unatomic_req rq1 else rq1.

(** Properly nested marks.  [h]: something around [p] holds a mark, so [p] must give back
    all of its own; Optional does not (when its operand matches). *)
Fixpoint mok (h : bool) (rq : req) (p : pat) : bool :=
  let h' := h || (negb (r_recur rq) && wants_clean rq p) in
  let rq' := raw_req rq p in
  match p with
  | Seq l => forallb (mok h' seq_req) l
  | Alt l => forallb (mok h' (alt_req rq')) l
  | Repeat lo hi q => mok h' (repeat_req lo hi rq') q
  | Not q => mok true (not_req rq') q
  | Opt q => negb h' && mok true (opt_req rq') q
  | Discard q | Lexeme q => mok h' rq' q
  | WithSkipper q s => (is_fail s || sfree s) && mok h' rq' q
  | BindDst q | Construct _ q => mok h' (unatomic_req rq') q
  | Act _ q => mok h' (action_req rq') q
  | Except q neg => mok h' neg_req neg && mok h' (except_req rq') q
  | PList q sep => mok true list_req q && mok true sep_req sep
  | _ => true
  end.

End Big.
