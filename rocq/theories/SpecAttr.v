(** Specification: the parsing-expression-grammar reading of a pattern, with values.

    [mv env ws g t v s r v' k]: reading [g] at [s], for an object of type [t] that holds [v],
    gives [r] (the position behind what was matched, or [None]), leaves [v'] in the object
    and makes the action calls [k].  As in SpecPeg a position is the text that is left and
    [ws] tells the characters skipped in front of everything that is read; nothing here
    mentions memory, references, parser objects, marks or requirements.

    There are two ways of storing what a pattern yields: into the object itself, as it is
    read, or - elements of repetitions and lists, the operand of an optional - as one value,
    made in an object of its own and assigned when it is complete.  Atoms, which assign once
    if at all, do not need the object of their own. *)
From Coq Require Import List ZArith Bool Arith.
From Verif Require Import Base CharSet Dst Pattern Parser SpecPeg SpecLeaf SpecValue SpecType.
Import ListNotations.

(** Patterns that assign at most once, when they match ([f_atomic] of the model is the
    library's table; this is the reason for it). *)
Fixpoint atom (p : pat) : bool :=
  match p with
  | UInt _ _ _ | Int _ _ _ | Seq _ | Repeat _ _ _ | BindDst _ | PList _ _ | Recur _ _ => false
  | WithSkipper q _ => atom q
  | _ => true
  end.

(** What a row of digits makes of an integer (nothing, if there is none). *)
Inductive counted (b : Z) (neg : bool) (ds : list Z) : ty -> val -> val -> Prop :=
| cnt_nil v : counted b neg ds TNil v v
| cnt_num s w v : safe s w (value b ds) ->
    counted b neg ds (TNum s w) v (VNum (wrap s w (if neg then - value b ds else value b ds))).

(** The object the part [q] of a sequence stores in, if [i] parts that store something are
    in front of it, and what the whole becomes when that object becomes [x]. *)
Inductive part_at (q : pat) (i : nat) (x : val) : ty -> val -> ty -> val -> val -> Prop :=
| pat_quiet t v : ignores q = true -> part_at q i x t v TNil VNil v
| pat_whole t v : ignores q = false -> (forall ts, t <> TTuple ts) -> part_at q i x t v t v x
| pat_none ts v : ignores q = false -> nth_error ts i = Some TNil -> part_at q i x (TTuple ts) v TNil VNil v
| pat_slot ts vs tq vq : ignores q = false -> nth_error ts i = Some tq -> tq <> TNil -> nth_error vs i = Some vq ->
    part_at q i x (TTuple ts) (VTuple vs) tq vq (VTuple (upd vs i x)).
Definition after (q : pat) (i : nat) : nat := if ignores q then i else S i.

(** [one]: as one value. *)
Inductive vgoal : Type :=
| VOne (one : bool) (p : pat)
| VAll (i : nat) (l : list pat)
| VAny (one : bool) (l : list pat)
| VTimes (lo hi n : nat) (p : pat)
| VMore (p sep : pat).

Section Attr.
Context (env : nat -> option pat).

Inductive mv : gap -> vgoal -> ty -> val -> list Z -> option (list Z) -> val -> list event -> Prop :=
| v_one ws p t v s s' x v' k :
    atom p = false -> mv ws (VOne false p) (value_ty t) (default_init (value_ty t)) s (Some s') x k ->
    stored t v x v' -> mv ws (VOne true p) t v s (Some s') v' k
| v_one_no ws p t v s x k :
    atom p = false -> mv ws (VOne false p) (value_ty t) (default_init (value_ty t)) s None x k ->
    mv ws (VOne true p) t v s None v k

| v_char ws o cs t v s y s' v' :
    trim ws s = y :: s' -> in_set cs y -> stored t v (VNum y) v' -> mv ws (VOne o (Char cs)) t v s (Some s') v' []
| v_char_no ws o cs t v s :
    (forall y s', trim ws s = y :: s' -> ~ in_set cs y) -> mv ws (VOne o (Char cs)) t v s None v []
| v_eoi ws o t v s : trim ws s = [] -> mv ws (VOne o Eoi) t v s (Some []) v []
| v_eoi_no ws o t v s : trim ws s <> [] -> mv ws (VOne o Eoi) t v s None v []
| v_pass ws o t v s : mv ws (VOne o Pass) t v s (Some s) v []
| v_fail ws o t v s : mv ws (VOne o Fail) t v s None v []
| v_lit ws o l t v s s' : trim ws s = l ++ s' -> mv ws (VOne o (Lit l)) t v s (Some s') v []
| v_lit_no ws o l t v s : (forall s', trim ws s <> l ++ s') -> mv ws (VOne o (Lit l)) t v s None v []
| v_sym ws o e key x t v s s' v' :
    trim ws s = key ++ s' -> In (key, x) e ->
    (forall key' x' s'', trim ws s = key' ++ s'' -> In (key', x') e -> length key' <= length key) ->
    stored t v x v' -> mv ws (VOne o (Symbol e)) t v s (Some s') v' []
| v_sym_no ws o e t v s :
    (forall key x s', trim ws s = key ++ s' -> ~ In (key, x) e) -> mv ws (VOne o (Symbol e)) t v s None v []
| v_uint ws b lo hi t v s v' :
    counted b false (firstn (taken b hi (trim ws s)) (trim ws s)) t v v' ->
    mv ws (VOne false (UInt b lo hi)) t v s (number b lo hi (trim ws s)) v' []
| v_int ws b lo hi t v s v' :
    counted b (negative (trim ws s)) (firstn (taken b hi (unsigned (trim ws s))) (unsigned (trim ws s))) t v v' ->
    mv ws (VOne false (Int b lo hi)) t v s (number b lo hi (unsigned (trim ws s))) v' []

| v_seq ws l t v s r v' k : mv ws (VAll 0 l) t v s r v' k -> mv ws (VOne false (Seq l)) t v s r v' k
| v_all_end ws i t v s : mv ws (VAll i []) t v s (Some s) v []
| v_all_no ws i q l t v s tq vq x v' k :
    part_at q i x t v tq vq v' -> mv ws (VOne false q) tq vq s None x k ->
    mv ws (VAll i (q :: l)) t v s None v' k
| v_all ws i q l t v s tq vq x v1 s1 k1 r v' k :
    part_at q i x t v tq vq v1 -> mv ws (VOne false q) tq vq s (Some s1) x k1 ->
    mv ws (VAll (after q i) l) t v1 s1 r v' k ->
    mv ws (VAll i (q :: l)) t v s r v' (k1 ++ k)

| v_alt ws o l t v s r v' k : mv ws (VAny o l) t v s r v' k -> mv ws (VOne o (Alt l)) t v s r v' k
| v_any_end ws o t v s : mv ws (VAny o []) t v s None v []
| v_any ws o p l t v s s1 v' k :
    mv ws (VOne o p) t v s (Some s1) v' k -> mv ws (VAny o (p :: l)) t v s (Some s1) v' k
| v_any_next ws o p l t v s v1 k1 r v' k :
    mv ws (VOne o p) t v s None v1 k1 -> mv ws (VAny o l) t v1 s r v' k ->
    mv ws (VAny o (p :: l)) t v s r v' (k1 ++ k)

| v_repeat ws lo hi p t v s r v' k :
    mv ws (VTimes lo hi 0 p) t v s r v' k -> mv ws (VOne false (Repeat lo hi p)) t v s r v' k
| v_times_stop ws lo hi n p t v s v' k :
    mv ws (VOne true p) t v s None v' k ->
    mv ws (VTimes lo hi n p) t v s (if lo <=? n then Some s else None) v' k
| v_times_full ws lo hi n p t v s s1 v' k :
    mv ws (VOne true p) t v s (Some s1) v' k -> S n = hi -> mv ws (VTimes lo hi n p) t v s (Some s1) v' k
| v_times ws lo hi n p t v s s1 v1 k1 r v' k :
    mv ws (VOne true p) t v s (Some s1) v1 k1 -> S n <> hi -> mv ws (VTimes lo hi (S n) p) t v1 s1 r v' k ->
    mv ws (VTimes lo hi n p) t v s r v' (k1 ++ k)

| v_not ws o p t v s s1 v' k :
    mv ws (VOne false p) t v s (Some s1) v' k -> mv ws (VOne o (Not p)) t v s None v' k
| v_not_no ws o p t v s v' k :
    mv ws (VOne false p) t v s None v' k -> mv ws (VOne o (Not p)) t v s (Some s) v' k
| v_opt ws o p t v s s1 v' k :
    mv ws (VOne true p) t v s (Some s1) v' k -> mv ws (VOne o (Opt p)) t v s (Some s1) v' k
| v_opt_no ws o p t v s v' k :
    mv ws (VOne true p) t v s None v' k -> mv ws (VOne o (Opt p)) t v s (Some s) v' k
| v_except ws o p q t v s s1 x k :
    mv ws (VOne false q) TNil VNil s (Some s1) x k -> mv ws (VOne o (Except p q)) t v s None v k
| v_except_no ws o p q t v s x k1 r v' k :
    mv ws (VOne false q) TNil VNil s None x k1 -> mv ws (VOne o p) t v s r v' k ->
    mv ws (VOne o (Except p q)) t v s r v' (k1 ++ k)

| v_list_none ws p sep t v s v' k :
    mv ws (VOne true p) t v s None v' k -> mv ws (VOne false (PList p sep)) t v s (Some s) v' k
| v_list ws p sep t v s s1 v1 k1 r v' k :
    mv ws (VOne true p) t v s (Some s1) v1 k1 -> mv ws (VMore p sep) t v1 s1 r v' k ->
    mv ws (VOne false (PList p sep)) t v s r v' (k1 ++ k)
| v_more_end ws p sep t v s x k :
    mv ws (VOne false sep) TNil VNil s None x k -> mv ws (VMore p sep) t v s (Some s) v k
| v_more_trailing ws p sep t v s s1 x k1 v' k :
    mv ws (VOne false sep) TNil VNil s (Some s1) x k1 -> mv ws (VOne true p) t v s1 None v' k ->
    mv ws (VMore p sep) t v s (Some s) v' (k1 ++ k)
| v_more ws p sep t v s s1 x k1 s2 v2 k2 r v' k :
    mv ws (VOne false sep) TNil VNil s (Some s1) x k1 -> mv ws (VOne true p) t v s1 (Some s2) v2 k2 ->
    mv ws (VMore p sep) t v2 s2 r v' k -> mv ws (VMore p sep) t v s r v' (k1 ++ k2 ++ k)

| v_lexeme ws o p t v s r v' k :
    mv nows (VOne o p) t v (trim ws s) r v' k -> mv ws (VOne o (Lexeme p)) t v s r v' k
| v_skipper ws o skp p t v s r v' k :
    (o = true -> atom p = true) ->
    mv (passes skp) (VOne o p) t v (trim ws s) r v' k -> mv ws (VOne o (WithSkipper p skp)) t v s r v' k
| v_discard ws o p t v s r x k :
    mv ws (VOne o p) TNil VNil s r x k -> mv ws (VOne o (Discard p)) t v s r v k
| v_bind ws p t v s r v' k :
    mv ws (VOne false p) t v s r v' k -> mv ws (VOne false (BindDst p)) t v s r v' k
(** A class object made from the arguments read ... *)
| v_construct ws o args p t v s s' xs y v' k :
    mv ws (VOne false p) (TTuple args) (value_init (TTuple args)) s (Some s') (VTuple xs) k ->
    made t xs y -> stored t v y v' -> mv ws (VOne o (Construct args p)) t v s (Some s') v' k
| v_construct_no ws o args p t v s x k :
    mv ws (VOne false p) (TTuple args) (value_init (TTuple args)) s None x k ->
    mv ws (VOne o (Construct args p)) t v s None v k
(** ... and a callback called with what was read. *)
| v_act ws o a p t v s s' x y v' k :
    mv ws (VOne false p) (ac_land a) (default_init (ac_land a)) s (Some s') x k ->
    conv (ac_land a) x = Done y -> ac_param a = false -> called a t v y v' ->
    mv ws (VOne o (Act a p)) t v s (Some s') v' (k ++ [Event (ac_id a) y])
| v_act_no ws o a p t v s x k :
    mv ws (VOne false p) (ac_land a) (default_init (ac_land a)) s None x k ->
    mv ws (VOne o (Act a p)) t v s None v k
| v_recur ws id b q t v s r v' k :
    env id = Some q -> mv ws (VOne false q) t v s r v' k -> mv ws (VOne false (Recur id b)) t v s r v' k.
End Attr.

(** The patterns considered: no callback that is given the bound destination, no two entries
    of a symbol table for one key, and something in every sequence and alternative. *)
Fixpoint simple (p : pat) : bool :=
  match p with
  | Seq l | Alt l => match l with [] => false | _ => forallb simple l end
  | Symbol e => (fix go (e : list (list Z * val)) : bool :=
                   match e with
                   | [] => true
                   | kv :: t => negb (existsb (fun kv' => if list_eq_dec Z.eq_dec (fst kv) (fst kv') then true else false) t) && go t
                   end) e
  | Repeat _ _ q | Not q | Opt q | Discard q | Lexeme q | WithSkipper q _ | Construct _ q | BindDst q => simple q
  | Act a q => negb (ac_param a) && simple q
  | Except q n => simple q && simple n
  | PList q s => simple q && simple s
  | _ => true
  end.
Definition all_simple (env : nat -> option pat) : Prop := forall id q, env id = Some q -> simple q = true.

(** Tuples have as many elements as their type says. *)
Fixpoint shaped (t : ty) (v : val) : bool :=
  match t with
  | TTuple ts => match v with
                 | VTuple vs => (fix go (ts : list ty) (vs : list val) : bool :=
                                   match ts, vs with
                                   | [], [] => true
                                   | t :: ts, v :: vs => shaped t v && go ts vs
                                   | _, _ => false
                                   end) ts vs
                 | _ => false
                 end
  | _ => true
  end.
