(** Specification: what an expression stores and the callbacks it calls, operator by operator
    as it is written (what it recognises is in SpecExpr). *)
From Coq Require Import List ZArith Bool Arith.
From Verif Require Import Base CharSet Dst Pattern Expr Parser SpecPeg SpecLeaf SpecValue SpecType SpecAttr SpecExpr.
Import ListNotations.

(** Reading at a position for an object of some type that holds some value: the position
    behind what was read, or none; what the object holds then; the calls made. *)
Definition vreading : Type := ty -> val -> list Z -> option (list Z) -> val -> list event -> Prop.

(** Nothing is stored, nothing is called. *)
Definition mute (A : reading) : vreading := fun t v s r v' k => A s r /\ v' = v /\ k = [].
(** One character, which is stored. *)
Definition keeps_char (ws : gap) (P : Z -> Prop) : vreading := fun t v s r v' k =>
  k = [] /\ ((exists y s', trim ws s = y :: s' /\ P y /\ r = Some s' /\ stored t v (VNum y) v') \/
             ((forall y s', trim ws s = y :: s' -> ~ P y) /\ r = None /\ v' = v)).
(** As one value: made in an object of its own, assigned if it is complete. *)
Definition whole (A : vreading) : vreading := fun t v s r v' k =>
  exists x, A (value_ty t) (default_init (value_ty t)) s r x k /\
  match r with Some _ => stored t v x v' | None => v' = v end.
Definition first_of_v (A B : vreading) : vreading := fun t v s r v' k =>
  (exists s1, A t v s (Some s1) v' k /\ r = Some s1) \/
  (exists v1 k1 k2, A t v s None v1 k1 /\ B t v1 s r v' k2 /\ k = k1 ++ k2).
Definition unless_v (A B : vreading) : vreading := fun t v s r v' k =>
  (exists s1 x, B TNil VNil s (Some s1) x k /\ r = None /\ v' = v) \/
  (exists x k1 k2, B TNil VNil s None x k1 /\ A t v s r v' k2 /\ k = k1 ++ k2).
Definition here_unless_v (A : vreading) : vreading := fun t v s r v' k =>
  (exists s1, A t v s (Some s1) v' k /\ r = None) \/ (A t v s None v' k /\ r = Some s).
Definition if_any_v (A : vreading) : vreading := fun t v s r v' k =>
  (exists s1, A t v s (Some s1) v' k /\ r = Some s1) \/ (A t v s None v' k /\ r = Some s).

Inductive again_v (A : vreading) (lo hi : nat) : nat -> vreading :=
| againv_stop n t v s v' k : A t v s None v' k -> again_v A lo hi n t v s (if lo <=? n then Some s else None) v' k
| againv_full n t v s s1 v' k : A t v s (Some s1) v' k -> S n = hi -> again_v A lo hi n t v s (Some s1) v' k
| againv_more n t v s s1 v1 k1 r v' k : A t v s (Some s1) v1 k1 -> S n <> hi -> again_v A lo hi (S n) t v1 s1 r v' k ->
    again_v A lo hi n t v s r v' (k1 ++ k).

Inductive and_so_on_v (A B : vreading) : vreading :=
| sov_end t v s x k : B TNil VNil s None x k -> and_so_on_v A B t v s (Some s) v k
| sov_trailing t v s s1 x k1 v' k : B TNil VNil s (Some s1) x k1 -> A t v s1 None v' k -> and_so_on_v A B t v s (Some s) v' (k1 ++ k)
| sov_more t v s s1 x k1 s2 v2 k2 r v' k : B TNil VNil s (Some s1) x k1 -> A t v s1 (Some s2) v2 k2 ->
    and_so_on_v A B t v2 s2 r v' k -> and_so_on_v A B t v s r v' (k1 ++ k2 ++ k).
Definition separated_v (A B : vreading) : vreading := fun t v s r v' k =>
  (A t v s None v' k /\ r = Some s) \/
  exists s1 v1 k1 k2, A t v s (Some s1) v1 k1 /\ and_so_on_v A B t v1 s1 r v' k2 /\ k = k1 ++ k2.

(** A class object made of what was read; a callback called with it. *)
Definition builds (args : list ty) (A : vreading) : vreading := fun t v s r v' k =>
  match r with
  | Some _ => exists xs y, A (TTuple args) (value_init (TTuple args)) s r (VTuple xs) k /\ made t xs y /\ stored t v y v'
  | None => v' = v /\ exists x, A (TTuple args) (value_init (TTuple args)) s r x k
  end.
Definition calls (a : action) (A : vreading) : vreading := fun t v s r v' k =>
  match r with
  | Some _ => exists x y k1, A (ac_land a) (default_init (ac_land a)) s r x k1 /\ conv (ac_land a) x = Done y /\
                ac_param a = false /\ called a t v y v' /\ k = k1 ++ [Event (ac_id a) y]
  | None => v' = v /\ exists x, A (ac_land a) (default_init (ac_land a)) s r x k
  end.

(** Operands that take no element of a tuple: characters and strings, discard(), !, callbacks
    that return nothing, and what is made of nothing but such operands by %, -, the
    repetitions, unary -, lexeme(), bind_dst() and apply_skipper(). *)
Fixpoint quiet (e : expr) : bool :=
  match e with
  | EPat p => ignores p
  | EChar _ _ | EStr _ | ENot _ | EDiscard _ => true
  | ESet _ | ESeq _ _ | EAlt _ _ | EAs _ _ => false
  | EList a _ | EExcept a _ | EStar a | EPlus a | EOpt a | ERep _ _ a | ELexeme a | EBind a | ESkip a _ => quiet a
  | EAct f _ => ac_void f
  end.
(** How many elements of a tuple the operands of >> take. *)
Definition takes (l : list pat) : nat := length (filter (fun p => negb (ignores p)) l).
Fixpoint elements (e : expr) : nat :=
  match e with
  | ESeq a b => elements a + elements b
  | EPat (Seq l) => takes l
  | _ => if quiet e then 0 else 1
  end.

(** The object an operand of >> that takes an element, or does not, stores in, when [i]
    elements are taken already; what the whole becomes when that object becomes [x]. *)
Inductive element (q : bool) (i : nat) (x : val) : ty -> val -> ty -> val -> val -> Prop :=
| el_quiet t v : q = true -> element q i x t v TNil VNil v
| el_whole t v : q = false -> (forall ts, t <> TTuple ts) -> element q i x t v t v x
| el_none ts v : q = false -> nth_error ts i = Some TNil -> element q i x (TTuple ts) v TNil VNil v
| el_slot ts vs tq vq : q = false -> nth_error ts i = Some tq -> tq <> TNil -> nth_error vs i = Some vq ->
    element q i x (TTuple ts) (VTuple vs) tq vq (VTuple (upd vs i x)).
Definition in_element (q : bool) (i : nat) (A : vreading) : vreading := fun t v s r v' k =>
  exists tq vq x, element q i x t v tq vq v' /\ A tq vq s r x k.
Definition both_v (A B : vreading) : vreading := fun t v s r v' k =>
  (A t v s None v' k /\ r = None) \/
  exists s1 v1 k1 k2, A t v s (Some s1) v1 k1 /\ B t v1 s1 r v' k2 /\ k = k1 ++ k2.

(** It assigns at most once, when it matches. *)
Fixpoint stores_once (e : expr) : bool :=
  match e with
  | EPat p => atom p
  | ESeq _ _ | EList _ _ | EStar _ | EPlus _ | ERep _ _ _ | EBind _ => false
  | ESkip a _ => stores_once a
  | _ => true
  end.
Definition if_one (o : bool) (A : vreading) : vreading := if o then whole A else A.

(** What reading [e] does: in place, as one value, or as operands of >> when [i] elements are
    taken already. *)
Inductive how : Type := InPlace | AsOne | Operand (i : nat).
Definition mode (o : bool) : how := if o then AsOne else InPlace.

Fixpoint stores (env : nat -> option pat) (ws : gap) (h : how) (e : expr) : vreading :=
  let read (o : bool) : vreading :=
    match e with
    | EPat p => mv env ws (VOne o p)
    | EChar _ c => mute (reads_char ws (fun y => y = c))
    | EStr mem => mute (reads_text ws (c_string mem))
    | ESet s => keeps_char ws (in_set s)
    | ESeq a b => if_one o (both_v (stores env ws (Operand 0) a) (stores env ws (Operand (elements a)) b))
    | EAlt a b => first_of_v (stores env ws (mode o) a) (stores env ws (mode o) b)
    | EList a b => if_one o (separated_v (stores env ws AsOne a) (stores env ws InPlace b))
    | EExcept a b => unless_v (stores env ws (mode o) a) (stores env ws InPlace b)
    | EStar a => if_one o (again_v (stores env ws AsOne a) 0 0 0)
    | EPlus a => if_one o (again_v (stores env ws AsOne a) 1 0 0)
    | ERep lo hi a => if_one o (again_v (stores env ws AsOne a) lo hi 0)
    | EOpt a => if_any_v (stores env ws AsOne a)
    | ENot a => here_unless_v (stores env ws InPlace a)
    | EDiscard a => fun t v s r v' k => v' = v /\ exists x, stores env ws (mode o) a TNil VNil s r x k
    | ELexeme a => fun t v s => stores env nows (mode o) a t v (trim ws s)
    | EBind a => if_one o (stores env ws InPlace a)
    | ESkip a b =>
      if stores_once a then fun t v s => stores env (blanks b) (mode o) a t v (trim ws s)
      else if_one o (fun t v s => stores env (blanks b) InPlace a t v (trim ws s))
    | EAct f a => calls f (stores env ws InPlace a)
    | EAs args a => builds args (stores env ws InPlace a)
    end in
  match h with
  | InPlace => read false
  | AsOne => read true
  | Operand i =>
    match e with
    | ESeq a b => both_v (stores env ws (Operand i) a) (stores env ws (Operand (i + elements a)) b)
    | EPat (Seq l) => mv env ws (VAll i l)
    | _ => in_element (quiet e) i (read false)
    end
  end.
