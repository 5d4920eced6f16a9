(** Specification: what an expression stores and the callbacks it calls, operator by operator
    as it is written (SpecExprVal.v), when callbacks are given the bound destination: told for
    the two objects of SpecBound.v. *)
From Coq Require Import List ZArith Bool Arith.
From Verif Require Import Base CharSet Dst Pattern Expr Parser SpecPeg SpecLeaf SpecValue SpecType SpecAttr SpecExpr SpecExprVal SpecBound.
Import ListNotations.

(** Reading at a position, while an object of some type is bound, for an object found
    somewhere, of some type: the position behind what was read, or none; what the objects hold
    then; the calls made. *)
Definition breading : Type := ty -> where_ -> ty -> objects -> list Z -> option (list Z) -> objects -> list event -> Prop.

Definition mute_b (A : reading) : breading := fun tb L t h s r h' k => A s r /\ h' = h /\ k = [].
Definition keeps_char_b (ws : gap) (P : Z -> Prop) : breading := fun tb L t h s r h' k =>
  k = [] /\ ((exists y s', trim ws s = y :: s' /\ P y /\ r = Some s' /\ assigned t L (VNum y) h h') \/
             ((forall y s', trim ws s = y :: s' -> ~ P y) /\ r = None /\ h' = h)).
(** As one value: made in an object of its own, assigned if it is complete. *)
Definition whole_b (A : breading) : breading := fun tb L t h s r h' k =>
  exists b x, A tb (the_own (value_ty t)) (value_ty t) (Objects (o_bound h) (default_init (value_ty t))) s r (Objects b x) k /\
  match r with Some _ => assigned t L x (Objects b (o_own h)) h' | None => h' = Objects b (o_own h) end.
Definition first_of_b (A B : breading) : breading := fun tb L t h s r h' k =>
  (exists s1, A tb L t h s (Some s1) h' k /\ r = Some s1) \/
  (exists h1 k1 k2, A tb L t h s None h1 k1 /\ B tb L t h1 s r h' k2 /\ k = k1 ++ k2).
(** Nothing is stored, but callbacks may change the bound object. *)
Definition apart_b (A : breading) : breading := fun tb L t h => A tb Nowhere TNil h.
Definition unless_b (A B : breading) : breading := fun tb L t h s r h' k =>
  (exists s1, apart_b B tb L t h s (Some s1) h' k /\ r = None) \/
  (exists h1 k1 k2, apart_b B tb L t h s None h1 k1 /\ A tb L t h1 s r h' k2 /\ k = k1 ++ k2).
Definition here_unless_b (A : breading) : breading := fun tb L t h s r h' k =>
  (exists s1, A tb L t h s (Some s1) h' k /\ r = None) \/ (A tb L t h s None h' k /\ r = Some s).
Definition if_any_b (A : breading) : breading := fun tb L t h s r h' k =>
  (exists s1, A tb L t h s (Some s1) h' k /\ r = Some s1) \/ (A tb L t h s None h' k /\ r = Some s).

Inductive again_b (A : breading) (lo hi : nat) : nat -> breading :=
| againb_stop n tb L t h s h' k : A tb L t h s None h' k -> again_b A lo hi n tb L t h s (if lo <=? n then Some s else None) h' k
| againb_full n tb L t h s s1 h' k : A tb L t h s (Some s1) h' k -> S n = hi -> again_b A lo hi n tb L t h s (Some s1) h' k
| againb_more n tb L t h s s1 h1 k1 r h' k : A tb L t h s (Some s1) h1 k1 -> S n <> hi -> again_b A lo hi (S n) tb L t h1 s1 r h' k ->
    again_b A lo hi n tb L t h s r h' (k1 ++ k).

Inductive and_so_on_b (A B : breading) : breading :=
| sob_end tb L t h s h' k : apart_b B tb L t h s None h' k -> and_so_on_b A B tb L t h s (Some s) h' k
| sob_trailing tb L t h s s1 h1 k1 h' k : apart_b B tb L t h s (Some s1) h1 k1 -> A tb L t h1 s1 None h' k -> and_so_on_b A B tb L t h s (Some s) h' (k1 ++ k)
| sob_more tb L t h s s1 h1 k1 s2 h2 k2 r h' k : apart_b B tb L t h s (Some s1) h1 k1 -> A tb L t h1 s1 (Some s2) h2 k2 ->
    and_so_on_b A B tb L t h2 s2 r h' k -> and_so_on_b A B tb L t h s r h' (k1 ++ k2 ++ k).
Definition separated_b (A B : breading) : breading := fun tb L t h s r h' k =>
  (A tb L t h s None h' k /\ r = Some s) \/
  exists s1 h1 k1 k2, A tb L t h s (Some s1) h1 k1 /\ and_so_on_b A B tb L t h1 s1 r h' k2 /\ k = k1 ++ k2.

(** A class object made of what was read; a callback called with it, and with the bound
    object. *)
Definition builds_b (args : list ty) (A : breading) : breading := fun tb L t h s r h' k =>
  match r with
  | Some _ => exists b xs y, A tb (InOwn []) (TTuple args) (Objects (o_bound h) (value_init (TTuple args))) s r (Objects b (VTuple xs)) k /\
                made t xs y /\ assigned t L y (Objects b (o_own h)) h'
  | None => exists b x, A tb (InOwn []) (TTuple args) (Objects (o_bound h) (value_init (TTuple args))) s r (Objects b x) k /\ h' = Objects b (o_own h)
  end.
Definition calls_b (a : action) (A : breading) : breading := fun tb L t h s r h' k =>
  exists b x k1, A tb (the_own (ac_land a)) (ac_land a) (Objects (o_bound h) (default_init (ac_land a))) s r (Objects b x) k1 /\
  match r with
  | Some _ => exists y, conv (ac_land a) x = Done y /\ SpecBound.calls a tb t L y (Objects b (o_own h)) h' /\ k = k1 ++ [Event (ac_id a) y]
  | None => h' = Objects b (o_own h) /\ k = k1
  end.
(** bind_dst(): the object that is stored in becomes the bound one. *)
Definition binds_b (A : breading) : breading := fun tb L t h s r h' k =>
  exists v v' x, holds L h v /\ A t (the_bound t) t (Objects v VNil) s r (Objects v' x) k /\ becomes v' L h h'.

(** The object an operand of >> that takes an element, or does not, stores in, when [i]
    elements are taken already. *)
Inductive element_in (q : bool) (i : nat) : ty -> where_ -> ty -> where_ -> Prop :=
| eli_quiet t L : q = true -> element_in q i t L TNil Nowhere
| eli_whole t L : q = false -> (forall ts, t <> TTuple ts) -> element_in q i t L t L
| eli_none ts L : q = false -> nth_error ts i = Some TNil -> element_in q i (TTuple ts) L TNil Nowhere
| eli_slot ts L tq : q = false -> nth_error ts i = Some tq -> tq <> TNil -> element_in q i (TTuple ts) L tq (in_slot i L).
Definition in_element_b (q : bool) (i : nat) (A : breading) : breading := fun tb L t h s r h' k =>
  exists tq Lq, element_in q i t L tq Lq /\ A tb Lq tq h s r h' k.
Definition both_b (A B : breading) : breading := fun tb L t h s r h' k =>
  (A tb L t h s None h' k /\ r = None) \/
  exists s1 h1 k1 k2, A tb L t h s (Some s1) h1 k1 /\ B tb L t h1 s1 r h' k2 /\ k = k1 ++ k2.
Definition if_one_b (o : bool) (A : breading) : breading := if o then whole_b A else A.

Fixpoint stores_b (env : nat -> option pat) (ws : gap) (hw : how) (e : expr) : breading :=
  let read (o : bool) : breading :=
    match e with
    | EPat p => mb env ws (VOne o p)
    | EChar _ c => mute_b (reads_char ws (fun y => y = c))
    | EStr mem => mute_b (reads_text ws (c_string mem))
    | ESet s => keeps_char_b ws (in_set s)
    | ESeq a b => if_one_b o (both_b (stores_b env ws (Operand 0) a) (stores_b env ws (Operand (elements a)) b))
    | EAlt a b => first_of_b (stores_b env ws (mode o) a) (stores_b env ws (mode o) b)
    | EList a b => if_one_b o (separated_b (stores_b env ws AsOne a) (stores_b env ws InPlace b))
    | EExcept a b => unless_b (stores_b env ws (mode o) a) (stores_b env ws InPlace b)
    | EStar a => if_one_b o (again_b (stores_b env ws AsOne a) 0 0 0)
    | EPlus a => if_one_b o (again_b (stores_b env ws AsOne a) 1 0 0)
    | ERep lo hi a => if_one_b o (again_b (stores_b env ws AsOne a) lo hi 0)
    | EOpt a => if_any_b (stores_b env ws AsOne a)
    | ENot a => here_unless_b (stores_b env ws InPlace a)
    | EDiscard a => apart_b (stores_b env ws (mode o) a)
    | ELexeme a => fun tb L t h s => stores_b env nows (mode o) a tb L t h (trim ws s)
    | EBind a => if_one_b o (binds_b (stores_b env ws InPlace a))
    | ESkip a b =>
      if stores_once a then fun tb L t h s => stores_b env (blanks b) (mode o) a tb L t h (trim ws s)
      else if_one_b o (fun tb L t h s => stores_b env (blanks b) InPlace a tb L t h (trim ws s))
    | EAct f a => calls_b f (stores_b env ws InPlace a)
    | EAs args a => builds_b args (stores_b env ws InPlace a)
    end in
  match hw with
  | InPlace => read false
  | AsOne => read true
  | Operand i =>
    match e with
    | ESeq a b => both_b (stores_b env ws (Operand i) a) (stores_b env ws (Operand (i + elements a)) b)
    | EPat (Seq l) => mb env ws (VAll i l)
    | _ => in_element_b (quiet e) i (read false)
    end
  end.

(** [e] takes the object of type [t], bound at the start, from [v] to [v']. *)
Definition works (env : nat -> option pat) (ws : gap) (e : expr) (t : ty) (v : val) (s : list Z)
           (r : option (list Z)) (v' : val) (k : list event) : Prop :=
  exists x, stores_b env ws InPlace e t (the_bound t) t (Objects v VNil) s r (Objects v' x) k.
