(** Specification: the reading of patterns with values (SpecAttr.v), when callbacks are given
    the bound destination.

    Such a callback changes an object behind the back of the patterns that are being read, so
    what is read has to be told for two objects at once: the one that is bound, and the one
    that what is being read is collected in if that is a separate one (the element of a
    repetition, the argument of a callback or constructor).  [mb env ws g tb L t h s r h' k]:
    reading [g] at [s] for an object of type [t], found at [L] in [h], while an object of type
    [tb] is bound, gives [r], leaves [h'] and makes the calls [k]. *)
From Coq Require Import List ZArith Bool Arith.
From Verif Require Import Base CharSet Dst Pattern Parser SpecPeg SpecLeaf SpecValue SpecType SpecAttr.
Import ListNotations.

(** The bound object and the separate one. *)
Record objects : Type := Objects { o_bound : val; o_own : val }.

(** An element of nested tuples, and its replacement. *)
Inductive element : list nat -> val -> val -> Prop :=
| el_here v : element [] v v
| el_in i P vs x v : nth_error vs i = Some x -> element P x v -> element (i :: P) (VTuple vs) v.
Inductive replaced (y : val) : list nat -> val -> val -> Prop :=
| re_here v : replaced y [] v y
| re_in i P vs x x' : nth_error vs i = Some x -> replaced y P x x' -> replaced y (i :: P) (VTuple vs) (VTuple (upd vs i x')).

(** Where the object is that is stored in. *)
Inductive where_ : Type := Nowhere | InBound (P : list nat) | InOwn (P : list nat).
Definition the_bound (t : ty) : where_ := match t with TNil => Nowhere | _ => InBound [] end.
Definition the_own (t : ty) : where_ := match t with TNil => Nowhere | _ => InOwn [] end.
Definition in_slot (i : nat) (L : where_) : where_ :=
  match L with Nowhere => Nowhere | InBound P => InBound (P ++ [i]) | InOwn P => InOwn (P ++ [i]) end.

Inductive holds : where_ -> objects -> val -> Prop :=
| ho_no h : holds Nowhere h VNil
| ho_bound P b x v : element P b v -> holds (InBound P) (Objects b x) v
| ho_own P b x v : element P x v -> holds (InOwn P) (Objects b x) v.
Inductive becomes (y : val) : where_ -> objects -> objects -> Prop :=
| be_no h : becomes y Nowhere h h
| be_bound P b x b' : replaced y P b b' -> becomes y (InBound P) (Objects b x) (Objects b' x)
| be_own P b x x' : replaced y P x x' -> becomes y (InOwn P) (Objects b x) (Objects b x').

(** [dst = x] there, and the value of a row of digits. *)
Definition assigned (t : ty) (L : where_) (x : val) (h h' : objects) : Prop :=
  exists v v', holds L h v /\ stored t v x v' /\ becomes v' L h h'.
Definition numbered (b : Z) (neg : bool) (ds : list Z) (t : ty) (L : where_) (h h' : objects) : Prop :=
  exists v v', holds L h v /\ counted b neg ds t v v' /\ becomes v' L h h'.

(** The object the part [q] of a sequence stores in ([part_at] of SpecAttr.v). *)
Inductive part_in (q : pat) (i : nat) : ty -> where_ -> ty -> where_ -> Prop :=
| pin_quiet t L : ignores q = true -> part_in q i t L TNil Nowhere
| pin_whole t L : ignores q = false -> (forall ts, t <> TTuple ts) -> part_in q i t L t L
| pin_none ts L : ignores q = false -> nth_error ts i = Some TNil -> part_in q i (TTuple ts) L TNil Nowhere
| pin_slot ts L tq : ignores q = false -> nth_error ts i = Some tq -> tq <> TNil -> part_in q i (TTuple ts) L tq (in_slot i L).

(** A callback is called with [y], and with the bound object if it asks for it, of which it
    may make what it likes; what it returns is stored. *)
Definition answered (a : action) (t : ty) (L : where_) (r : val) (h h' : objects) : Prop :=
  if ac_void a then h' = h else assigned t L r h h'.
Inductive calls (a : action) (tb t : ty) (L : where_) (y : val) (h h' : objects) : Prop :=
| ca_plain r b : ac_param a = false -> ac_fun a y VNil = (r, b) -> answered a t L r h h' -> calls a tb t L y h h'
| ca_none r b : ac_param a = true -> tb = TNil -> ac_fun a y VNil = (r, b) -> answered a t L r h h' -> calls a tb t L y h h'
| ca_bound r b : ac_param a = true -> tb <> TNil -> ac_fun a y (o_bound h) = (r, b) -> has_ty tb b = true ->
    answered a t L r (Objects b (o_own h)) h' -> calls a tb t L y h h'.

Section Bound.
Context (env : nat -> option pat).

Inductive mb : gap -> vgoal -> ty -> where_ -> ty -> objects -> list Z -> option (list Z) -> objects -> list event -> Prop :=
(** As one value: in an object of its own, which is assigned when it is complete. *)
| b_one ws p tb L t h s s' b x h' k :
    atom p = false ->
    mb ws (VOne false p) tb (the_own (value_ty t)) (value_ty t) (Objects (o_bound h) (default_init (value_ty t))) s (Some s') (Objects b x) k ->
    assigned t L x (Objects b (o_own h)) h' -> mb ws (VOne true p) tb L t h s (Some s') h' k
| b_one_no ws p tb L t h s b x k :
    atom p = false ->
    mb ws (VOne false p) tb (the_own (value_ty t)) (value_ty t) (Objects (o_bound h) (default_init (value_ty t))) s None (Objects b x) k ->
    mb ws (VOne true p) tb L t h s None (Objects b (o_own h)) k

| b_char ws o cs tb L t h s y s' h' :
    trim ws s = y :: s' -> in_set cs y -> assigned t L (VNum y) h h' -> mb ws (VOne o (Char cs)) tb L t h s (Some s') h' []
| b_char_no ws o cs tb L t h s :
    (forall y s', trim ws s = y :: s' -> ~ in_set cs y) -> mb ws (VOne o (Char cs)) tb L t h s None h []
| b_eoi ws o tb L t h s : trim ws s = [] -> mb ws (VOne o Eoi) tb L t h s (Some []) h []
| b_eoi_no ws o tb L t h s : trim ws s <> [] -> mb ws (VOne o Eoi) tb L t h s None h []
| b_pass ws o tb L t h s : mb ws (VOne o Pass) tb L t h s (Some s) h []
| b_fail ws o tb L t h s : mb ws (VOne o Fail) tb L t h s None h []
| b_lit ws o l tb L t h s s' : trim ws s = l ++ s' -> mb ws (VOne o (Lit l)) tb L t h s (Some s') h []
| b_lit_no ws o l tb L t h s : (forall s', trim ws s <> l ++ s') -> mb ws (VOne o (Lit l)) tb L t h s None h []
| b_sym ws o e key x tb L t h s s' h' :
    trim ws s = key ++ s' -> In (key, x) e ->
    (forall key' x' s'', trim ws s = key' ++ s'' -> In (key', x') e -> length key' <= length key) ->
    assigned t L x h h' -> mb ws (VOne o (Symbol e)) tb L t h s (Some s') h' []
| b_sym_no ws o e tb L t h s :
    (forall key x s', trim ws s = key ++ s' -> ~ In (key, x) e) -> mb ws (VOne o (Symbol e)) tb L t h s None h []
| b_uint ws b lo hi tb L t h s h' :
    numbered b false (firstn (taken b hi (trim ws s)) (trim ws s)) t L h h' ->
    mb ws (VOne false (UInt b lo hi)) tb L t h s (number b lo hi (trim ws s)) h' []
| b_int ws b lo hi tb L t h s h' :
    numbered b (negative (trim ws s)) (firstn (taken b hi (unsigned (trim ws s))) (unsigned (trim ws s))) t L h h' ->
    mb ws (VOne false (Int b lo hi)) tb L t h s (number b lo hi (unsigned (trim ws s))) h' []

| b_seq ws l tb L t h s r h' k : mb ws (VAll 0 l) tb L t h s r h' k -> mb ws (VOne false (Seq l)) tb L t h s r h' k
| b_all_end ws i tb L t h s : mb ws (VAll i []) tb L t h s (Some s) h []
| b_all_no ws i q l tb L t h s tq Lq h' k :
    part_in q i t L tq Lq -> mb ws (VOne false q) tb Lq tq h s None h' k ->
    mb ws (VAll i (q :: l)) tb L t h s None h' k
| b_all ws i q l tb L t h s tq Lq h1 s1 k1 r h' k :
    part_in q i t L tq Lq -> mb ws (VOne false q) tb Lq tq h s (Some s1) h1 k1 ->
    mb ws (VAll (after q i) l) tb L t h1 s1 r h' k ->
    mb ws (VAll i (q :: l)) tb L t h s r h' (k1 ++ k)

| b_alt ws o l tb L t h s r h' k : mb ws (VAny o l) tb L t h s r h' k -> mb ws (VOne o (Alt l)) tb L t h s r h' k
| b_any_end ws o tb L t h s : mb ws (VAny o []) tb L t h s None h []
| b_any ws o p l tb L t h s s1 h' k :
    mb ws (VOne o p) tb L t h s (Some s1) h' k -> mb ws (VAny o (p :: l)) tb L t h s (Some s1) h' k
| b_any_next ws o p l tb L t h s h1 k1 r h' k :
    mb ws (VOne o p) tb L t h s None h1 k1 -> mb ws (VAny o l) tb L t h1 s r h' k ->
    mb ws (VAny o (p :: l)) tb L t h s r h' (k1 ++ k)

| b_repeat ws lo hi p tb L t h s r h' k :
    mb ws (VTimes lo hi 0 p) tb L t h s r h' k -> mb ws (VOne false (Repeat lo hi p)) tb L t h s r h' k
| b_times_stop ws lo hi n p tb L t h s h' k :
    mb ws (VOne true p) tb L t h s None h' k ->
    mb ws (VTimes lo hi n p) tb L t h s (if lo <=? n then Some s else None) h' k
| b_times_full ws lo hi n p tb L t h s s1 h' k :
    mb ws (VOne true p) tb L t h s (Some s1) h' k -> S n = hi -> mb ws (VTimes lo hi n p) tb L t h s (Some s1) h' k
| b_times ws lo hi n p tb L t h s s1 h1 k1 r h' k :
    mb ws (VOne true p) tb L t h s (Some s1) h1 k1 -> S n <> hi -> mb ws (VTimes lo hi (S n) p) tb L t h1 s1 r h' k ->
    mb ws (VTimes lo hi n p) tb L t h s r h' (k1 ++ k)

| b_not ws o p tb L t h s s1 h' k :
    mb ws (VOne false p) tb L t h s (Some s1) h' k -> mb ws (VOne o (Not p)) tb L t h s None h' k
| b_not_no ws o p tb L t h s h' k :
    mb ws (VOne false p) tb L t h s None h' k -> mb ws (VOne o (Not p)) tb L t h s (Some s) h' k
| b_opt ws o p tb L t h s s1 h' k :
    mb ws (VOne true p) tb L t h s (Some s1) h' k -> mb ws (VOne o (Opt p)) tb L t h s (Some s1) h' k
| b_opt_no ws o p tb L t h s h' k :
    mb ws (VOne true p) tb L t h s None h' k -> mb ws (VOne o (Opt p)) tb L t h s (Some s) h' k
| b_except ws o p q tb L t h s s1 h' k :
    mb ws (VOne false q) tb Nowhere TNil h s (Some s1) h' k -> mb ws (VOne o (Except p q)) tb L t h s None h' k
| b_except_no ws o p q tb L t h s h1 k1 r h' k :
    mb ws (VOne false q) tb Nowhere TNil h s None h1 k1 -> mb ws (VOne o p) tb L t h1 s r h' k ->
    mb ws (VOne o (Except p q)) tb L t h s r h' (k1 ++ k)

| b_list_none ws p sep tb L t h s h' k :
    mb ws (VOne true p) tb L t h s None h' k -> mb ws (VOne false (PList p sep)) tb L t h s (Some s) h' k
| b_list ws p sep tb L t h s s1 h1 k1 r h' k :
    mb ws (VOne true p) tb L t h s (Some s1) h1 k1 -> mb ws (VMore p sep) tb L t h1 s1 r h' k ->
    mb ws (VOne false (PList p sep)) tb L t h s r h' (k1 ++ k)
| b_more_end ws p sep tb L t h s h' k :
    mb ws (VOne false sep) tb Nowhere TNil h s None h' k -> mb ws (VMore p sep) tb L t h s (Some s) h' k
| b_more_trailing ws p sep tb L t h s s1 h1 k1 h' k :
    mb ws (VOne false sep) tb Nowhere TNil h s (Some s1) h1 k1 -> mb ws (VOne true p) tb L t h1 s1 None h' k ->
    mb ws (VMore p sep) tb L t h s (Some s) h' (k1 ++ k)
| b_more ws p sep tb L t h s s1 h1 k1 s2 h2 k2 r h' k :
    mb ws (VOne false sep) tb Nowhere TNil h s (Some s1) h1 k1 -> mb ws (VOne true p) tb L t h1 s1 (Some s2) h2 k2 ->
    mb ws (VMore p sep) tb L t h2 s2 r h' k -> mb ws (VMore p sep) tb L t h s r h' (k1 ++ k2 ++ k)

| b_lexeme ws o p tb L t h s r h' k :
    mb nows (VOne o p) tb L t h (trim ws s) r h' k -> mb ws (VOne o (Lexeme p)) tb L t h s r h' k
| b_skipper ws o skp p tb L t h s r h' k :
    (o = true -> atom p = true) ->
    mb (passes skp) (VOne o p) tb L t h (trim ws s) r h' k -> mb ws (VOne o (WithSkipper p skp)) tb L t h s r h' k
| b_discard ws o p tb L t h s r h' k :
    mb ws (VOne o p) tb Nowhere TNil h s r h' k -> mb ws (VOne o (Discard p)) tb L t h s r h' k
(** The object that is stored in becomes the bound one. *)
| b_bind ws p tb L t h s v r v' x k h' :
    holds L h v -> mb ws (VOne false p) t (the_bound t) t (Objects v VNil) s r (Objects v' x) k -> becomes v' L h h' ->
    mb ws (VOne false (BindDst p)) tb L t h s r h' k
| b_construct ws o args p tb L t h s s' b xs y h' k :
    mb ws (VOne false p) tb (InOwn []) (TTuple args) (Objects (o_bound h) (value_init (TTuple args))) s (Some s') (Objects b (VTuple xs)) k ->
    made t xs y -> assigned t L y (Objects b (o_own h)) h' -> mb ws (VOne o (Construct args p)) tb L t h s (Some s') h' k
| b_construct_no ws o args p tb L t h s b x k :
    mb ws (VOne false p) tb (InOwn []) (TTuple args) (Objects (o_bound h) (value_init (TTuple args))) s None (Objects b x) k ->
    mb ws (VOne o (Construct args p)) tb L t h s None (Objects b (o_own h)) k
| b_act ws o a p tb L t h s s' b x y h' k :
    mb ws (VOne false p) tb (the_own (ac_land a)) (ac_land a) (Objects (o_bound h) (default_init (ac_land a))) s (Some s') (Objects b x) k ->
    conv (ac_land a) x = Done y -> calls a tb t L y (Objects b (o_own h)) h' ->
    mb ws (VOne o (Act a p)) tb L t h s (Some s') h' (k ++ [Event (ac_id a) y])
| b_act_no ws o a p tb L t h s b x k :
    mb ws (VOne false p) tb (the_own (ac_land a)) (ac_land a) (Objects (o_bound h) (default_init (ac_land a))) s None (Objects b x) k ->
    mb ws (VOne o (Act a p)) tb L t h s None (Objects b (o_own h)) k
| b_recur ws id b q tb L t h s r h' k :
    env id = Some q -> mb ws (VOne false q) tb L t h s r h' k -> mb ws (VOne false (Recur id b)) tb L t h s r h' k.
End Bound.

(** [p] reads [s] into an object of type [t] that holds [v] and is the bound one, as it is at
    the start: it holds [v'] then and the calls [k] were made. *)
Definition reads (env : nat -> option pat) (ws : gap) (p : pat) (t : ty) (v : val) (s : list Z)
           (r : option (list Z)) (v' : val) (k : list event) : Prop :=
  exists x, mb env ws (VOne false p) t (the_bound t) t (Objects v VNil) s r (Objects v' x) k.

(** The patterns considered: no two entries of a symbol table for one key, and something in
    every sequence and alternative. *)
Fixpoint tidy (p : pat) : bool :=
  match p with
  | Seq l | Alt l => match l with [] => false | _ => forallb tidy l end
  | Symbol e => (fix go (e : list (list Z * val)) : bool :=
                   match e with
                   | [] => true
                   | kv :: t => negb (existsb (fun kv' => if list_eq_dec Z.eq_dec (fst kv) (fst kv') then true else false) t) && go t
                   end) e
  | Repeat _ _ q | Not q | Opt q | Discard q | Lexeme q | WithSkipper q _ | Construct _ q | BindDst q | Act _ q => tidy q
  | Except q n => tidy q && tidy n
  | PList q s => tidy q && tidy s
  | _ => true
  end.
Definition all_tidy (env : nat -> option pat) : Prop := forall id q, env id = Some q -> tidy q = true.
