(** Which patterns fit which destinations: what a compiler checks (C42), and which buffers
    are sure to be filled before they are read (C41). *)
From Coq Require Import List ZArith Bool Arith.
From Verif Require Import Base CharSet Dst Pattern Parser.
Import ListNotations.

(** Types without integers of no bits. *)
Fixpoint wf_ty (t : ty) : bool :=
  match t with
  | TNum _ b => (1 <=? b)%Z
  | TColl e => wf_ty e
  | TTuple l => forallb wf_ty l
  | _ => true
  end.

Definition is_num (t : ty) : bool := match t with TNum _ _ => true | _ => false end.

(** An object of type [t], maybe an uninitialised integer. *)
Definition object (t : ty) (v : val) : Prop :=
  has_ty t v = true \/ is_num t = true /\ v = VUndef.

(** What a destination takes: a collection takes its elements. *)
Definition value_ty (t : ty) : ty := match t with TColl e => e | _ => t end.

(** [v] can be assigned to an object of type [t]. *)
Definition accepts (t : ty) (v : val) : bool :=
  match t, v with
  | TNil, _ | _, VNil => true
  | TNum _ _, VNum _ => true
  | TNum _ _, _ => false
  | _, _ => has_ty t v
  end.

Definition takes_num (t : ty) : bool := match value_ty t with TNil | TNum _ _ => true | _ => false end.

(** The destination of a part that has [k] storing parts in front of it. *)
Definition part_ty (t : ty) (k : nat) (q : pat) : option ty :=
  if ignores q then Some TNil
  else match t with TTuple ts => nth_error ts k | _ => Some t end.

(** A callback called with what it takes, for a destination of type [t] and a bound one of
    type [bt]. *)
Definition callback (a : action) (t bt : ty) : Prop :=
  forall x b, has_ty (ac_land a) x = true -> (if ac_param a then object bt b else b = VNil) ->
  (ac_param a = true -> bt <> TNil -> has_ty bt (snd (ac_fun a x b)) = true) /\
  (ac_void a = false -> accepts (value_ty t) (fst (ac_fun a x b)) = true).

(** An object of type [t] can be made from [args]. *)
Definition makes (t : ty) (args : list ty) : bool :=
  match t with
  | TNil => length args <=? 1
  | TNum _ _ => match args with [TNum _ _] | [TNil] => true | _ => false end
  | TTuple _ => true
  | TUser _ => true
  | TColl _ => false
  end.

(** Arithmetic on an object of type [t] wraps around. *)
Definition wraps (t : ty) : bool :=
  match t with TNum s b => negb (s && (32 <=? b)%Z) | _ => true end.

Section Typed.
(** [strict]: buffers have to be filled as well.  [calm]: numbers are read into integers
    that wrap around. *)
Context (strict calm : bool).
(** Assumed of the Recur patterns: the destinations they are used with, and which ones
    always store something. *)
Context (uses : nat -> ty -> ty -> Prop) (stores : nat -> bool).
(** The actions that may be used. *)
Context (known : action -> Prop).

(** Calls an action that is given the bound destination, or fails. *)
Fixpoint binds (p : pat) : bool :=
  match p with
  | Fail => true
  | Seq l => existsb binds l
  | Alt l => forallb binds l
  | Repeat lo _ q => (1 <=? lo) && binds q
  | Discard q | Lexeme q | WithSkipper q _ | Construct _ q | Except q _ => binds q
  | Act a q => ac_param a || binds q
  | _ => false
  end.

(** Stores a value, or fails (into an integer). *)
Fixpoint sets (p : pat) : bool :=
  match p with
  | Char _ | CharSymbol _ | Symbol _ | UInt _ _ _ | Int _ _ _ | Construct _ _ | Fail => true
  | Eoi | Pass | Lit _ | Not _ | Opt _ | Discard _ | PList _ _ => false
  | Seq l => existsb (fun q => negb (ignores q) && sets q) l
  | Alt l => forallb sets l
  | Repeat lo _ q => (1 <=? lo) && sets q
  | Lexeme q | WithSkipper q _ | Except q _ => sets q
  | BindDst q => sets q || binds q
  | Act a _ => negb (ac_void a)
  | Recur id _ => stores id
  end.

(** [p] can be used with a destination of type [t] where the bound destination is of type
    [bt].  [at_]: the value has to be stored in one go, if need be by way of a buffer of the
    value type; [cs]: it has to consume; [rc]: it is the definition of a Recur. *)
Fixpoint typed (at_ cs rc : bool) (t bt : ty) (p : pat) {struct p} : Prop :=
  let buffered := negb rc && at_ && negb (f_atomic p) in
  let t := if buffered then value_ty t else t in
  let at_ := if buffered then false else at_ in
  (buffered = true -> strict = true -> is_num t = true -> sets p = true) /\
  match p with
  | Char _ => takes_num t = true
  | CharSymbol m => forall c v, In (c, v) m -> accepts (value_ty t) v = true
  | Symbol m => forall k v, In (k, v) m -> accepts (value_ty t) v = true
  | Eoi | Fail | Lit _ => True
  | Pass => cs = false
  | UInt _ _ _ | Int _ _ _ => (t = TNil \/ is_num t = true) /\ (calm = true -> wraps t = true)
  | Seq l =>
    l <> [] /\
    (fix go (k : nat) (l : list pat) : Prop :=
       match l with
       | [] => True
       | q :: r =>
         (exists t', part_ty t k q = Some t' /\ typed false false false t' bt q) /\
         go (if ignores q then k else S k) r
       end) 0 l
  | Alt l =>
    l <> [] /\
    (fix go (l : list pat) : Prop :=
       match l with
       | [] => True
       | q :: r => typed at_ cs false t bt q /\ go r
       end) l
  | Repeat lo _ q => cs && (lo =? 0) = false /\ typed true cs false t bt q
  | Not q => typed false cs false t bt q
  | Opt q => typed true cs false t bt q
  | Discard q => typed at_ cs rc TNil bt q
  | Lexeme q => typed at_ cs rc t bt q
  | WithSkipper q s => (is_fail s = true \/ typed false true false TNil TNil s) /\ typed at_ cs rc t bt q
  | BindDst q => typed false cs false t t q
  | Construct args q =>
    wf_ty (TTuple args) = true /\ makes t args = true /\ (forall ts, t = TTuple ts -> ts = args) /\
    typed false cs false (TTuple args) bt q
  | Act a q =>
    known a /\ wf_ty (ac_land a) = true /\ callback a t bt /\ typed false cs false (ac_land a) bt q /\
    (strict = true -> is_num (ac_land a) = true -> sets q = true)
  | Except q n => typed false false false TNil bt n /\ typed at_ cs false t bt q
  | PList q sep => typed true false false t bt q /\ typed false false false TNil bt sep
  | Recur id _ => uses id t bt
  end.

(** The definitions bear out what is assumed. *)
Definition env_typed (env : nat -> option pat) : Prop :=
  forall id q, env id = Some q ->
  (stores id = true -> sets q = true) /\
  (forall t bt, wf_ty t = true -> wf_ty bt = true -> uses id t bt -> typed false false true t bt q).

(** A pattern, its definitions and a destination of type [t] that go together. *)
Definition welltyped (env : nat -> option pat) (t : ty) (p : pat) : Prop :=
  env_typed env /\ wf_ty t = true /\ typed false false false t t p.

(** All Recurs are defined. *)
Definition all_defined (env : nat -> option pat) : Prop := forall id t bt, uses id t bt -> env id <> None.

(** The actions called are known, and each got a determinate value of the type it takes. *)
Definition handed (tr : list event) : Prop :=
  Forall (fun e => exists a, known a /\ ac_id a = ev_act e /\ has_ty (ac_land a) (ev_val e) = true) tr.
End Typed.
