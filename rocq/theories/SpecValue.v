(** What can be said about parse() into an object: the answer, the text left, what the
    object holds in the end and the action calls, in the order they were made. *)
From Coq Require Import List ZArith Bool Arith.
From Verif Require Import Base CharSet Source Dst Pattern Parser Session SpecSession SpecRun.
Import ListNotations.

(** parse() of [p] on [inp] into an object of type [t] holding [v]. *)
Definition does (env : nat -> option pat) (p : pat) (t : ty) (v : val) (inp : list Z)
           (r : result) (s : list Z) (v' : val) (calls : list event) : Prop :=
  exists n w, parse env n t v p inp = Done (r, w) /\
    left_at w = s /\ w_cells w = [v'] /\ w_trace w = rev calls.

(** The same for a session: text fed in pieces ([l]: feeds and calls of consume()), into an
    object of type [t] holding [v]. *)
Definition delivers (env : nat -> option pat) (p : pat) (t : ty) (v : val) (l : list call)
           (r : result) (v' : val) (calls : list event) : Prop :=
  reaches (fun n => session_seen (run_session env n t v p l)) (Done (Some (r, [v'], rev calls))).

(** Parts run one after the other, those that emit a value into the objects of a row, each
    into the next one; the others into nothing. *)
Inductive spread (env : nat -> option pat) :
  list pat -> list ty -> list val -> list Z -> result -> list Z -> list val -> list event -> Prop :=
| spr_end ts vs s : spread env [] ts vs s SUCCESS s vs []
| spr_quiet_no p l ts vs s s' v' k :
    ignores p = true -> does env p TNil VNil s FAILURE s' v' k ->
    spread env (p :: l) ts vs s FAILURE s' vs k
| spr_quiet p l ts vs s s1 v' k1 r s' vs' k :
    ignores p = true -> does env p TNil VNil s SUCCESS s1 v' k1 ->
    spread env l ts vs s1 r s' vs' k ->
    spread env (p :: l) ts vs s r s' vs' (k1 ++ k)
| spr_no p l t ts v vs s s' v' k :
    ignores p = false -> does env p t v s FAILURE s' v' k ->
    spread env (p :: l) (t :: ts) (v :: vs) s FAILURE s' (v' :: vs) k
| spr_next p l t ts v vs s s1 v1 k1 r s' vs' k :
    ignores p = false -> does env p t v s SUCCESS s1 v1 k1 ->
    spread env l ts vs s1 r s' vs' k ->
    spread env (p :: l) (t :: ts) (v :: vs) s r s' (v1 :: vs') (k1 ++ k).

(** The same with one object for all the parts that emit a value. *)
Inductive chained (env : nat -> option pat) :
  list pat -> ty -> val -> list Z -> result -> list Z -> val -> list event -> Prop :=
| chn_end t v s : chained env [] t v s SUCCESS s v []
| chn_quiet_no p l t v s s' v' k :
    ignores p = true -> does env p TNil VNil s FAILURE s' v' k ->
    chained env (p :: l) t v s FAILURE s' v k
| chn_quiet p l t v s s1 v1 k1 r s' v' k :
    ignores p = true -> does env p TNil VNil s SUCCESS s1 v1 k1 ->
    chained env l t v s1 r s' v' k -> chained env (p :: l) t v s r s' v' (k1 ++ k)
| chn_no p l t v s s' v' k :
    ignores p = false -> does env p t v s FAILURE s' v' k ->
    chained env (p :: l) t v s FAILURE s' v' k
| chn_next p l t v s s1 v1 k1 r s' v' k :
    ignores p = false -> does env p t v s SUCCESS s1 v1 k1 ->
    chained env l t v1 s1 r s' v' k -> chained env (p :: l) t v s r s' v' (k1 ++ k).

(** No action of the pattern uses the destination bound around it ([p.bound_dst]). *)
Fixpoint unbound (p : pat) : bool :=
  match p with
  | Seq l | Alt l => forallb unbound l
  | Repeat _ _ q | Not q | Opt q | Discard q | Lexeme q | WithSkipper q _ | Construct _ q => unbound q
  | Act a q => negb (ac_param a) && unbound q
  | Except q n => unbound q && unbound n
  | PList q s => unbound q && unbound s
  | _ => true
  end.
Definition all_unbound (env : nat -> option pat) : Prop :=
  forall id q, env id = Some q -> unbound q = true.

(** What [dst = x] makes of an object of type [t] that holds [v]: collections get [x]
    appended, everything else is replaced; [x] is converted first. *)
Inductive stored : ty -> val -> val -> val -> Prop :=
| sto_nil v x : stored TNil v x v
| sto_coll e l x y : conv e x = Done y -> stored (TColl e) (VColl l) x (VColl (l ++ [y]))
| sto_value t v x y : t <> TNil -> (forall e, t <> TColl e) -> conv t x = Done y -> stored t v x y.

(** What calling [a] with [x] makes of the destination, which is also the bound one. *)
Inductive called (a : action) (t : ty) (v x : val) : val -> Prop :=
| cal_void r b : ac_param a = false -> ac_void a = true -> ac_fun a x VNil = (r, b) -> called a t v x v
| cal_value r b v' : ac_param a = false -> ac_void a = false -> ac_fun a x VNil = (r, b) ->
    stored t v r v' -> called a t v x v'
| cal_bound_void r b : ac_param a = true -> ac_void a = true ->
    ac_fun a x (match t with TNil => VNil | _ => v end) = (r, b) ->
    (t <> TNil -> has_ty t b = true) -> called a t v x (match t with TNil => v | _ => b end)
| cal_bound_value r b v' : ac_param a = true -> ac_void a = false ->
    ac_fun a x (match t with TNil => VNil | _ => v end) = (r, b) ->
    (t <> TNil -> has_ty t b = true) -> stored t (match t with TNil => v | _ => b end) r v' -> called a t v x v'.

(** An object of type [t] made from the values of [args] (std::make_from_tuple). *)
Inductive made : ty -> list val -> val -> Prop :=
| mad_nil0 : made TNil [] VNil
| mad_nil1 x : made TNil [x] VNil
| mad_num s b x y : conv (TNum s b) x = Done y -> made (TNum s b) [x] y
| mad_tuple ts xs y : conv (TTuple ts) (VTuple xs) = Done y -> made (TTuple ts) xs y
| mad_user id xs : made (TUser id) xs (VUser id xs).

(** The pattern does not start by setting a skipper. *)
Fixpoint sets_skipper (p : pat) : bool :=
  match p with
  | WithSkipper q s => negb (is_fail s) || sets_skipper q
  | Discard q | Lexeme q => sets_skipper q
  | _ => false
  end.
