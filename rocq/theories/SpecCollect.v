(** Elements stored one after the other: what repetitions, lists, optionals, alternatives
    and Not do to the destination, in terms of their operands. *)
From Coq Require Import List ZArith Bool Arith.
From Verif Require Import Base CharSet Source Dst Pattern Parser Session SpecSession SpecRun SpecValue.
Import ListNotations.

(** The pattern as it is inside apply_skipper(..., sk). *)
Definition under (sk p : pat) : pat := WithSkipper p sk.

(** Exactly one: repeat<1, 1>(p). *)
Definition once (p : pat) : pat := Repeat 1 1 p.

(** From this place, with this in the object, to that place, with that in the object. *)
Definition step : Type := list Z -> val -> list Z -> val -> list event -> Prop.

Definition parses (env : nat -> option pat) (p : pat) (t : ty) (r : result) : step :=
  fun s v s' v' k => does env p t v s r s' v' k.

(** What one element is stored as. *)
Definition elem_ty (t : ty) : ty := match t with TColl e => e | _ => t end.

(** The element, parsed on its own into a fresh object. *)
Definition element (env : nat -> option pat) (q : pat) (t : ty) (s : list Z) (r : result) (s' : list Z) (x : val) (k : list event) : Prop :=
  does env q (elem_ty t) (default_init (elem_ty t)) s r s' x k.
(** It matches and its value is stored (appended, when the object is a collection). *)
Definition appends (env : nat -> option pat) (q : pat) (t : ty) : step :=
  fun s v s' v' k => exists x, element env q t s SUCCESS s' x k /\ stored t v x v'.
(** It does not match and nothing is stored. *)
Definition refuses (env : nat -> option pat) (q : pat) (t : ty) : step :=
  fun s v s' v' k => exists x, element env q t s FAILURE s' x k /\ v' = v.

(** [n] steps in a row. *)
Inductive matches (yes : step) : val -> list Z -> nat -> list Z -> val -> list event -> Prop :=
| mat_none v s : matches yes v s 0 s v []
| mat_one v s s1 k1 v1 n s' v' k :
    yes s v s1 v1 k1 -> matches yes v1 s1 n s' v' k -> matches yes v s (S n) s' v' (k1 ++ k).

(** repeat<lo, hi>(q), [hi = 0] for no upper bound: as many matches as there are, one after
    the other; [stop] relates the place where the element that did not match started, the
    place where it stopped, and the place where the repetition stops. *)
Inductive repeated (yes no : step) (lo hi : nat)
          (stop : list Z -> list Z -> list Z -> Prop) (v : val) (s : list Z) :
  result -> list Z -> val -> list event -> Prop :=
| rpt_full s' v' k :
    hi <> 0 -> matches yes v s hi s' v' k ->
    repeated yes no lo hi stop v s SUCCESS s' v' k
| rpt_stop n s1 v1 k1 s2 v' k2 s' :
    hi = 0 \/ n < hi -> matches yes v s n s1 v1 k1 -> no s1 v1 s2 v' k2 -> stop s1 s2 s' ->
    repeated yes no lo hi stop v s (if lo <=? n then SUCCESS else FAILURE) s' v' (k1 ++ k2).

(** Back to the start of the element, unless the number of elements is fixed. *)
Definition back_unless_fixed (lo hi : nat) (s1 s2 s' : list Z) : Prop :=
  s' = if (lo =? hi) && negb (hi =? 0) then s2 else s1.
Definition anywhere (s1 s2 s' : list Z) : Prop := True.

(** Elements and separators in turn; [m] is the place behind the last element. *)
Inductive items (yes no : step) (sep : result -> list Z -> list Z -> list event -> Prop) :
  list Z -> val -> list Z -> list Z -> val -> list event -> Prop :=
| itm_stop m v s s2 v2 k :
    no s v s2 v2 k -> items yes no sep m v s m v2 k
| itm_last m v s s1 k1 v1 s2 k2 :
    yes s v s1 v1 k1 -> sep FAILURE s1 s2 k2 -> items yes no sep m v s s1 v1 (k1 ++ k2)
| itm_next m v s s1 k1 v1 s2 k2 s' v' k :
    yes s v s1 v1 k1 -> sep SUCCESS s1 s2 k2 ->
    items yes no sep s1 v1 s2 s' v' k -> items yes no sep m v s s' v' (k1 ++ k2 ++ k).

(** parse() without a destination. *)
Definition checks (env : nat -> option pat) (p : pat) (r : result) (s s' : list Z) (k : list event) : Prop :=
  does env p TNil VNil s r s' VNil k.

(** Alternatives one after the other, each starting at the same place with what the ones
    before left in the destination. *)
Inductive tried (env : nat -> option pat) (t : ty) (s : list Z) :
  list pat -> val -> result -> list Z -> val -> list event -> Prop :=
| try_none v : tried env t s [] v FAILURE s v []
| try_this p l v s' v' k :
    does env p t v s SUCCESS s' v' k -> tried env t s (p :: l) v SUCCESS s' v' k
| try_next p l v s1 v1 k1 r s' v' k :
    does env p t v s FAILURE s1 v1 k1 -> tried env t s l v1 r s' v' k ->
    tried env t s (p :: l) v r s' v' (k1 ++ k).

(** The first alternative that matches, run on its own. *)
Definition first_alone (env : nat -> option pat) (t : ty) (l : list pat) (v : val) (s s' : list Z) (v' : val) (k : list event) : Prop :=
  exists l1 p l2 k1 k2, l = l1 ++ p :: l2 /\ k = k1 ++ k2 /\ does env p t v s SUCCESS s' v' k2 /\
    forall q, In q l1 -> exists s1 v1 kq, does env q t v s FAILURE s1 v1 kq.

(** Matches in a row, each parsed on its own into a fresh object: the values, converted to
    the type of the elements. *)
Inductive elements (env : nat -> option pat) (q : pat) (e : ty) : list Z -> list val -> list Z -> list event -> Prop :=
| els_none s : elements env q e s [] s []
| els_one s s1 x k1 y ys s' k :
    does env q e (default_init e) s SUCCESS s1 x k1 -> conv e x = Done y ->
    elements env q e s1 ys s' k -> elements env q e s (y :: ys) s' (k1 ++ k).
(** No match here. *)
Definition no_element (env : nat -> option pat) (q : pat) (e : ty) (s : list Z) (k : list event) : Prop :=
  exists s' x, does env q e (default_init e) s FAILURE s' x k.

(** The same with separators; [m] is where to stop when there is no element at [s]. *)
Inductive separated (env : nat -> option pat) (q sep : pat) (e : ty) : list Z -> list Z -> list val -> list Z -> list event -> Prop :=
| spt_stop m s k : no_element env q e s k -> separated env q sep e m s [] m k
| spt_last m s s1 x k1 y s2 k2 :
    does env q e (default_init e) s SUCCESS s1 x k1 -> conv e x = Done y ->
    checks env sep FAILURE s1 s2 k2 -> separated env q sep e m s [y] s1 (k1 ++ k2)
| spt_next m s s1 x k1 y s2 k2 ys s' k :
    does env q e (default_init e) s SUCCESS s1 x k1 -> conv e x = Done y ->
    checks env sep SUCCESS s1 s2 k2 -> separated env q sep e s1 s2 ys s' k ->
    separated env q sep e m s (y :: ys) s' (k1 ++ k2 ++ k).

(** Patterns that write nothing into their destination; [a]: they are asked to be atomic. *)
Fixpoint quiet (a : bool) (p : pat) : bool :=
  (negb a || f_atomic p) &&
  match p with
  | Eoi | Pass | Fail | Lit _ | Discard _ => true
  | Seq l => forallb (fun q => ignores q || quiet false q) l
  | Alt l => forallb (quiet a) l
  | Repeat _ _ q | Opt q | PList q _ => quiet true q
  | Lexeme q | WithSkipper q _ | Except q _ => quiet a q
  | Not q | BindDst q => quiet false q
  | Act b _ => ac_void b
  | _ => false
  end.

(** Patterns that write nothing into their destination when they fail; [a] as above. *)
Fixpoint careful (a : bool) (p : pat) : bool :=
  (a && negb (f_atomic p)) ||
  match p with
  | Char _ | CharSymbol _ | Symbol _ | Eoi | Pass | Fail | Lit _ | Discard _ | Opt _ | PList _ _ | Act _ _ | Construct _ _ => true
  | Alt l => forallb (careful a) l
  | Lexeme q | WithSkipper q _ | Except q _ => careful a q
  | BindDst q => careful false q
  | Not q => quiet false q
  | Seq l => forallb (fun q => ignores q || quiet false q) l
  | Repeat _ _ q => quiet true q
  | _ => false
  end.

(** A failing parser is back where it was created, when it is asked to be.  (The others, say
    char_, fail behind the text skipped in front of them.) *)
Fixpoint returns (p : pat) : bool :=
  negb (f_clean p) ||
  match p with
  | Not _ | Opt _ | PList _ _ | Pass => true
  | Alt (q :: l) => forallb returns (q :: l)
  | Discard q | Lexeme q | WithSkipper q _ | BindDst q | Construct _ q | Act _ q => returns q
  | _ => false
  end.

(** The same when there is no skipper around it: all but signed integers of one digit and
    patterns that do not return within a skipper of their own. *)
Fixpoint steady (p : pat) : bool :=
  match p with
  | Int _ _ m => negb (m =? 1)%Z
  | Alt l => forallb steady l
  | Discard q | Lexeme q | BindDst q | Construct _ q | Act _ q => steady q
  | WithSkipper q s => returns q || is_fail s && steady q
  | _ => true
  end.
