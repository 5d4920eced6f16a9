(** How often parse() steps its iterator forward.

    A range whose iterators count: every [++it] of the parser is noted, whether the character
    is kept or given back later.  Nothing else about the range changes. *)
From Coq Require Import List ZArith Bool Arith.
From Verif Require Import Base CharSet Source Dst Pattern Parser Session.
Import ListNotations.

Definition counted {S : Type} (o : source_ops S) : source_ops (S * nat) := {|
  so_empty := fun s => so_empty o (fst s);
  so_final := fun s => so_final o (fst s);
  so_next := fun s => so_next o (fst s);
  so_advance := fun s => obind (so_advance o (fst s)) (fun x => Done (x, Datatypes.S (snd s)));
  so_prepare := fun s => (so_prepare o (fst s), snd s);
  so_commit := fun s => obind (so_commit o (fst s)) (fun x => Done (x, snd s));
  so_cancel := fun s => obind (so_cancel o (fst s)) (fun x => Done (x, snd s));
  so_resumable := so_resumable o |}.

(** parse(b, e, pat, dst) with such iterators: the answer, and the number of steps. *)
Definition parse_counted (env : nat -> option pat) (n : nat) (t : ty) (v : val) (p : pat) (inp : list Z)
  : outcome (result * nat) :=
  match top_run (counted sf_ops) env n t p (World (sf_make inp, 0) [v] []) with
  | Done ((r, _), w) => Done (r, snd (w_src w))
  | Err e => Err e
  end.

(** No Recur in the pattern. *)
Fixpoint plain (p : pat) : bool :=
  match p with
  | Recur _ _ => false
  | Seq l | Alt l => forallb plain l
  | Repeat _ _ q | Not q | Opt q | Discard q | Lexeme q | BindDst q | Construct _ q | Act _ q => plain q
  | WithSkipper q s => plain q && plain s
  | Except q r | PList q r => plain q && plain r
  | _ => true
  end.

(** How deep the loops are nested: repetitions without an upper bound, lists, numbers
    without a limit on the digits, and skipping, which is a loop in front of every part.
    [k]: of the skipper in force. *)
Fixpoint depth (k : nat) (p : pat) : nat :=
  match p with
  | UInt _ _ hi | Int _ _ hi => Nat.max k (if (0 <? hi)%Z then 0 else 1)
  | Seq l | Alt l => fold_right Nat.max k (map (depth k) l)
  | Repeat _ hi q => if hi =? 0 then S (depth k q) else depth k q
  | PList q s => S (Nat.max (depth k q) (depth k s))
  | Except q r => Nat.max (depth k q) (depth k r)
  | Not q | Opt q | Discard q | BindDst q | Construct _ q | Act _ q => depth k q
  | Lexeme q => Nat.max k (depth 0 q)
  | WithSkipper q s => Nat.max k (if is_fail s then depth 0 q else depth (S (depth 0 s)) q)
  | _ => k
  end.

(** A closer look.  With a text of [n] characters, a part that matches takes of the order of
    [len * n^g_each + n^g_more] steps, where [len] is the length of what it matches, and at
    most of the order of [n^g_all]; a part that does not match, [n^g_fail]. *)
Record growth := Growth { g_each : nat; g_more : nat; g_all : nat; g_fail : nat }.

Definition later (k : nat) (g : growth) : growth :=
  Growth (g_each g) (Nat.max k (g_more g)) (Nat.max k (g_all g)) (Nat.max k (g_fail g)).

Fixpoint grows (k : nat) (p : pat) : growth :=
  later k
  match p with
  | UInt _ _ hi | Int _ _ hi => Growth 0 0 (if (0 <? hi)%Z then 0 else 1) 0
  | Seq l =>
    (fix go l := match l with
     | [] => Growth 0 0 0 0
     | [q] => grows k q
     | q :: l' => let a := grows k q in let b := go l' in
       Growth (Nat.max (g_each a) (g_each b)) (Nat.max (g_more a) (g_more b)) (Nat.max (g_all a) (g_all b))
              (Nat.max (g_fail a) (Nat.max (g_all a) (g_fail b)))
     end) l
  | Alt l =>
    (fix go l := match l with
     | [] => Growth 0 0 0 0
     | [q] => grows k q
     | q :: l' => let a := grows k q in let b := go l' in
       Growth (Nat.max (g_each a) (g_each b)) (Nat.max (g_more a) (Nat.max (g_fail a) (g_more b)))
              (Nat.max (g_all a) (Nat.max (g_fail a) (g_all b))) (Nat.max (g_fail a) (g_fail b))
     end) l
  | Repeat lo hi q =>
    let a := grows k q in
    let fail := if lo =? 0 then 0 else Nat.max (g_all a) (g_fail a) in
    if hi =? 0
    then let e := Nat.max (g_each a) (g_more a) in Growth e (g_fail a) (Nat.max (S e) (g_fail a)) fail
    else Growth (g_each a) (Nat.max (g_more a) (g_fail a)) (Nat.max (g_all a) (g_fail a)) fail
  | Not q => let a := grows k q in Growth 0 (g_fail a) (g_fail a) (g_all a)
  | Opt q => let a := grows k q in Growth (g_each a) (Nat.max (g_more a) (g_fail a)) (Nat.max (g_all a) (g_fail a)) 0
  | Discard q | BindDst q | Construct _ q | Act _ q => grows k q
  | Lexeme q => grows 0 q
  | WithSkipper q s =>
    if is_fail s then grows 0 q
    else let a := grows 0 s in grows (Nat.max (S (Nat.max (g_each a) (g_more a))) (g_fail a)) q
  | Except q r =>
    let a := grows k q in let b := grows k r in
    Growth (g_each a) (Nat.max (g_fail b) (g_more a)) (Nat.max (g_fail b) (g_all a)) (Nat.max (g_all b) (Nat.max (g_fail b) (g_fail a)))
  | PList q s =>
    let a := grows k q in let b := grows k s in
    let e := Nat.max (Nat.max (g_each a) (g_more a)) (Nat.max (g_each b) (g_more b)) in
    let m := Nat.max (Nat.max (g_more a) (g_more b)) (Nat.max (g_all b) (Nat.max (g_fail a) (g_fail b))) in
    Growth e m (Nat.max (S e) m) 0
  | _ => Growth 0 0 0 0
  end.

(** Of parse(): matching or not. *)
Definition order (p : pat) : nat := Nat.max (g_all (grows 0 p)) (g_fail (grows 0 p)).

(** [f] grows at most like the [d]th power of the length. *)
Definition within (d : nat) (f : list Z -> nat -> Prop) : Prop :=
  exists c, forall inp k, f inp k -> k <= c * (length inp + 1) ^ d.
