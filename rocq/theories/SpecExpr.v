(** Specification: when two expressions differ in nothing but parentheses, and what an
    expression recognises, operator by operator as it is written. *)
From Coq Require Import List ZArith Bool Arith.
From Verif Require Import Base CharSet Dst Pattern Expr SpecPeg.
Import ListNotations.

(** (a1 >> .. >> an) >> b, with all parentheses to the right. *)
Fixpoint then_ (a b : expr) : expr :=
  match a with ESeq x y => ESeq x (then_ y b) | _ => ESeq a b end.
Fixpoint or_ (a b : expr) : expr :=
  match a with EAlt x y => EAlt x (or_ y b) | _ => EAlt a b end.

(** The expression with the parentheses of >> and | moved to the right, all the way down. *)
Fixpoint to_the_right (e : expr) : expr :=
  match e with
  | ESeq a b => then_ (to_the_right a) (to_the_right b)
  | EAlt a b => or_ (to_the_right a) (to_the_right b)
  | EList a b => EList (to_the_right a) (to_the_right b)
  | EExcept a b => EExcept (to_the_right a) (to_the_right b)
  | EStar a => EStar (to_the_right a)
  | EPlus a => EPlus (to_the_right a)
  | EOpt a => EOpt (to_the_right a)
  | ENot a => ENot (to_the_right a)
  | ERep lo hi a => ERep lo hi (to_the_right a)
  | EDiscard a => EDiscard (to_the_right a)
  | ELexeme a => ELexeme (to_the_right a)
  | EBind a => EBind (to_the_right a)
  | ESkip a s => ESkip (to_the_right a) (to_the_right s)
  | EAct f a => EAct f (to_the_right a)
  | EAs args a => EAs args (to_the_right a)
  | EPat _ | EChar _ _ | EStr _ | ESet _ => e
  end.

(** They differ in nothing but parentheses. *)
Definition regrouped (e e' : expr) : Prop := to_the_right e = to_the_right e'.

(** From a position to the position behind what was read, or none. *)
Definition reading : Type := list Z -> option (list Z) -> Prop.

(** One character, one string, behind what is skipped. *)
Definition reads_char (ws : gap) (P : Z -> Prop) : reading := fun s r =>
  (exists y t, trim ws s = y :: t /\ P y /\ r = Some t) \/ ((forall y t, trim ws s = y :: t -> ~ P y) /\ r = None).
Definition reads_text (ws : gap) (w : list Z) : reading := fun s r =>
  (exists t, trim ws s = w ++ t /\ r = Some t) \/ ((forall t, trim ws s <> w ++ t) /\ r = None).

(** Both, one after the other; the first that matches. *)
Definition both (A B : reading) : reading := fun s r =>
  (A s None /\ r = None) \/ exists s1, A s (Some s1) /\ B s1 r.
Definition first_of (A B : reading) : reading := fun s r =>
  (exists s1, A s (Some s1) /\ r = Some s1) \/ (A s None /\ B s r).
Definition unless (A B : reading) : reading := fun s r =>
  ((exists s1, B s (Some s1)) /\ r = None) \/ (B s None /\ A s r).
Definition here_unless (A : reading) : reading := fun s r =>
  ((exists s1, A s (Some s1)) /\ r = None) \/ (A s None /\ r = Some s).
Definition if_any (A : reading) : reading := fun s r =>
  (exists s1, A s (Some s1) /\ r = Some s1) \/ (A s None /\ r = Some s).

(** As often as it matches, but [hi] times at most ([0]: no such bound); [n] times so far. *)
Inductive again (A : reading) (lo hi : nat) : nat -> reading :=
| again_stop n s : A s None -> again A lo hi n s (if lo <=? n then Some s else None)
| again_full n s s1 : A s (Some s1) -> S n = hi -> again A lo hi n s (Some s1)
| again_more n s s1 r : A s (Some s1) -> S n <> hi -> again A lo hi (S n) s1 r -> again A lo hi n s r.

(** Behind an element of a list: as many separators with an element as there are. *)
Inductive and_so_on (A B : reading) : reading :=
| so_end s : B s None -> and_so_on A B s (Some s)
| so_trailing s s1 : B s (Some s1) -> A s1 None -> and_so_on A B s (Some s)
| so_more s s1 s2 r : B s (Some s1) -> A s1 (Some s2) -> and_so_on A B s2 r -> and_so_on A B s r.
Definition separated (A B : reading) : reading := fun s r =>
  (A s None /\ r = Some s) \/ exists s1, A s (Some s1) /\ and_so_on A B s1 r.

(** As often as it matches, [lo] times at least; [n] times so far ([f]: the longest that can
    take). *)
Fixpoint as_often (A : list Z -> option (list Z)) (lo f n : nat) (s : list Z) : option (list Z) :=
  match f with
  | 0 => None
  | S f' => match A s with Some t => as_often A lo f' (S n) t | None => if lo <=? n then Some s else None end
  end.
(** Behind what a skipper matches, as it is written; which skippers are meant. *)
Fixpoint passing (k : expr) (s : list Z) : option (list Z) :=
  match k with
  | EPat p => over p s
  | EChar _ c => match s with z :: t => if Z.eqb z c then Some t else None | [] => None end
  | ESet cs => match s with z :: t => if member cs z then Some t else None | [] => None end
  | EStr mem => after_text (c_string mem) s
  | ESeq a b => match passing a s with Some t => passing b t | None => None end
  | EAlt a b => match passing a s with Some t => Some t | None => passing b s end
  | EExcept a b => match passing b s with Some _ => None | None => passing a s end
  | EStar a => as_often (passing a) 0 (S (length s)) 0 s
  | EPlus a => as_often (passing a) 1 (S (length s)) 0 s
  | ERep lo _ a => as_often (passing a) lo (S (length s)) 0 s
  | EDiscard a | ELexeme a => passing a s
  | _ => None
  end.
Fixpoint plain_skipper (k : expr) : bool :=
  match k with
  | EPat _ | EChar _ _ | EStr _ | ESet _ => true
  | ESeq a b | EAlt a b | EExcept a b => plain_skipper a && plain_skipper b
  | EStar a | EPlus a | EDiscard a | ELexeme a => plain_skipper a
  | ERep _ hi a => (hi =? 0) && plain_skipper a
  | _ => false
  end.
Definition blanks (k : expr) : gap := fun s => match passing k s with Some t => length s - length t | None => 0 end.

(** What an expression reads; pattern objects in it by SpecPeg.  [ws] tells what is
    skipped; apply_skipper(a, k) has its own, from where the skipping in front of it ended. *)
Fixpoint written (env : nat -> option pat) (ws : gap) (e : expr) : reading :=
  match e with
  | EPat p => m env ws (One p)
  | EChar _ c => reads_char ws (fun y => y = c)
  | EStr mem => reads_text ws (c_string mem)
  | ESet s => reads_char ws (in_set s)
  | ESeq a b => both (written env ws a) (written env ws b)
  | EAlt a b => first_of (written env ws a) (written env ws b)
  | EList a b => separated (written env ws a) (written env ws b)
  | EExcept a b => unless (written env ws a) (written env ws b)
  | EStar a => again (written env ws a) 0 0 0
  | EPlus a => again (written env ws a) 1 0 0
  | ERep lo hi a => again (written env ws a) lo hi 0
  | EOpt a => if_any (written env ws a)
  | ENot a => here_unless (written env ws a)
  | ELexeme a => fun s r => written env nows a (trim ws s) r
  | EDiscard a | EBind a | EAct _ a | EAs _ a => written env ws a
  | ESkip a k => fun s r => written env (blanks k) a (trim ws s) r
  end.
(** Every skipper in it is written with the above. *)
Fixpoint plain_skippers (e : expr) : bool :=
  match e with
  | ESkip a k => plain_skipper k && plain_skippers a
  | ESeq a b | EAlt a b | EList a b | EExcept a b => plain_skippers a && plain_skippers b
  | EStar a | EPlus a | EOpt a | ENot a | ERep _ _ a | EDiscard a | ELexeme a | EBind a | EAct _ a | EAs _ a => plain_skippers a
  | EPat _ | EChar _ _ | EStr _ | ESet _ => true
  end.
