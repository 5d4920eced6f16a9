(** Which patterns are sure to come to an end: what is repeated or skipped consumes
    something, and a Recur comes back to itself only behind something that does. *)
From Coq Require Import List ZArith Bool Arith.
From Verif Require Import Base CharSet Dst Pattern.
Import ListNotations.

Section Guarded.
(** Assumed of the Recur patterns: which ones consume something, and an order in which they
    call each other without having read anything. *)
Context (eager : nat -> bool) (rank : nat -> nat).

(** Matches no empty text. *)
Fixpoint eats (p : pat) : bool :=
  match p with
  | Char _ | Symbol _ | Fail => true
  | CharSymbol _ | Eoi | Pass | Not _ | Opt _ | PList _ _ => false
  | Lit l => negb (length l =? 0)
  | UInt _ lo _ | Int _ lo _ => (1 <=? lo)%Z
  | Seq l => existsb eats l
  | Alt l => forallb eats l
  | Repeat lo _ q => (1 <=? lo) && eats q
  | Discard q | Lexeme q | WithSkipper q _ | BindDst q | Construct _ q | Act _ q | Except q _ => eats q
  | Recur id _ => eager id
  end.

(** [b]: only Recur patterns of a rank below it may be called before something has been
    read; [None]: any. *)
Fixpoint guarded (b : option nat) (p : pat) : bool :=
  match p with
  | Seq l =>
    (fix go (b : option nat) (l : list pat) : bool :=
       match l with
       | [] => true
       | q :: t => guarded b q && go (if eats q then None else b) t
       end) b l
  | Alt l => forallb (guarded b) l
  | Repeat _ hi q => guarded b q && (negb (hi =? 0) || eats q)
  | Not q | Opt q | Discard q | Lexeme q | BindDst q | Construct _ q | Act _ q => guarded b q
  | WithSkipper q s => guarded b q && (is_fail s || guarded b s && eats s)
  | Except q n => guarded b n && guarded b q
  | PList q sep => guarded b q && guarded (if eats q then None else b) sep && (eats q || eats sep)
  | Recur id _ => match b with None => true | Some k => rank id <? k end
  | _ => true
  end.

(** The definitions of the Recur patterns bear out what is assumed. *)
Definition all_guarded (env : nat -> option pat) : Prop :=
  forall id q, env id = Some q -> guarded (Some (rank id)) q = true /\ (eager id = true -> eats q = true).
End Guarded.
