(** When what was read so far does not settle yet what a primitive pattern answers. *)
From Coq Require Import List ZArith Bool Arith.
From Verif Require Import Base CharSet Dst Pattern SpecPeg.
Import ListNotations.

(** Is [s] a beginning of [l] with something missing? *)
Definition short_of (s l : list Z) : Prop := exists c b, l = s ++ c :: b.

(** Digits only, and fewer of them than may be taken ([hi <= 0]: any number). *)
Definition more_digits (b hi : Z) (s : list Z) : Prop :=
  Forall (fun z => is_digit b z = true) s /\ (0 < hi -> Z.of_nat (length s) < hi)%Z.

(** The next character may change the answer of [p], if [s] is what it has seen. *)
Definition unsettled (p : pat) (s : list Z) : Prop :=
  match p with
  | Char _ | CharSymbol _ | Eoi => s = []
  | Lit L => short_of s L
  | Symbol e => s = [] \/ exists key x, In (key, x) e /\ short_of s key
  | UInt b _ hi => more_digits b hi s
  | Int b _ hi => more_digits b hi (unsigned s)
  | _ => False
  end.

(** The patterns this is about. *)
Definition primitive (p : pat) : bool :=
  match p with
  | Char _ | CharSymbol _ | Eoi | Pass | Fail | Lit _ | Symbol _ => true
  | UInt b _ _ | Int b _ _ => ((2 <=? b) && (b <=? 35))%Z
  | _ => false
  end.
