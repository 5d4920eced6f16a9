(** What the leaves are meant to read: numbers and their rendering. *)
From Coq Require Import List ZArith Bool Decimal DecimalZ.
From Verif Require Import Base CharSet SpecPeg.
Import ListNotations.

(** 0 for what is not a digit. *)
Definition rank (z : Z) : Z := match digit_rank z with Some r => r | None => 0%Z end.

(** The number a row of digits denotes in base [b]; [a]: what was in front of them. *)
Definition value_from (b a : Z) (ds : list Z) : Z := fold_left (fun a z => a * b + rank z)%Z ds a.
Definition value (b : Z) (ds : list Z) : Z := value_from b 0 ds.

(** Signed types of 32 bits and more, for which an overflow is undefined. *)
Definition wide (signed : bool) (bits : Z) : bool := signed && (32 <=? bits)%Z.

(** Building up [x] in an object of such a type does not overflow. *)
Definition safe (signed : bool) (bits x : Z) : Prop := wide signed bits = true -> (x <= ty_max signed bits)%Z.

(** The sign in front. *)
Definition negative (s : list Z) : bool := match s with z :: _ => (z =? 45)%Z | [] => false end.

(** Decimal rendering: the digits Coq's library gives, with '-' in front. *)
Fixpoint spell (u : uint) : list Z :=
  match u with
  | Nil => []
  | D0 u => 48 :: spell u | D1 u => 49 :: spell u | D2 u => 50 :: spell u | D3 u => 51 :: spell u
  | D4 u => 52 :: spell u | D5 u => 53 :: spell u | D6 u => 54 :: spell u | D7 u => 55 :: spell u
  | D8 u => 56 :: spell u | D9 u => 57 :: spell u
  end%Z.
Definition dec (z : Z) : list Z :=
  match Z.to_int z with Pos u => spell u | Neg u => 45%Z :: spell u end.

(** [s] does not go on with a digit. *)
Definition no_digit (b : Z) (s : list Z) : Prop :=
  match s with z :: _ => is_digit b z = false | [] => True end.

(** The digits, lower and upper case, in order. *)
Definition lower : list Z := map Z.of_nat (seq 48 10 ++ seq 97 26).
Definition upper : list Z := map Z.of_nat (seq 48 10 ++ seq 65 26).
