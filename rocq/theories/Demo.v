(** Patterns and texts used by the examples. *)
From Coq Require Import List ZArith Bool Arith String Ascii.
From Verif Require Import Base CharSet Source Dst Pattern Parser Session.
Import ListNotations.

(** The characters of a string. *)
Definition txt (s : string) : list Z := map (fun a => Z.of_nat (nat_of_ascii a)) (list_ascii_of_string s).
Definition chr (s : string) : Z := hd 0%Z (txt s).

(** No Recur is used. *)
Definition noenv : nat -> option pat := fun _ => None.
Definition int32 : ty := TNum true 32.
Definition uint8 : ty := TNum false 8.
Definition char8 : ty := TNum true 8.

(** char_('x') and char_. *)
Definition ch (x : string) : pat := Char (CSingle ct_char (chr x)).
Definition any : pat := Char (CAny ct_char).
(** lit('x'). *)
Definition lc (x : string) : pat := lit_c (chr x).
Definition int_ : pat := Int 10 1 0.
Definition uint_ : pat := UInt 10 1 0.
Definition star (p : pat) : pat := Repeat 0 0 p.
Definition plus (p : pat) : pat := Repeat 1 0 p.
(** char_(" \t\r\n"). *)
Definition ws : pat := Char (set_of_cstr [32; 9; 13; 10; 0])%Z.
(** The pattern of README.md:  apply_skipper('[' >> int_ % ',' >> ']', char_(" \t\r\n")). *)
Definition readme : pat := WithSkipper (Seq [lc "["; PList int_ (lc ","); lc "]"]) ws.
(** Numbers in, numbers out. *)
Definition ints (l : list Z) : val := VColl (map VNum l).
