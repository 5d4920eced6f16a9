(** JSON, as far as integers go (which may have a sign '+' and leading zeros): values, the texts that stand for them, and the objects a
    program might hold them in (used by C59). *)
From Coq Require Import String List ZArith Bool Arith.
From Verif Require Import Base CharSet Dst Pattern Parser Demo SpecPeg SpecLeaf.
Import ListNotations.

Inductive json : Type :=
| JNull
| JBool (b : bool)
| JNum (z : Z)
| JStr (s : list Z)
| JArr (l : list json)
| JObj (l : list (list Z * json)).

Definition white (z : Z) : bool := existsb (Z.eqb z) [32; 9; 13; 10]%Z.
Definition blanks (b : list Z) : Prop := Forall (fun z => white z = true) b.

(** The inside of a string: any character behind a backslash; others but quotation marks and
    backslashes also on their own. *)
Inductive jchars : list Z -> list Z -> Prop :=
| jc_end : jchars [] []
| jc_plain z s c : z <> chr """" -> z <> chr "\" -> jchars s c -> jchars (z :: s) (z :: c)
| jc_escaped z s c : jchars s c -> jchars (z :: s) (chr "\" :: z :: c).

(** Digits, and the number they are with a sign or none in front. *)
Definition digits10_of (ds : list Z) : Prop := Forall (fun z => is_digit 10 z = true) ds /\ ds <> [].
Definition signed (sg ds : list Z) : Z := if negative sg then (- value 10 ds)%Z else value 10 ds.

(** The texts of values, with gaps behind words, signs, numbers and strings. *)
Section Text.
Context (G : list Z -> Prop).
Definition gstring (s u : list Z) : Prop := exists c b, jchars s c /\ G b /\ u = txt """" ++ c ++ txt """" ++ b.
(** A word or a sign, and a gap behind it. *)
Definition gword (x : string) (u : list Z) : Prop := exists b, G b /\ u = txt x ++ b.

Inductive gtext : json -> list Z -> Prop :=
| jt_null u : gword "null" u -> gtext JNull u
| jt_true u : gword "true" u -> gtext (JBool true) u
| jt_false u : gword "false" u -> gtext (JBool false) u
| jt_num sg ds b : sg = [] \/ sg = txt "-" \/ sg = txt "+" -> digits10_of ds -> G b -> gtext (JNum (signed sg ds)) (sg ++ ds ++ b)
| jt_str s u : gstring s u -> gtext (JStr s) u
| jt_arr_empty a c : gword "[" a -> gword "]" c -> gtext (JArr []) (a ++ c)
| jt_arr j l a u w c : gword "[" a -> gtext j u -> gtail l w -> gword "]" c -> gtext (JArr (j :: l)) (a ++ u ++ w ++ c)
| jt_obj_empty a c : gword "{" a -> gword "}" c -> gtext (JObj []) (a ++ c)
| jt_obj f l a u w c : gword "{" a -> gfield f u -> gftail l w -> gword "}" c -> gtext (JObj (f :: l)) (a ++ u ++ w ++ c)
with gtail : list json -> list Z -> Prop :=
| jl_end : gtail [] []
| jl_more j l a u w : gword "," a -> gtext j u -> gtail l w -> gtail (j :: l) (a ++ u ++ w)
with gfield : list Z * json -> list Z -> Prop :=
| jf_field s j u a w : gstring s u -> gword ":" a -> gtext j w -> gfield (s, j) (u ++ a ++ w)
with gftail : list (list Z * json) -> list Z -> Prop :=
| fl_end : gftail [] []
| fl_more f l a u w : gword "," a -> gfield f u -> gftail l w -> gftail (f :: l) (a ++ u ++ w).
End Text.
Arguments jt_num {G}.

(** JSON: gaps are blanks. *)
Notation jstring := (gstring blanks).
Notation jword := (gword blanks).
Notation jtext := (gtext blanks).
Notation jtail := (gtail blanks).
Notation jfield := (gfield blanks).
Notation ftail := (gftail blanks).

(** The class of JSON values, number 0, made from nothing, an int, or an object of the classes
    1 to 5: true, false (no members), strings (of a vector of characters), arrays (of a vector
    of JSON values) and objects (of a vector of pairs). *)
Fixpoint jval (j : json) : val :=
  match j with
  | JNull => VUser 0 []
  | JBool true => VUser 0 [VUser 1 []]
  | JBool false => VUser 0 [VUser 2 []]
  | JNum z => VUser 0 [VNum z]
  | JStr s => VUser 0 [VUser 3 [ints s]]
  | JArr l => VUser 0 [VUser 4 [VColl (map jval l)]]
  | JObj l => VUser 0 [VUser 5 [VColl (map (fun f => VTuple [ints (fst f); jval (snd f)]) l)]]
  end.

(** The numbers in it are values of type int, but not the least. *)
Fixpoint jfits (j : json) : Prop :=
  match j with
  | JNum z => (- 2 ^ 31 < z < 2 ^ 31)%Z
  | JArr l => fold_right and True (map jfits l)
  | JObj l => fold_right and True (map (fun f => jfits (snd f)) l)
  | _ => True
  end.

(** JSON with comments: gaps are made of blanks, /* .. */ (up to the first asterisk with a slash
    behind it) and // .. (up to the end of the line). *)
Inductive commented : list Z -> Prop :=
| cm_end : commented []
| cm_blank z b : white z = true -> commented b -> commented (z :: b)
| cm_block c b : (forall x y, c <> x ++ txt "*/" ++ y) -> commented b -> commented (txt "/*" ++ c ++ txt "*/" ++ b)
| cm_line c b : ~ In 10%Z c -> commented b -> commented (txt "//" ++ c ++ 10%Z :: b).
