(** The patterns of the user guide (docs/guide, README.md), and the text they are for. *)
From Coq Require Import String List ZArith Bool Arith.
From Verif Require Import Base CharSet Dst Pattern SpecPeg SpecLeaf SpecText Demo.
Import ListNotations.

(** [k] digits of base [b]. *)
Definition field (b : Z) (k : nat) (g : list Z) : Prop := length g = k /\ Forall (fun z => is_digit b z = true) g.

(** Characters of [cs], and a text that does not go on with one. *)
Definition word (cs : charset) (s : list Z) : Prop := Forall (in_set cs) s.
Definition stops (cs : charset) (s : list Z) : Prop := forall z rest, s = z :: rest -> ~ in_set cs z.

(** No character is in both sets. *)
Definition apart (a b : charset) : Prop := forall z, in_set a z -> ~ in_set b z.

(** The characters of [cs] among those of [s], in order. *)
Inductive sifted (cs bs : charset) : list Z -> list Z -> Prop :=
| sft_end : sifted cs bs [] []
| sft_keep z s xs : in_set cs z -> sifted cs bs s xs -> sifted cs bs (z :: s) (z :: xs)
| sft_drop z s xs : in_set bs z -> sifted cs bs s xs -> sifted cs bs (z :: s) xs.

(** docs/guide/03_skippers.md: lexeme( *char_(alnum)), the player, and char_(" \r\n\t"). *)
Definition alnum : charset := COr (COr (CRange ct_char 97 122) (CRange ct_char 65 90)) (CRange ct_char 48 57).
Definition blanks : charset := set_of_cstr [32; 13; 10; 9; 0]%Z.
Definition name : pat := Lexeme (star (Char alnum)).
Definition player : pat := WithSkipper (Seq [name; name; uint_]) (Char blanks).

(** docs/guide/08_working_with_structs.md and README.md: the rectangles. *)
Definition pair_ : pat := Construct [int32; int32] (Seq [int_; lc ","; int_]).
Definition rect2 : pat := Construct [int32; int32] (Seq [lc "["; int_; lc ","; int_; lc "]"]).
Definition rect4 : pat :=
  Construct [int32; int32; int32; int32] (Seq [lc "["; int_; lc ","; int_; lc ","; int_; lc ","; int_; lc "]"]).
Definition rectangle : pat := WithSkipper (Alt [rect2; rect4]) ws.

(** docs/guide/06_recursivity.md: my_recur = int_ | ('(' >> my_recur % ',' >> ')'). *)
Definition nest_def : pat := Alt [int_; Seq [lc "("; PList (Recur 0 true) (lc ","); lc ")"]].
Definition nest_env : nat -> option pat := fun id => match id with 0 => Some nest_def | _ => None end.
Definition nest : pat := Recur 0 true.
(** The whole text is one, without and with white space between the tokens. *)
Definition nest_doc : pat := Seq [nest; Eoi].
Definition nest_doc_ws : pat := WithSkipper nest_doc ws.

(** An optional sign and at least one digit. *)
Inductive integer : list Z -> Prop :=
| itg_plain ds : ds <> [] -> Forall (fun z => is_digit 10 z = true) ds -> integer ds
| itg_signed c ds : c = chr "-" \/ c = chr "+" -> ds <> [] -> Forall (fun z => is_digit 10 z = true) ds -> integer (c :: ds).

(** The tokens of a nested list: an integer, or nested lists in parentheses with a comma
    between them. *)
Inductive nested_toks : list (list Z) -> Prop :=
| nst_int t : integer t -> nested_toks [t]
| nst_list ts : listed_toks ts -> nested_toks (txt "(" :: ts ++ [txt ")"])
with listed_toks : list (list Z) -> Prop :=
| lsd_none : listed_toks []
| lsd_some ts : items_toks ts -> listed_toks ts
with items_toks : list (list Z) -> Prop :=
| its_last ts : nested_toks ts -> items_toks ts
| its_more ts us : nested_toks ts -> items_toks us -> items_toks (ts ++ txt "," :: us).

(** A text that is a nested list: its tokens, with blanks around them. *)
Definition nested_text (bl : Z -> Prop) (inp : list Z) : Prop :=
  exists ts b, nested_toks ts /\ spaced bl ts inp b /\ Forall bl b.
Definition no_blank (z : Z) : Prop := False.
