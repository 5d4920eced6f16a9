(** Specification: the context-free reading of a pattern, as in SpecLang.v, where what is
    skipped may be longer than a character, such as comments.  Whether a text is a comment
    depends on what follows it, so places are given by the text from there on: a pattern can
    be written between the places [s] and [t]. *)
From Coq Require Import List ZArith Bool Arith.
From Verif Require Import Base CharSet Source Dst Pattern Parser SpecPeg SpecLang.
Import ListNotations.

(** What comes next at a place, what can be skipped aside. *)
Definition upcoming (gp : gap) (s : list Z) : option Z := hd_error (trim gp s).

Section Spells.
Context (env : nat -> option pat).

Inductive spells : gap -> form -> list Z -> list Z -> Prop :=
| s_char gp cs y s t : trim gp s = y :: t -> in_set cs y -> spells gp (FOne (Char cs)) s t
| s_eoi gp s : trim gp s = [] -> spells gp (FOne Eoi) s []
| s_pass gp s : spells gp (FOne Pass) s s
| s_lit gp l s t : trim gp s = l ++ t -> spells gp (FOne (Lit l)) s t
| s_sym gp e k v s t : trim gp s = k ++ t -> In (k, v) e -> spells gp (FOne (Symbol e)) s t
| s_uint gp b lo hi ds s t :
    trim gp s = ds ++ t -> Forall (fun z => is_digit b z = true) ds ->
    (lo <= Z.of_nat (length ds))%Z -> (0 < hi -> Z.of_nat (length ds) <= hi)%Z ->
    spells gp (FOne (UInt b lo hi)) s t
| s_int gp b lo hi sg ds s t :
    trim gp s = (sg ++ ds) ++ t -> sg = [] \/ sg = [45%Z] \/ sg = [43%Z] -> Forall (fun z => is_digit b z = true) ds ->
    (lo <= Z.of_nat (length ds))%Z -> (0 < hi -> Z.of_nat (length ds) <= hi)%Z ->
    spells gp (FOne (Int b lo hi)) s t

| s_seq gp l s t : spells gp (FAll l) s t -> spells gp (FOne (Seq l)) s t
| s_all_end gp s : spells gp (FAll []) s s
| s_all gp p l s s1 t : spells gp (FOne p) s s1 -> spells gp (FAll l) s1 t -> spells gp (FAll (p :: l)) s t
| s_alt gp l p s t : In p l -> spells gp (FOne p) s t -> spells gp (FOne (Alt l)) s t

| s_repeat gp lo hi n p s t :
    spells gp (FRow n p) s t -> lo <= n -> (hi <> 0 -> n <= hi) -> spells gp (FOne (Repeat lo hi p)) s t
| s_row_end gp p s : spells gp (FRow 0 p) s s
| s_row gp n p s s1 t : spells gp (FOne p) s s1 -> spells gp (FRow n p) s1 t -> spells gp (FRow (S n) p) s t

| s_opt_no gp p s : spells gp (FOne (Opt p)) s s
| s_opt gp p s t : spells gp (FOne p) s t -> spells gp (FOne (Opt p)) s t
| s_list_no gp p sep s : spells gp (FOne (PList p sep)) s s
| s_list gp p sep s s1 t : spells gp (FOne p) s s1 -> spells gp (FMore p sep) s1 t -> spells gp (FOne (PList p sep)) s t
| s_more_end gp p sep s : spells gp (FMore p sep) s s
| s_more gp p sep s s1 s2 t :
    spells gp (FOne sep) s s1 -> spells gp (FOne p) s1 s2 -> spells gp (FMore p sep) s2 t -> spells gp (FMore p sep) s t

(** Exceptions of a single character. *)
| s_not gp p s : (forall cs, onechar p = Some cs -> ~ among cs (upcoming gp s)) -> spells gp (FOne (Not p)) s s
| s_except gp p q s t :
    spells gp (FOne p) s t -> (forall cs, onechar q = Some cs -> ~ among cs (upcoming gp s)) -> spells gp (FOne (Except p q)) s t

| s_skipper gp p skp s t : spells (passes skp) (FOne p) (trim gp s) t -> spells gp (FOne (WithSkipper p skp)) s t
| s_lexeme gp p s t : spells nows (FOne p) (trim gp s) t -> spells gp (FOne (Lexeme p)) s t
| s_discard gp p s t : spells gp (FOne p) s t -> spells gp (FOne (Discard p)) s t
| s_bind gp p s t : spells gp (FOne p) s t -> spells gp (FOne (BindDst p)) s t
| s_construct gp a p s t : spells gp (FOne p) s t -> spells gp (FOne (Construct a p)) s t
| s_act gp a p s t : spells gp (FOne p) s t -> spells gp (FOne (Act a p)) s t
| s_recur gp id b q s t : env id = Some q -> spells gp (FOne q) s t -> spells gp (FOne (Recur id b)) s t.
End Spells.

(** The characters a skipper can begin with, or more. *)
Fixpoint begins (skp : pat) (z : Z) : bool :=
  match skp with
  | Char cs => member cs z
  | Lit (c :: _) => Z.eqb c z
  | Seq (q :: _) => begins q z
  | Alt l => existsb (fun q => begins q z) l
  | Discard q | Lexeme q => begins q z
  | _ => true
  end.
