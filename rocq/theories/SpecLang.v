(** Specification: the context-free reading of a pattern - the texts one can write for it,
    without any order among alternatives and without greed - and the patterns in which the
    next character decides how to go on.

    Only single characters are skipped here; [ws] tells which. *)
From Coq Require Import List ZArith Bool Arith.
From Verif Require Import Base CharSet Source Dst Pattern Parser Session SpecSession SpecPeg SpecRun.
Import ListNotations.

(** What comes next in a text, skippable characters aside. *)
Definition next (ws : Z -> bool) (s : list Z) : option Z := hd_error (trim (chars ws) s).

(** Skippers of single characters, and the characters they pass over. *)
Fixpoint onechars (skp : pat) : bool :=
  match skp with
  | Char _ => true
  | Discard q | Lexeme q => onechars q
  | Alt l => forallb onechars l
  | _ => false
  end.
Fixpoint passes1 (skp : pat) (z : Z) : bool :=
  match skp with
  | Char cs => member cs z
  | Discard q | Lexeme q => passes1 q z
  | Alt l => existsb (fun q => passes1 q z) l
  | _ => false
  end.
Definition none : Z -> bool := fun _ => false.
(** Every skipper in the pattern is one. *)
Fixpoint onechar_skippers (p : pat) : bool :=
  match p with
  | WithSkipper q skp => onechars skp && onechar_skippers q
  | Seq l | Alt l => forallb onechar_skippers l
  | Repeat _ _ q | Not q | Opt q | Discard q | Lexeme q | BindDst q | Construct _ q | Act _ q => onechar_skippers q
  | Except q n | PList q n => onechar_skippers q && onechar_skippers n
  | _ => true
  end.

(** A set of characters, as a set of next characters. *)
Definition among (cs : charset) (o : option Z) : Prop := exists y, o = Some y /\ in_set cs y.

(** Patterns that match one character of a set. *)
Fixpoint onechar (p : pat) : option charset :=
  match p with
  | Char cs => Some cs
  | Discard q | BindDst q | Act _ q => onechar q
  | _ => None
  end.

(** [tok] behind skippable characters. *)
Definition lead (ws : Z -> bool) (w tok : list Z) : Prop :=
  exists b, w = b ++ tok /\ Forall (fun z => ws z = true) b /\ trim (chars ws) tok = tok.

(** What is written: one pattern, the parts of a sequence, [n] times the same, what follows
    an element of a list. *)
Inductive form : Type :=
| FOne (p : pat)
| FAll (l : list pat)
| FRow (n : nat) (p : pat)
| FMore (p sep : pat).

Section Lang.
Context (env : nat -> option pat).

Inductive lang : (Z -> bool) -> form -> list Z -> Prop :=
| l_char ws cs y w : lead ws w [y] -> in_set cs y -> lang ws (FOne (Char cs)) w
| l_eoi ws w : lead ws w [] -> lang ws (FOne Eoi) w
| l_pass ws : lang ws (FOne Pass) []
| l_lit ws l w : lead ws w l -> lang ws (FOne (Lit l)) w
| l_sym ws e k v w : lead ws w k -> In (k, v) e -> lang ws (FOne (Symbol e)) w
| l_uint ws b lo hi ds w :
    lead ws w ds -> Forall (fun z => is_digit b z = true) ds ->
    (lo <= Z.of_nat (length ds))%Z -> (0 < hi -> Z.of_nat (length ds) <= hi)%Z ->
    lang ws (FOne (UInt b lo hi)) w
| l_int ws b lo hi sg ds w :
    lead ws w (sg ++ ds) -> sg = [] \/ sg = [45%Z] \/ sg = [43%Z] -> Forall (fun z => is_digit b z = true) ds ->
    (lo <= Z.of_nat (length ds))%Z -> (0 < hi -> Z.of_nat (length ds) <= hi)%Z ->
    lang ws (FOne (Int b lo hi)) w

| l_seq ws l w : lang ws (FAll l) w -> lang ws (FOne (Seq l)) w
| l_all_end ws : lang ws (FAll []) []
| l_all ws p l w1 w2 : lang ws (FOne p) w1 -> lang ws (FAll l) w2 -> lang ws (FAll (p :: l)) (w1 ++ w2)
| l_alt ws l p w : In p l -> lang ws (FOne p) w -> lang ws (FOne (Alt l)) w

| l_repeat ws lo hi n p w :
    lang ws (FRow n p) w -> lo <= n -> (hi <> 0 -> n <= hi) -> lang ws (FOne (Repeat lo hi p)) w
| l_row_end ws p : lang ws (FRow 0 p) []
| l_row ws n p w1 w2 : lang ws (FOne p) w1 -> lang ws (FRow n p) w2 -> lang ws (FRow (S n) p) (w1 ++ w2)

| l_opt_no ws p : lang ws (FOne (Opt p)) []
| l_opt ws p w : lang ws (FOne p) w -> lang ws (FOne (Opt p)) w
| l_list_no ws p sep : lang ws (FOne (PList p sep)) []
| l_list ws p sep w1 w2 : lang ws (FOne p) w1 -> lang ws (FMore p sep) w2 -> lang ws (FOne (PList p sep)) (w1 ++ w2)
| l_more_end ws p sep : lang ws (FMore p sep) []
| l_more ws p sep w1 w2 w3 :
    lang ws (FOne sep) w1 -> lang ws (FOne p) w2 -> lang ws (FMore p sep) w3 -> lang ws (FMore p sep) (w1 ++ w2 ++ w3)

(** !p writes nothing; p - q writes what p does, unless it starts with a character of q. *)
| l_not ws p : lang ws (FOne (Not p)) []
| l_except ws p q w :
    lang ws (FOne p) w -> (forall cs, onechar q = Some cs -> ~ among cs (next ws w)) -> lang ws (FOne (Except p q)) w

| l_skipper ws p skp w w' : lead ws w w' -> lang (passes1 skp) (FOne p) w' -> lang ws (FOne (WithSkipper p skp)) w
| l_lexeme ws p w w' : lead ws w w' -> lang none (FOne p) w' -> lang ws (FOne (Lexeme p)) w
| l_discard ws p w : lang ws (FOne p) w -> lang ws (FOne (Discard p)) w
| l_bind ws p w : lang ws (FOne p) w -> lang ws (FOne (BindDst p)) w
| l_construct ws a p w : lang ws (FOne p) w -> lang ws (FOne (Construct a p)) w
| l_act ws a p w : lang ws (FOne p) w -> lang ws (FOne (Act a p)) w
| l_recur ws id b q w : env id = Some q -> lang ws (FOne q) w -> lang ws (FOne (Recur id b)) w.
End Lang.

(** ** One character ahead *)
Section Ahead.
(** Assumed of the Recur patterns: which ones can be written with nothing, the characters
    they start with, those that may follow them (below a lexeme and elsewhere), and an order
    in which they call each other in front of everything else. *)
Context (nul : nat -> bool) (fst_of : nat -> option Z -> Prop) (fol : bool -> nat -> option Z -> Prop) (rank : nat -> nat).
(** The definitions of the Recur patterns; the characters skipped outside of lexemes. *)
Context (env : nat -> option pat) (ws : Z -> bool).

(** Can be written with nothing, whatever follows. *)
Fixpoint null (p : pat) : bool :=
  match p with
  | Pass | Opt _ | PList _ _ => true
  | Lit l => length l =? 0
  | UInt _ lo _ => (lo <=? 0)%Z
  | Seq l => forallb null l
  | Alt l => existsb null l
  | Repeat lo _ _ => lo =? 0
  | Discard q | Lexeme q | BindDst q | Construct _ q | Act _ q | Except q _ => null q
  | Recur id _ => nul id
  | _ => false
  end.

(** Looks at the next character without taking it. *)
Definition look (p : pat) : bool := match p with Not _ => true | _ => false end.

(** Takes at least one character. *)
Fixpoint takes (p : pat) : bool :=
  match p with
  | Char _ | Fail => true
  | Lit l => negb (length l =? 0)
  | UInt _ lo _ | Int _ lo _ => (1 <=? lo)%Z
  | Seq l => existsb takes l
  | Alt l => forallb takes l
  | Repeat lo _ q => (1 <=? lo) && takes q
  | Discard q | Lexeme q | BindDst q | Construct _ q | Act _ q | Except q _ => takes q
  | _ => false
  end.

(** The characters it can start with ([None]: the end of the text); for what only looks, the
    ones that may come next. *)
Fixpoint fst_set (p : pat) (o : option Z) : Prop :=
  match p with
  | Char cs => among cs o
  | Eoi => o = None
  | Lit l => o <> None /\ o = hd_error l
  | Symbol e => exists k v, In (k, v) e /\ o <> None /\ o = hd_error k
  | UInt b _ _ => exists y, o = Some y /\ is_digit b y = true
  | Int b _ _ => exists y, o = Some y /\ (is_digit b y = true \/ y = 45%Z \/ y = 43%Z)
  | Seq l =>
    (fix go (l : list pat) : Prop :=
       match l with
       | [] => False
       | q :: t => if look q then fst_set q o /\ (forallb null t = true \/ go t)
                   else fst_set q o \/ null q = true /\ go t
       end) l
  | Alt l => (fix go (l : list pat) : Prop := match l with [] => False | q :: t => fst_set q o \/ go t end) l
  | Not q => match onechar q with Some cs => ~ among cs o | None => True end
  | Except q n => fst_set q o /\ match onechar n with Some cs => ~ among cs o | None => True end
  | Repeat _ _ q | Opt q | PList q _ | Discard q | Lexeme q | BindDst q | Construct _ q | Act _ q => fst_set q o
  | Recur id _ => fst_of id o
  | Pass | Fail | CharSymbol _ | WithSkipper _ _ => False
  end.
Definition fst_all (l : list pat) (o : option Z) : Prop := fst_set (Seq l) o.

(** The sets have nothing in common. *)
Definition apart (A B : option Z -> Prop) : Prop := forall o, A o -> B o -> False.
(** What may come next in front of [l], if [K] may behind it. *)
Definition ahead (l : list pat) (K : option Z -> Prop) (o : option Z) : Prop :=
  fst_all l o \/ forallb null l = true /\ K o.

(** A character that goes on with the token may not follow it. *)
Definition not_next (skip : Z -> bool) (K : option Z -> Prop) (y : Z) : Prop := skip y = false /\ ~ K (Some y).

(** The next character decides, if what comes next behind the pattern is in [K].
    [lex]: below a lexeme. *)
Fixpoint ll (lex : bool) (p : pat) (K : option Z -> Prop) : Prop :=
  let skip := if lex then none else ws in
  match p with
  | Char _ | Pass | Fail | Lit _ => True
  | Eoi => forall o, K o -> o = None
  | Symbol e => (forall v, ~ In ([], v) e) /\
                forall k v k' v' c r, In (k, v) e -> In (k', v') e -> k' = k ++ c :: r -> not_next skip K c
  | UInt b lo hi => (0 < hi /\ lo = hi)%Z \/ forall y, is_digit b y = true -> not_next skip K y
  | Int b lo hi => (1 <= lo)%Z /\ ((0 < hi /\ lo = hi)%Z \/ forall y, is_digit b y = true -> not_next skip K y)
  | Seq l =>
    (fix go (l : list pat) : Prop :=
       match l with
       | [] => True
       | q :: t => ll lex q (ahead t K) /\ go t
       end) l
  | Alt l =>
    (fix go (l : list pat) : Prop :=
       match l with
       | [] => True
       | q :: t => ll lex q K /\ (t <> [] -> null q = false) /\
                   (forall q', In q' t -> apart (fst_set q) (fun o => fst_set q' o \/ null q' = true /\ K o)) /\ go t
       end) l
  | Repeat lo hi q =>
    ll lex q (fun o => fst_set q o \/ K o) /\ null q = false /\ (hi = 0 \/ lo <= hi) /\
    ((hi <> 0 /\ lo = hi) \/ apart (fst_set q) K)
  | Opt q => ll lex q K /\ apart (fst_set q) K
  | PList q sep =>
    ll lex q (fun o => fst_set sep o \/ null sep = true /\ fst_set q o \/ K o) /\
    ll lex sep (fst_set q) /\ null q = false /\ apart (fst_set q) K /\ apart (fst_set sep) K
  | Not q => exists cs, onechar q = Some cs /\ apart (among cs) K
  | Except q n => ll lex q K /\ null q = false /\ takes q = true /\ exists cs, onechar n = Some cs
  | Lexeme q => ll true q (fun o => K o \/ lex = false /\ exists y, o = Some y /\ ws y = true)
  | Discard q | BindDst q | Construct _ q | Act _ q => ll lex q K
  | Recur id _ => env id <> None /\ forall o, K o -> fol lex id o
  | CharSymbol _ | WithSkipper _ _ => False
  end.

(** Recur patterns reached before anything is read are below [k] in the order. *)
Fixpoint front (k : nat) (p : pat) : bool :=
  match p with
  | Seq l =>
    (fix go (l : list pat) : bool :=
       match l with
       | [] => true
       | q :: t => front k q && (if null q || look q then go t else true)
       end) l
  | Alt l => forallb (front k) l
  | Repeat _ _ q | Opt q | PList q _ | Not q | Discard q | Lexeme q | BindDst q | Construct _ q | Act _ q | Except q _ => front k q
  | Recur id _ => rank id <? k
  | _ => true
  end.

(** The definitions of the Recur patterns bear out what is assumed. *)
Definition all_ll : Prop :=
  forall id q, env id = Some q -> nul id = null q /\ (forall o, fst_set q o -> fst_of id o) /\
    front (rank id) q = true /\ forall lex, ll lex q (fol lex id).
End Ahead.

(** There is such a table for the Recur patterns. *)
Definition one_ahead (env : nat -> option pat) (ws : Z -> bool) (p : pat) (K : option Z -> Prop) : Prop :=
  exists nul fst_of fol rank, all_ll nul fst_of fol rank env ws /\ ll nul fst_of fol env ws false p K.

(** A session answers [a], unless its destination goes wrong. *)
Definition session_obeys (env : nat -> option pat) (p : pat) (l : list call) (a : result) : Prop :=
  forall t v, exists o, reaches (fun n => session_seen (run_session env n t v p l)) o /\
  match o with
  | Done (Some (r, _, _)) => r = a
  | Done None => False
  | Err e => dst_error e
  end.
