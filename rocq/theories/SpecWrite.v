(** Specification: what can be written for a value.

    [wv env ws f t v w v' k]: [w] is a text of [f] that takes an object of type [t] from [v] to
    [v'] and stands for the calls [k].  This is the context-free reading of SpecLang, with the
    values of SpecAttr: alternatives have no order, repetitions are not greedy, and nothing
    that was tried in vain counts. *)
From Coq Require Import List ZArith Bool Arith.
From Verif Require Import Base CharSet Dst Pattern Parser SpecPeg SpecLeaf SpecValue SpecType SpecAttr SpecLang.
Import ListNotations.

(** [one]: as one value, see SpecAttr. *)
Inductive vform : Type :=
| WOne (one : bool) (p : pat)
| WAll (i : nat) (l : list pat)
| WRow (n : nat) (p : pat)
| WMore (p sep : pat).

Section Write.
Context (env : nat -> option pat).

Inductive wv : (Z -> bool) -> vform -> ty -> val -> list Z -> val -> list event -> Prop :=
| w_one ws p t v w x v' k :
    atom p = false -> wv ws (WOne false p) (value_ty t) (default_init (value_ty t)) w x k ->
    stored t v x v' -> wv ws (WOne true p) t v w v' k

| w_char ws o cs t v y w v' :
    lead ws w [y] -> in_set cs y -> stored t v (VNum y) v' -> wv ws (WOne o (Char cs)) t v w v' []
| w_eoi ws o t v w : lead ws w [] -> wv ws (WOne o Eoi) t v w v []
| w_pass ws o t v : wv ws (WOne o Pass) t v [] v []
| w_lit ws o l t v w : lead ws w l -> wv ws (WOne o (Lit l)) t v w v []
| w_sym ws o e key x t v w v' :
    lead ws w key -> In (key, x) e -> stored t v x v' -> wv ws (WOne o (Symbol e)) t v w v' []
| w_uint ws b lo hi t v ds w v' :
    lead ws w ds -> Forall (fun z => is_digit b z = true) ds ->
    (lo <= Z.of_nat (length ds))%Z -> (0 < hi -> Z.of_nat (length ds) <= hi)%Z ->
    counted b false ds t v v' -> wv ws (WOne false (UInt b lo hi)) t v w v' []
| w_int ws b lo hi t v sg ds w v' :
    lead ws w (sg ++ ds) -> sg = [] \/ sg = [45%Z] \/ sg = [43%Z] -> Forall (fun z => is_digit b z = true) ds ->
    (lo <= Z.of_nat (length ds))%Z -> (0 < hi -> Z.of_nat (length ds) <= hi)%Z ->
    counted b (negative (sg ++ ds)) ds t v v' -> wv ws (WOne false (Int b lo hi)) t v w v' []

| w_seq ws l t v w v' k : wv ws (WAll 0 l) t v w v' k -> wv ws (WOne false (Seq l)) t v w v' k
| w_all_end ws i t v : wv ws (WAll i []) t v [] v []
| w_all ws i q l t v tq vq x v1 w1 k1 w2 v' k :
    part_at q i x t v tq vq v1 -> wv ws (WOne false q) tq vq w1 x k1 -> wv ws (WAll (after q i) l) t v1 w2 v' k ->
    wv ws (WAll i (q :: l)) t v (w1 ++ w2) v' (k1 ++ k)
| w_alt ws o l p t v w v' k : In p l -> wv ws (WOne o p) t v w v' k -> wv ws (WOne o (Alt l)) t v w v' k

| w_repeat ws lo hi n p t v w v' k :
    wv ws (WRow n p) t v w v' k -> lo <= n -> (hi <> 0 -> n <= hi) -> wv ws (WOne false (Repeat lo hi p)) t v w v' k
| w_row_end ws p t v : wv ws (WRow 0 p) t v [] v []
| w_row ws n p t v w1 v1 k1 w2 v' k :
    wv ws (WOne true p) t v w1 v1 k1 -> wv ws (WRow n p) t v1 w2 v' k ->
    wv ws (WRow (S n) p) t v (w1 ++ w2) v' (k1 ++ k)

| w_opt_no ws o p t v : wv ws (WOne o (Opt p)) t v [] v []
| w_opt ws o p t v w v' k : wv ws (WOne true p) t v w v' k -> wv ws (WOne o (Opt p)) t v w v' k
| w_list_no ws p sep t v : wv ws (WOne false (PList p sep)) t v [] v []
| w_list ws p sep t v w1 v1 k1 w2 v' k :
    wv ws (WOne true p) t v w1 v1 k1 -> wv ws (WMore p sep) t v1 w2 v' k ->
    wv ws (WOne false (PList p sep)) t v (w1 ++ w2) v' (k1 ++ k)
| w_more_end ws p sep t v : wv ws (WMore p sep) t v [] v []
| w_more ws p sep t v w1 x k1 w2 v2 k2 w3 v' k :
    wv ws (WOne false sep) TNil VNil w1 x k1 -> wv ws (WOne true p) t v w2 v2 k2 -> wv ws (WMore p sep) t v2 w3 v' k ->
    wv ws (WMore p sep) t v (w1 ++ w2 ++ w3) v' (k1 ++ k2 ++ k)

| w_not ws o p t v : wv ws (WOne o (Not p)) t v [] v []
| w_except ws o p q t v w v' k :
    wv ws (WOne o p) t v w v' k -> (forall cs, onechar q = Some cs -> ~ among cs (next ws w)) ->
    wv ws (WOne o (Except p q)) t v w v' k

| w_lexeme ws o p t v w w' v' k : lead ws w w' -> wv none (WOne o p) t v w' v' k -> wv ws (WOne o (Lexeme p)) t v w v' k
| w_discard ws o p t v w x k : wv ws (WOne o p) TNil VNil w x k -> wv ws (WOne o (Discard p)) t v w v k
| w_bind ws p t v w v' k : wv ws (WOne false p) t v w v' k -> wv ws (WOne false (BindDst p)) t v w v' k
| w_construct ws o args p t v w xs y v' k :
    wv ws (WOne false p) (TTuple args) (value_init (TTuple args)) w (VTuple xs) k ->
    made t xs y -> stored t v y v' -> wv ws (WOne o (Construct args p)) t v w v' k
| w_act ws o a p t v w x y v' k :
    wv ws (WOne false p) (ac_land a) (default_init (ac_land a)) w x k ->
    conv (ac_land a) x = Done y -> ac_param a = false -> called a t v y v' ->
    wv ws (WOne o (Act a p)) t v w v' (k ++ [Event (ac_id a) y])
| w_recur ws id b q t v w v' k :
    env id = Some q -> wv ws (WOne false q) t v w v' k -> wv ws (WOne false (Recur id b)) t v w v' k.
End Write.

(** ** Attempts that leave no trace *)
Definition nothing (t : ty) : bool := match t with TNil => true | _ => false end.
Definition countable (t : ty) : bool := match t with TNil | TNum _ _ => true | _ => false end.

(** Takes a character without a trace, for an object of type [t]. *)
Fixpoint hushed (t : ty) (p : pat) : bool :=
  match p with
  | Char _ => nothing t
  | Discard q => hushed TNil q
  | BindDst q => hushed t q
  | _ => false
  end.

Section Calm.
(** Assumed of the Recur patterns: which can be written with nothing; for which types they are
    calm and tidy. *)
Context (nul : nat -> bool) (cal : nat -> ty -> bool -> bool) (tid : nat -> ty -> bool).
Local Notation null := (null nul).

(** What is read as one value has an object of its own. *)
Definition own (one : bool) (p : pat) : bool := one && negb (atom p).
Definition own_ty (one : bool) (p : pat) (t : ty) : ty := if own one p then value_ty t else t.

(** Attempted for an object of type [t] where none of its first characters comes next,
    nobody is called and the object is left alone ([waste]: the object is thrown away). *)
Fixpoint calm (t : ty) (waste one : bool) (p : pat) : bool :=
  let t' := own_ty one p t in
  let waste' := waste || own one p in
  (negb (own one p) || negb (null p) || nothing t) &&
  match p with
  | Char _ | Eoi | Pass | Fail | Lit _ | Symbol _ => true
  | UInt _ _ _ | Int _ _ _ => countable t' && (waste' || nothing t')
  | Seq l =>
    (fix go (i : nat) (l : list pat) : bool :=
       match l with
       | [] => true
       | q :: r => match part_ty t' i q with
                   | Some tq => calm tq waste' false q && (if null q || look q then go (after q i) r else true)
                   | None => false
                   end
       end) 0 l
  | Alt l => forallb (calm t' waste' one) l
  | Repeat _ _ q | Opt q | PList q _ => calm t' waste' true q
  | Not q => hushed t' q
  | Discard q => calm TNil waste' one q
  | Lexeme q => calm t' waste' one q
  | BindDst q => calm t' waste' false q
  | Construct args q => negb (null q) && calm (TTuple args) true false q
  | Act a q => negb (null q) && calm (ac_land a) true false q
  | Except q n => hushed TNil n && calm t' waste' one q
  | Recur id _ => cal id t' waste'
  | CharSymbol _ | WithSkipper _ _ => false
  end.

(** All that is tried in vain while a text of [p] is read for an object of type [t] is calm. *)
Fixpoint tidy (t : ty) (one : bool) (p : pat) : bool :=
  let t' := own_ty one p t in
  match p with
  | Char _ | Eoi | Pass | Fail | Lit _ | Symbol _ | UInt _ _ _ | Int _ _ _ | Not _ => true
  | Seq l =>
    (fix go (i : nat) (l : list pat) : bool :=
       match l with
       | [] => true
       | q :: r => match part_ty t' i q with Some tq => tidy tq false q && go (after q i) r | None => false end
       end) 0 l
  | Alt l => forallb (tidy t' one) l && forallb (calm t' false one) (removelast l)
  | Repeat _ _ q | Opt q => tidy t' true q && calm t' false true q
  | PList q sep => tidy t' true q && calm t' false true q && tidy TNil false sep && calm TNil false false sep
  | Discard q => tidy TNil one q
  | Lexeme q => tidy t' one q
  | BindDst q => tidy t' false q
  | Construct args q => tidy (TTuple args) false q
  | Act a q => tidy (ac_land a) false q
  | Except q _ => tidy t' one q
  | Recur id _ => tid id t'
  | CharSymbol _ | WithSkipper _ _ => false
  end.

Definition all_tidy (env : nat -> option pat) : Prop :=
  forall id q, env id = Some q ->
  (forall t waste, cal id t waste = true -> calm t waste false q = true) /\
  (forall t, tid id t = true -> tidy t false q = true).
End Calm.

(** As [one_ahead], and attempts in vain leave no trace in an object of type [t]. *)
Definition one_ahead_for (env : nat -> option pat) (ws : Z -> bool) (p : pat) (t : ty) (K : option Z -> Prop) : Prop :=
  exists nul fst_of fol rank cal tid,
  all_ll nul fst_of fol rank env ws /\ ll nul fst_of fol env ws false p K /\
  all_tidy nul cal tid env /\ tidy nul cal tid t false p = true.
