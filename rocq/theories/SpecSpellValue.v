(** Specification: what can be written for a value, as in SpecWrite.v, between two places of a
    text in which longer texts than characters may be skipped, such as comments (see
    SpecSpell.v). *)
From Coq Require Import List ZArith Bool Arith.
From Verif Require Import Base CharSet Dst Pattern Parser SpecPeg SpecLeaf SpecValue SpecType SpecAttr SpecLang SpecSpell SpecWrite.
Import ListNotations.

Section Spell.
Context (env : nat -> option pat).

(** [sv gp f t v s s' v' k]: between [s] and [s'] stands a text of [f] that takes an object of
    type [t] from [v] to [v'] and stands for the calls [k]. *)
Inductive sv : gap -> vform -> ty -> val -> list Z -> list Z -> val -> list event -> Prop :=
| sv_one gp p t v s s' x v' k :
    atom p = false -> sv gp (WOne false p) (value_ty t) (default_init (value_ty t)) s s' x k ->
    stored t v x v' -> sv gp (WOne true p) t v s s' v' k

| sv_char gp o cs t v y s s' v' :
    trim gp s = y :: s' -> in_set cs y -> stored t v (VNum y) v' -> sv gp (WOne o (Char cs)) t v s s' v' []
| sv_eoi gp o t v s : trim gp s = [] -> sv gp (WOne o Eoi) t v s [] v []
| sv_pass gp o t v s : sv gp (WOne o Pass) t v s s v []
| sv_lit gp o l t v s s' : trim gp s = l ++ s' -> sv gp (WOne o (Lit l)) t v s s' v []
| sv_sym gp o e key x t v s s' v' :
    trim gp s = key ++ s' -> In (key, x) e -> stored t v x v' -> sv gp (WOne o (Symbol e)) t v s s' v' []
| sv_uint gp b lo hi t v ds s s' v' :
    trim gp s = ds ++ s' -> Forall (fun z => is_digit b z = true) ds ->
    (lo <= Z.of_nat (length ds))%Z -> (0 < hi -> Z.of_nat (length ds) <= hi)%Z ->
    counted b false ds t v v' -> sv gp (WOne false (UInt b lo hi)) t v s s' v' []
| sv_int gp b lo hi t v sg ds s s' v' :
    trim gp s = (sg ++ ds) ++ s' -> sg = [] \/ sg = [45%Z] \/ sg = [43%Z] -> Forall (fun z => is_digit b z = true) ds ->
    (lo <= Z.of_nat (length ds))%Z -> (0 < hi -> Z.of_nat (length ds) <= hi)%Z ->
    counted b (negative (sg ++ ds)) ds t v v' -> sv gp (WOne false (Int b lo hi)) t v s s' v' []

| sv_seq gp l t v s s' v' k : sv gp (WAll 0 l) t v s s' v' k -> sv gp (WOne false (Seq l)) t v s s' v' k
| sv_all_end gp i t v s : sv gp (WAll i []) t v s s v []
| sv_all gp i q l t v tq vq x v1 s s1 k1 s' v' k :
    part_at q i x t v tq vq v1 -> sv gp (WOne false q) tq vq s s1 x k1 -> sv gp (WAll (after q i) l) t v1 s1 s' v' k ->
    sv gp (WAll i (q :: l)) t v s s' v' (k1 ++ k)
| sv_alt gp o l p t v s s' v' k : In p l -> sv gp (WOne o p) t v s s' v' k -> sv gp (WOne o (Alt l)) t v s s' v' k

| sv_repeat gp lo hi n p t v s s' v' k :
    sv gp (WRow n p) t v s s' v' k -> lo <= n -> (hi <> 0 -> n <= hi) -> sv gp (WOne false (Repeat lo hi p)) t v s s' v' k
| sv_row_end gp p t v s : sv gp (WRow 0 p) t v s s v []
| sv_row gp n p t v s s1 v1 k1 s' v' k :
    sv gp (WOne true p) t v s s1 v1 k1 -> sv gp (WRow n p) t v1 s1 s' v' k ->
    sv gp (WRow (S n) p) t v s s' v' (k1 ++ k)

| sv_opt_no gp o p t v s : sv gp (WOne o (Opt p)) t v s s v []
| sv_opt gp o p t v s s' v' k : sv gp (WOne true p) t v s s' v' k -> sv gp (WOne o (Opt p)) t v s s' v' k
| sv_list_no gp p sep t v s : sv gp (WOne false (PList p sep)) t v s s v []
| sv_list gp p sep t v s s1 v1 k1 s' v' k :
    sv gp (WOne true p) t v s s1 v1 k1 -> sv gp (WMore p sep) t v1 s1 s' v' k ->
    sv gp (WOne false (PList p sep)) t v s s' v' (k1 ++ k)
| sv_more_end gp p sep t v s : sv gp (WMore p sep) t v s s v []
| sv_more gp p sep t v s s1 x k1 s2 v2 k2 s' v' k :
    sv gp (WOne false sep) TNil VNil s s1 x k1 -> sv gp (WOne true p) t v s1 s2 v2 k2 -> sv gp (WMore p sep) t v2 s2 s' v' k ->
    sv gp (WMore p sep) t v s s' v' (k1 ++ k2 ++ k)

| sv_not gp o p t v s :
    (forall cs, onechar p = Some cs -> ~ among cs (upcoming gp s)) -> sv gp (WOne o (Not p)) t v s s v []
| sv_except gp o p q t v s s' v' k :
    sv gp (WOne o p) t v s s' v' k -> (forall cs, onechar q = Some cs -> ~ among cs (upcoming gp s)) ->
    sv gp (WOne o (Except p q)) t v s s' v' k

| sv_lexeme gp o p t v s s' v' k : sv nows (WOne o p) t v (trim gp s) s' v' k -> sv gp (WOne o (Lexeme p)) t v s s' v' k
| sv_discard gp o p t v s s' x k : sv gp (WOne o p) TNil VNil s s' x k -> sv gp (WOne o (Discard p)) t v s s' v k
| sv_bind gp p t v s s' v' k : sv gp (WOne false p) t v s s' v' k -> sv gp (WOne false (BindDst p)) t v s s' v' k
| sv_construct gp o args p t v s s' xs y v' k :
    sv gp (WOne false p) (TTuple args) (value_init (TTuple args)) s s' (VTuple xs) k ->
    made t xs y -> stored t v y v' -> sv gp (WOne o (Construct args p)) t v s s' v' k
| sv_act gp o a p t v s s' x y v' k :
    sv gp (WOne false p) (ac_land a) (default_init (ac_land a)) s s' x k ->
    conv (ac_land a) x = Done y -> ac_param a = false -> called a t v y v' ->
    sv gp (WOne o (Act a p)) t v s s' v' (k ++ [Event (ac_id a) y])
| sv_recur gp id b q t v s s' v' k :
    env id = Some q -> sv gp (WOne false q) t v s s' v' k -> sv gp (WOne false (Recur id b)) t v s s' v' k.
End Spell.
