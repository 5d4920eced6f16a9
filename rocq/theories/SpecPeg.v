(** Specification: the parsing-expression-grammar reading of a pattern.

    An input position is the text that is left.  [m env ws g s r]: reading [g] at [s]
    gives [r], the position behind what was matched, or [None].  [ws] tells what is skipped
    in front of everything that is read; without skipper that is nothing.  Nothing here
    mentions objects, marks, destinations or requirements. *)
From Coq Require Import List ZArith Bool Arith.
From Verif Require Import Base CharSet Dst Pattern.
Import ListNotations.

(** The set a character set denotes. *)
Fixpoint in_set (s : charset) (z : Z) : Prop :=
  match s with
  | CAny _ => True
  | CSingle _ c => z = c
  | CRange _ b e => (b <= z <= e)%Z
  | CSet _ l => In z l
  | CDelegated _ f => f z = true
  | CNot a => ~ in_set a z
  | COr a b => in_set a z \/ in_set b z
  end.

(** The same, computed. *)
Fixpoint member (s : charset) (z : Z) : bool :=
  match s with
  | CAny _ => true
  | CSingle _ c => Z.eqb z c
  | CRange _ b e => (b <=? z)%Z && (z <=? e)%Z
  | CSet _ l => existsb (Z.eqb z) l
  | CDelegated _ f => f z
  | CNot a => negb (member a z)
  | COr a b => member a z || member b z
  end.

(** Behind the text [l]. *)
Fixpoint after_text (l s : list Z) : option (list Z) :=
  match l, s with
  | [], _ => Some s
  | x :: l', y :: t => if Z.eqb x y then after_text l' t else None
  | _ :: _, [] => None
  end.

(** Behind what a skipper matches: [char_(..)], texts, [eoi], sequences, alternatives,
    repetitions, [p - q], discard and lexeme of such.  (Nothing is said about other skippers;
    the theorems leave them out.) *)
Fixpoint over (skp : pat) (s : list Z) : option (list Z) :=
  match skp with
  | Char cs => match s with z :: t => if member cs z then Some t else None | [] => None end
  | Lit l => after_text l s
  | Eoi => match s with [] => Some [] | _ => None end
  | Seq l => (fix all (l : list pat) (s : list Z) := match l with
                | [] => Some s
                | q :: l' => match over q s with Some t => all l' t | None => None end
                end) l s
  | Alt l => (fix any (l : list pat) := match l with
                | [] => None
                | q :: l' => match over q s with Some t => Some t | None => any l' end
                end) l
  | Repeat lo _ q => (fix times (f n : nat) (s : list Z) := match f with
                        | 0 => None
                        | S f' => match over q s with Some t => times f' (S n) t | None => if lo <=? n then Some s else None end
                        end) (S (length s)) 0 s
  | Except q n => match over n s with Some _ => None | None => over q s end
  | Discard q | Lexeme q => over q s
  | _ => None
  end.

(** What is skipped: how many characters in front of a text are passed over at once. *)
Definition gap : Type := list Z -> nat.
(** Single characters. *)
Definition chars (w : Z -> bool) : gap := fun s => match s with z :: _ => if w z then 1 else 0 | [] => 0 end.
Definition nows : gap := chars (fun _ => false).
(** What the skipper matches. *)
Definition passes (skp : pat) : gap := fun s => match over skp s with Some t => length s - length t | None => 0 end.

(** 0-9, then a-z in either case. *)
Definition digit_rank (z : Z) : option Z :=
  (if (48 <=? z) && (z <=? 57) then Some (z - 48)
   else if (97 <=? z) && (z <=? 122) then Some (z - 87)
   else if (65 <=? z) && (z <=? 90) then Some (z - 55)
   else None)%Z.
Definition is_digit (b z : Z) : bool :=
  match digit_rank z with Some r => (r <? b)%Z | None => false end.

(** How many digits are in front of [s]. *)
Fixpoint digits (b : Z) (s : list Z) : nat :=
  match s with
  | z :: t => if is_digit b z then S (digits b t) else 0
  | [] => 0
  end.
(** ... and how many of them are taken when there is a maximum ([hi <= 0]: none). *)
Definition taken (b hi : Z) (s : list Z) : nat :=
  if (0 <? hi)%Z then Nat.min (Z.to_nat hi) (digits b s) else digits b s.
Definition number (b lo hi : Z) (s : list Z) : option (list Z) :=
  if (lo <=? Z.of_nat (taken b hi s))%Z then Some (skipn (taken b hi s) s) else None.

(** Behind an optional sign. *)
Definition unsigned (s : list Z) : list Z :=
  match s with
  | z :: t => if ((z =? 45) || (z =? 43))%Z then t else s
  | [] => []
  end.

(** Without the characters to skip: again and again. *)
Fixpoint trim_upto (n : nat) (ws : gap) (s : list Z) : list Z :=
  match n with
  | 0 => s
  | S n' => match ws s with 0 => s | k => trim_upto n' ws (skipn k s) end
  end.
Definition trim (ws : gap) (s : list Z) : list Z := trim_upto (length s) ws s.

(** What is read: one pattern, the rest of a sequence or of an alternative, a repetition
    that has had [n] matches, a separated list behind an element. *)
Inductive goal : Type :=
| One (p : pat)
| All (l : list pat)
| Any (l : list pat)
| Times (lo hi n : nat) (p : pat)
| More (p sep : pat).

Section Peg.
Context (env : nat -> option pat).

Inductive m : gap -> goal -> list Z -> option (list Z) -> Prop :=
| m_char ws cs s y t : trim ws s = y :: t -> in_set cs y -> m ws (One (Char cs)) s (Some t)
| m_char_no ws cs s : (forall y t, trim ws s = y :: t -> ~ in_set cs y) -> m ws (One (Char cs)) s None
| m_eoi ws s : trim ws s = [] -> m ws (One Eoi) s (Some [])
| m_eoi_no ws s : trim ws s <> [] -> m ws (One Eoi) s None
| m_pass ws s : m ws (One Pass) s (Some s)
| m_fail ws s : m ws (One Fail) s None
| m_lit ws l s t : trim ws s = l ++ t -> m ws (One (Lit l)) s (Some t)
| m_lit_no ws l s : (forall t, trim ws s <> l ++ t) -> m ws (One (Lit l)) s None
| m_sym ws e k v s t :
    trim ws s = k ++ t -> In (k, v) e ->
    (forall k' v' t', trim ws s = k' ++ t' -> In (k', v') e -> length k' <= length k) ->
    m ws (One (Symbol e)) s (Some t)
| m_sym_no ws e s :
    (forall k v t, trim ws s = k ++ t -> ~ In (k, v) e) -> m ws (One (Symbol e)) s None
| m_uint ws b lo hi s : m ws (One (UInt b lo hi)) s (number b lo hi (trim ws s))
| m_int ws b lo hi s : m ws (One (Int b lo hi)) s (number b lo hi (unsigned (trim ws s)))

| m_seq ws l s r : m ws (All l) s r -> m ws (One (Seq l)) s r
| m_all_end ws s : m ws (All []) s (Some s)
| m_all_no ws p l s : m ws (One p) s None -> m ws (All (p :: l)) s None
| m_all ws p l s s1 r : m ws (One p) s (Some s1) -> m ws (All l) s1 r -> m ws (All (p :: l)) s r

| m_alt ws l s r : m ws (Any l) s r -> m ws (One (Alt l)) s r
| m_any_end ws s : m ws (Any []) s None
| m_any ws p l s s1 : m ws (One p) s (Some s1) -> m ws (Any (p :: l)) s (Some s1)
| m_any_next ws p l s r : m ws (One p) s None -> m ws (Any l) s r -> m ws (Any (p :: l)) s r

| m_repeat ws lo hi p s r : m ws (Times lo hi 0 p) s r -> m ws (One (Repeat lo hi p)) s r
| m_times_stop ws lo hi n p s :
    m ws (One p) s None -> m ws (Times lo hi n p) s (if lo <=? n then Some s else None)
| m_times_full ws lo hi n p s s1 :
    m ws (One p) s (Some s1) -> S n = hi -> m ws (Times lo hi n p) s (Some s1)
| m_times ws lo hi n p s s1 r :
    m ws (One p) s (Some s1) -> S n <> hi -> m ws (Times lo hi (S n) p) s1 r ->
    m ws (Times lo hi n p) s r

| m_not ws p s s1 : m ws (One p) s (Some s1) -> m ws (One (Not p)) s None
| m_not_no ws p s : m ws (One p) s None -> m ws (One (Not p)) s (Some s)
| m_opt ws p s s1 : m ws (One p) s (Some s1) -> m ws (One (Opt p)) s (Some s1)
| m_opt_no ws p s : m ws (One p) s None -> m ws (One (Opt p)) s (Some s)
| m_except ws p q s s1 : m ws (One q) s (Some s1) -> m ws (One (Except p q)) s None
| m_except_no ws p q s r : m ws (One q) s None -> m ws (One p) s r -> m ws (One (Except p q)) s r

| m_list_none ws p sep s : m ws (One p) s None -> m ws (One (PList p sep)) s (Some s)
| m_list ws p sep s s1 r :
    m ws (One p) s (Some s1) -> m ws (More p sep) s1 r -> m ws (One (PList p sep)) s r
| m_more_end ws p sep s : m ws (One sep) s None -> m ws (More p sep) s (Some s)
| m_more_trailing ws p sep s s1 :
    m ws (One sep) s (Some s1) -> m ws (One p) s1 None -> m ws (More p sep) s (Some s)
| m_more ws p sep s s1 s2 r :
    m ws (One sep) s (Some s1) -> m ws (One p) s1 (Some s2) -> m ws (More p sep) s2 r ->
    m ws (More p sep) s r

| m_lexeme ws p s r : m nows (One p) (trim ws s) r -> m ws (One (Lexeme p)) s r
| m_skipper ws skp p s r : m (passes skp) (One p) (trim ws s) r -> m ws (One (WithSkipper p skp)) s r
| m_discard ws p s r : m ws (One p) s r -> m ws (One (Discard p)) s r
| m_bind ws p s r : m ws (One p) s r -> m ws (One (BindDst p)) s r
| m_construct ws a p s r : m ws (One p) s r -> m ws (One (Construct a p)) s r
| m_act ws a p s r : m ws (One p) s r -> m ws (One (Act a p)) s r
| m_recur ws id b q s r : env id = Some q -> m ws (One q) s r -> m ws (One (Recur id b)) s r.

End Peg.
