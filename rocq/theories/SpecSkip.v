(** Skippers: the text they skip, and how they reach the parts of a pattern. *)
From Coq Require Import List ZArith Bool Arith.
From Verif Require Import Base CharSet Source Dst Pattern Parser Session SpecSession SpecRun SpecValue SpecCollect.
Import ListNotations.

(** As many matches of [sk] as there are. *)
Inductive skipped (env : nat -> option pat) (sk : pat) : list Z -> list Z -> Prop :=
| skd_end s s1 : checks env sk FAILURE s s1 [] -> skipped env sk s s
| skd_more s s1 s' : checks env sk SUCCESS s s1 [] -> skipped env sk s1 s' -> skipped env sk s s'.

(** Patterns that read by themselves. *)
Definition leaf (p : pat) : bool :=
  match p with
  | Char _ | CharSymbol _ | Eoi | Pass | Fail | Lit _ | Symbol _ | UInt _ _ _ | Int _ _ _ => true
  | _ => false
  end.

(** The skipper around each part. *)
Definition inside (sk : pat) (p : pat) : pat :=
  match p with
  | Seq l => Seq (map (under sk) l)
  | Alt l => Alt (map (under sk) l)
  | Repeat lo hi q => Repeat lo hi (under sk q)
  | Not q => Not (under sk q)
  | Opt q => Opt (under sk q)
  | Discard q => Discard (under sk q)
  | BindDst q => BindDst (under sk q)
  | Construct a q => Construct a (under sk q)
  | Act a q => Act a (under sk q)
  | Except q n => Except (under sk q) (under sk n)
  | PList q s => PList (under sk q) (under sk s)
  | _ => p
  end.
(** Patterns made of parts. *)
Definition made_of_parts (p : pat) : bool :=
  match p with
  | Seq [] | Alt [] => false
  | Seq _ | Alt _ | Repeat _ _ _ | Not _ | Opt _ | Discard _ | BindDst _ | Construct _ _ | Act _ _ | Except _ _ | PList _ _ => true
  | _ => false
  end.
