(** Grammars for C57: JSON (with integers), and nested lists below a skipper. *)
From Coq Require Import String List ZArith Bool Arith Lia.
From Verif Require Import Base CharSet Source Dst Pattern Parser Session Demo SpecSession SpecPeg SpecRun SpecTerm SpecGuide SpecLang.
From Verif Require Import Leaf PegSound Run Comb.
Import ListNotations.

Definition sp : pat := Discard (star ws).
Definition word (s : string) : pat := Seq [Lit (txt s); sp].
Definition json_string : pat :=
  Seq [lc """"; star (Alt [Except any (Char (CSet ct_char [34; 92]%Z)); Seq [lc "\"; any]]); lc """"; sp].
Definition json_value : pat :=
  Alt [word "null"; word "true"; word "false"; Seq [int_; sp]; json_string;
       Seq [word "["; PList (Recur 0 true) (word ","); word "]"];
       Seq [word "{"; PList (Seq [json_string; word ":"; Recur 0 true]) (word ","); word "}"]].
Definition json_env : nat -> option pat := fun id => match id with 0 => Some json_value | _ => None end.
Definition json : pat := Seq [sp; Recur 0 true].

(** One of these characters, or the end of the text if [e] says so. *)
Definition oneof (e : bool) (l : list Z) (o : option Z) : Prop := (e = true /\ o = None) \/ exists y, o = Some y /\ In y l.
Definition digits10 : list Z := [48; 49; 50; 51; 52; 53; 54; 55; 56; 57]%Z.

Lemma digit10 z : is_digit 10 z = true -> (48 <= z <= 57)%Z.
Proof.
  unfold is_digit, digit_rank. destruct ((48 <=? z)%Z && (z <=? 57)%Z) eqn:E; [apply andb_prop in E as [E1 E2]; apply Z.leb_le in E1, E2; lia|].
  destruct ((97 <=? z)%Z && (z <=? 122)%Z) eqn:E1; [apply andb_prop in E1 as [E1 E2]; apply Z.leb_le in E1, E2; intros H; apply Z.ltb_lt in H; lia|].
  destruct ((65 <=? z)%Z && (z <=? 90)%Z) eqn:E3; [apply andb_prop in E3 as [E3 E4]; apply Z.leb_le in E3, E4; intros H; apply Z.ltb_lt in H; lia|].
  discriminate.
Qed.

(** The conditions come down to comparing characters. *)
Ltac chars := repeat match goal with
  | H : False |- _ => destruct H
  | H : _ /\ _ |- _ => destruct H
  | H : _ \/ _ |- _ => destruct H
  | H : exists _, _ |- _ => destruct H
  | H : Some _ = Some _ |- _ => injection H as ?
  | H : Some _ = None |- _ => discriminate H
  | H : None = Some _ |- _ => discriminate H
  | H : None <> None |- _ => now elim H
  | H : is_digit 10 _ = true |- _ => apply digit10 in H
  | H : ?x = ?y :> bool |- _ => discriminate H
  | x : option Z |- _ => subst x
  | x : Z |- _ => subst x
  end.
Ltac bare := repeat match goal with
  | H : _ |- _ => progress (cbv beta iota delta [ahead fst_all fst_set among in_set In hd_error onechar look null forallb existsb
                                                 andb orb negb Nat.eqb Z.leb Z.compare oneof digits10 not] in H)
  end; chars.
Ltac clash := bare; try lia;
  match goal with H : (exists _, _) -> False |- _ => elim H; eexists; split; [reflexivity|cbn; lia] end.
Definition blank (z : Z) : bool := existsb (Z.eqb z) [32; 9; 13; 10]%Z.
Ltac blankless := cbv [none blank existsb]; repeat match goal with |- context [Z.eqb ?a ?b] => destruct (Z.eqb_spec a b); [lia|] end; reflexivity.
Ltac ll_part := match goal with
  | |- apart _ _ => let o := fresh in intros o ? ?; clash
  | |- _ \/ apart _ _ => right; ll_part
  | |- forall q', _ -> apart _ _ => let q := fresh in let H := fresh in intros q H; repeat (destruct H as [<-|H]; [ll_part|]); destruct H
  | |- _ = 0 \/ _ <= _ => left; reflexivity
  | |- exists cs, Some _ = Some cs => eexists; reflexivity
  | |- _ \/ forall y, is_digit _ y = true -> not_next _ _ y =>
    right; let y := fresh in let H := fresh in intros y H; split; [apply digit10 in H; blankless|intro; clash]
  | |- forall o, _ -> oneof _ _ _ =>
    let o := fresh in intros o ?; bare; unfold oneof;
    first [lia | left; split; reflexivity | right; eexists; split; [reflexivity|cbn; lia]]
  end.
Ltac ll_auto p := let x := eval vm_compute in p in change p with x; cbn; repeat split; try discriminate; ll_part.

Definition json_first : option Z -> Prop := oneof false ([110; 116; 102; 34; 91; 123; 45; 43]%Z ++ digits10).
Definition json_follow : option Z -> Prop := oneof true [44; 93; 125]%Z.
Lemma json_ll : all_ll (fun _ => false) (fun _ => json_first) (fun _ _ => json_follow) (fun _ => 1) json_env none.
Proof.
  intros [|id] q E; [|discriminate]. injection E as <-. unfold json_first, json_follow. split; [reflexivity|split; [|split; [reflexivity|]]].
  - let x := eval vm_compute in json_value in change json_value with x. ll_part.
  - intros lex. destruct lex; ll_auto json_value.
Qed.
Lemma json_ahead : one_ahead json_env none json (fun o => o = None).
Proof.
  do 4 eexists. split; [exact json_ll|]. unfold json_first, json_follow. ll_auto json. 
Qed.
Lemma json_known : known ct_char json_env.
Proof. split; [discriminate|]. split; intros [|id] q H; [injection H as <-; reflexivity|discriminate|injection H as <-; reflexivity|discriminate]. Qed.
Lemma json_guarded : all_guarded (fun _ => true) (fun _ => 0) json_env.
Proof. intros [|id] q [= <-]. split; reflexivity. Qed.
Lemma json_class : inclass ct_char false json = true /\ inclass ct_char false (Seq [json; Eoi]) = true.
Proof. split; reflexivity. Qed.

(** The nested lists of the guide, below a skipper. *)
Definition nest_first : option Z -> Prop := oneof false ([40; 45; 43]%Z ++ digits10).
Definition nest_follow : option Z -> Prop := oneof true [41; 44]%Z.
Lemma nest_ll : all_ll (fun _ => false) (fun _ => nest_first) (fun lex _ => nest_follow) (fun _ => 1) nest_env blank.
Proof.
  intros [|id] q E; [|discriminate]. injection E as <-. unfold nest_first, nest_follow. split; [reflexivity|split; [|split; [reflexivity|]]].
  - let x := eval vm_compute in nest_def in change nest_def with x. ll_part.
  - intros lex. destruct lex; ll_auto nest_def.
Qed.
Lemma nest_ahead : one_ahead nest_env blank nest (fun o => o = None).
Proof. do 4 eexists. split; [exact nest_ll|]. unfold nest_first, nest_follow. ll_auto nest. Qed.

(** JSON values and a way to write them. *)
Inductive jv : Type :=
| JNull | JTrue | JFalse
| JInt (neg : bool) (d : Z) (ds : list Z)
| JString (s : list Z)
| JArray (l : jvs)
| JObject (l : jfs)
with jvs : Type := JEnd | JItem (j : jv) (l : jvs)
with jfs : Type := FEnd | FItem (k : list Z) (j : jv) (l : jfs).
Scheme jv_i := Induction for jv Sort Prop with jvs_i := Induction for jvs Sort Prop with jfs_i := Induction for jfs Sort Prop.
Combined Scheme j_ind from jv_i, jvs_i, jfs_i.

Definition jchar (z : Z) : list Z := if ((z =? 34) || (z =? 92))%Z then [92; z]%Z else [z].
Definition jstring (s : list Z) : list Z := txt """" ++ flat_map jchar s ++ txt """".
(** [b]: the blanks written behind every token. *)
Fixpoint jrender (b : list Z) (j : jv) : list Z :=
  match j with
  | JNull => txt "null" ++ b
  | JTrue => txt "true" ++ b
  | JFalse => txt "false" ++ b
  | JInt neg d ds => (if neg then txt "-" else []) ++ (d :: ds) ++ b
  | JString s => jstring s ++ b
  | JArray l => txt "[" ++ b ++ jitems b true l ++ txt "]" ++ b
  | JObject l => txt "{" ++ b ++ jfields b true l ++ txt "}" ++ b
  end
with jitems (b : list Z) (first : bool) (l : jvs) : list Z :=
  match l with
  | JEnd => []
  | JItem j l => (if first then [] else txt "," ++ b) ++ jrender b j ++ jitems b false l
  end
with jfields (b : list Z) (first : bool) (l : jfs) : list Z :=
  match l with
  | FEnd => []
  | FItem k j l => (if first then [] else txt "," ++ b) ++ (jstring k ++ b ++ txt ":" ++ b ++ jrender b j) ++ jfields b false l
  end.
Fixpoint jgood (j : jv) : Prop :=
  match j with
  | JInt _ d ds => Forall (fun z => is_digit 10 z = true) (d :: ds)
  | JArray l => jgoods l
  | JObject l => jgoodf l
  | _ => True
  end
with jgoods (l : jvs) : Prop := match l with JEnd => True | JItem j l => jgood j /\ jgoods l end
with jgoodf (l : jfs) : Prop := match l with FEnd => True | FItem _ j l => jgood j /\ jgoodf l end.

Section Render.
Context (b : list Z) (Hb : Forall (fun z => blank z = true) b).
Notation L := (lang json_env none).

Lemma lead_none w : lead none w w.
Proof. exists []. repeat split; auto. now destruct w. Qed.
Lemma row_all p l : Forall (fun z => L (FOne p) [z]) l -> L (FRow (List.length l) p) l.
Proof. induction 1 as [|z l H _ IH]; [constructor|]. exact (l_row _ _ _ _ [z] l H IH). Qed.
Lemma sp_b : L (FOne sp) b.
Proof.
  constructor. apply (l_repeat _ _ 0 0 (List.length b)); [|lia|lia]. apply row_all. eapply Forall_impl; [|exact Hb]. intros z Hz.
  eapply l_char; [apply lead_none|]. unfold blank in Hz. apply existsb_exists in Hz as (x & Hx & E). apply Z.eqb_eq in E. now subst.
Qed.
Lemma word_b s : L (FOne (word s)) (txt s ++ b).
Proof.
  constructor. constructor; [constructor; apply lead_none|]. rewrite <- (app_nil_r b). constructor; [apply sp_b|constructor].
Qed.
Lemma lc_b s z : txt s = [z] -> L (FOne (lc s)) [z].
Proof. intros E. constructor. eapply l_char; [apply lead_none|]. cbn. unfold chr. now rewrite E. Qed.
Lemma jchar_b z : L (FOne (Alt [Except any (Char (CSet ct_char [34; 92]%Z)); Seq [lc "\"; any]])) (jchar z).
Proof.
  unfold jchar. destruct ((z =? 34) || (z =? 92))%Z eqn:E.
  - eapply l_alt; [right; left; reflexivity|]. constructor.
    apply (l_all _ _ _ _ [92%Z] [z]); [now apply (lc_b "\")|]. apply (l_all _ _ _ _ [z] []); [|constructor].
    eapply l_char; [apply lead_none|exact I].
  - eapply l_alt; [left; reflexivity|]. constructor; [eapply l_char; [apply lead_none|exact I]|].
    intros cs [= <-] (y & [= <-] & Hy). cbn in Hy. destruct Hy as [<-|[<-|[]]]; discriminate.
Qed.
Lemma jstring_b s : L (FOne json_string) (jstring s ++ b).
Proof.
  unfold jstring. rewrite <- !app_assoc. constructor. constructor; [now apply (lc_b """")|]. constructor.
  - apply (l_repeat _ _ 0 0 (List.length s)); [|lia|lia]. induction s as [|z s IH]; [constructor|]. cbn [flat_map List.length]. constructor; [apply jchar_b|exact IH].
  - constructor; [now apply (lc_b """")|]. rewrite <- (app_nil_r b). constructor; [apply sp_b|constructor].
Qed.

Lemma jrender_b :
  (forall j, jgood j -> L (FOne (Recur 0 true)) (jrender b j)) /\
  (forall l, jgoods l -> L (FOne (PList (Recur 0 true) (word ","))) (jitems b true l) /\ L (FMore (Recur 0 true) (word ",")) (jitems b false l)) /\
  (forall l, jgoodf l -> let q := Seq [json_string; word ":"; Recur 0 true] in
     L (FOne (PList q (word ","))) (jfields b true l) /\ L (FMore q (word ",")) (jfields b false l)).
Proof.
  assert (V : forall k q w, nth_error [word "null"; word "true"; word "false"; Seq [int_; sp]; json_string;
       Seq [word "["; PList (Recur 0 true) (word ","); word "]"];
       Seq [word "{"; PList (Seq [json_string; word ":"; Recur 0 true]) (word ","); word "}"]] k = Some q -> L (FOne q) w -> L (FOne (Recur 0 true)) w).
  { intros k q w E H. eapply l_recur; [reflexivity|]. eapply l_alt; [eapply nth_error_In; exact E|exact H]. }
  apply j_ind; cbn [jgood jgoods jgoodf jrender jitems jfields].
  - intros _. apply (V 0 _ _ eq_refl), word_b.
  - intros _. apply (V 1 _ _ eq_refl), word_b.
  - intros _. apply (V 2 _ _ eq_refl), word_b.
  - intros neg d ds H. apply (V 3 _ _ eq_refl). constructor. rewrite app_assoc. constructor.
    + eapply (l_int _ _ _ _ _ (if neg then txt "-" else []) (d :: ds)); [apply lead_none| |exact H|cbn [List.length]; lia|lia].
      destruct neg; [right; left|left]; reflexivity.
    + rewrite <- (app_nil_r b). constructor; [apply sp_b|constructor].
  - intros s _. apply (V 4 _ _ eq_refl), jstring_b.
  - intros l IH H. destruct (IH H) as [H1 _]. apply (V 5 _ _ eq_refl). constructor. rewrite app_assoc. constructor; [apply word_b|].
    constructor; [exact H1|]. rewrite <- (app_nil_r (txt "]" ++ b)). constructor; [apply word_b|constructor].
  - intros l IH H. destruct (IH H) as [H1 _]. apply (V 6 _ _ eq_refl). constructor. rewrite app_assoc. constructor; [apply word_b|].
    constructor; [exact H1|]. rewrite <- (app_nil_r (txt "}" ++ b)). constructor; [apply word_b|constructor].
  - intros _. split; constructor.
  - intros j IHj l IHl [Hj Hl]. destruct (IHl Hl) as [_ H2]. split; [cbn [app]; apply l_list; auto|]. apply l_more; auto. apply word_b.
  - intros _. split; constructor.
  - intros k j IHj l IHl [Hj Hl]. destruct (IHl Hl) as [_ H2].
    assert (H1 : L (FOne (Seq [json_string; word ":"; Recur 0 true])) (jstring k ++ b ++ txt ":" ++ b ++ jrender b j)).
    { constructor. rewrite app_assoc. constructor; [apply jstring_b|]. rewrite app_assoc. constructor; [apply word_b|].
      rewrite <- (app_nil_r (jrender b j)). constructor; [auto|constructor]. }
    split; [cbn [app]; apply l_list; auto|]. apply l_more; auto. apply word_b.
Qed.
Lemma json_b j : jgood j -> L (FOne json) (b ++ jrender b j).
Proof.
  intros H. constructor. constructor; [apply sp_b|]. rewrite <- (app_nil_r (jrender b j)). constructor; [now apply jrender_b|constructor].
Qed.
End Render.
