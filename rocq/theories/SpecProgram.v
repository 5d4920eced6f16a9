(** What it means that several parsers in one program do not disturb each other. *)
From Coq Require Import List ZArith Bool Arith.
From Verif Require Import Base CharSet Source Dst Pattern Parser Session Program.
Import ListNotations.

(** The parsers a program makes, in order: pattern and object. *)
Definition makes (l : list stmt) : list (pat * option nat) :=
  flat_map (fun s => match s with SMake p k => [(p, k)] | _ => [] end) l.

(** The calls it makes on the [i]-th of them. *)
Definition calls_of (i : nat) (l : list stmt) : list call :=
  flat_map (fun s => match s with SCall j c => if j =? i then [c] else [] | _ => [] end) l.

(** The objects it gives to parsers, and the ones it writes to itself, by parse() or otherwise. *)
Definition targets (l : list stmt) : list nat :=
  flat_map (fun s => match s with SMake _ (Some k) => [k] | _ => [] end) l.
Definition written_to (l : list stmt) : list nat :=
  flat_map (fun s => match s with SSet k _ | SParse _ (Some k) _ => [k] | _ => [] end) l.

(** No object belongs to two parsers, nor to a parser and the program. *)
Definition apart (l : list stmt) : Prop :=
  NoDup (targets l) /\ forall k, In k (targets l) -> ~ In k (written_to l).

(** It only speaks of parsers it has made ([n] so far) and of objects that exist. *)
Fixpoint sensible (objs n : nat) (l : list stmt) : Prop :=
  match l with
  | [] => True
  | SMake _ (Some k) :: l' => k < objs /\ sensible objs (S n) l'
  | SMake _ None :: l' => sensible objs (S n) l'
  | SCall i _ :: l' => i < n /\ sensible objs n l'
  | SSet k _ :: l' => k < objs /\ sensible objs n l'
  | SParse _ (Some k) _ :: l' => k < objs /\ sensible objs n l'
  | SParse _ None _ :: l' => sensible objs n l'
  end.

(** What it does itself to object [k], in order; [None]: its calls of parse() without object. *)
Inductive deed : Type := Put (v : val) | Parse (p : pat) (inp : list Z).
Definition deeds (k : option nat) (l : list stmt) : list deed :=
  flat_map (fun s => match s, k with
                     | SSet x v, Some y => if x =? y then [Put v] else []
                     | SParse p (Some x) inp, Some y => if x =? y then [Parse p inp] else []
                     | SParse p None inp, None => [Parse p inp]
                     | _, _ => []
                     end) l.

(** That alone, on an object of type [t] that holds [v]: what it holds then, what the calls of
    parse() gave. *)
Definition one_deed (env : nat -> option pat) (n : nat) (t : ty) (d : deed) (x : val * list answer)
  : outcome (val * list answer) :=
  match d with
  | Put v => Done (v, snd x)
  | Parse p inp =>
    obind (parse env n t (fst x) p inp) (fun y =>
    Done (nth 0 (w_cells (snd y)) VNil, snd x ++ [(fst y, w_src (snd y), w_trace (snd y))]))
  end.
Fixpoint some_deeds (env : nat -> option pat) (n : nat) (t : ty) (l : list deed) (x : val * list answer)
  : outcome (val * list answer) :=
  match l with
  | [] => Done x
  | d :: l' => obind (one_deed env n t d x) (some_deeds env n t l')
  end.
Definition by_itself (env : nat -> option pat) (n : nat) (ts : list ty) (objs : list val)
           (k : option nat) (l : list deed) : outcome (val * list answer) :=
  match k with
  | Some x => some_deeds env n (nth x ts TNil) l (nth x objs VNil, [])
  | None => some_deeds env n TNil l (VNil, [])
  end.

(** What the calls of parse() for object [k] gave. *)
Definition answers (k : option nat) (l : list (option nat * answer)) : list answer :=
  flat_map (fun x => match fst x, k with
                     | Some a, Some b => if a =? b then [snd x] else []
                     | None, None => [snd x]
                     | _, _ => []
                     end) l.

(** The callbacks of the [i]-th parser, newest first. *)
Definition log_of (i : nat) (log : list (nat * event)) : list event :=
  map snd (filter (fun x => fst x =? i) log).

(** What one sees of a parser: its answer, its data source, the callbacks it made, its object. *)
Definition sees (g : prog) (i : nat) (k : option nat) (s : session cseq) : Prop :=
  (exists q, nth_error (g_parsers g) i = Some q /\ q_res q = s_res s /\ q_src q = w_src (s_world s)) /\
  log_of i (g_log g) = w_trace (s_world s) /\
  forall x, k = Some x -> exists v, nth_error (g_objs g) x = Some v /\ w_cells (s_world s) = [v].

(** The parser, its object and its calls, with nothing else around. *)
Definition alone (env : nat -> option pat) (n : nat) (ts : list ty) (objs : list val)
           (p : pat) (k : option nat) (calls : list call) : outcome (session cseq) :=
  match k with
  | Some x => run_session env n (nth x ts TNil) (nth x objs VNil) p calls
  | None => run_session env n TNil VNil p calls
  end.
