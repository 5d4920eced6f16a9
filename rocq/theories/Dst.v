(** Destination types, values and wrappers (dst_wrapper/*.h, support/nil.h). *)
From Coq Require Import List ZArith Bool Arith.
From Verif Require Import Base CharSet.
Import ListNotations.

(** The destination types the library treats differently:
    Nil (support/nil.h), integral types, the collections of
    support/type_traits.h:46-61 (vector, list, deque, basic_string),
    std::tuple (type_traits.h:38-43) and any other class type, known by a number.
    Simplified: floating point destinations are left out. *)
Inductive ty : Type :=
| TNil
| TNum (signed : bool) (bits : Z)
| TColl (elem : ty)
| TTuple (l : list ty)
| TUser (id : nat).

(** Values.  [VUndef] is an indeterminate scalar; [VUser id args] the object a class
    constructor made from [args]. *)
Inductive val : Type :=
| VNil
| VUndef
| VNum (z : Z)
| VColl (l : list val)
| VTuple (l : list val)
| VUser (id : nat) (args : list val).

(** Value-initialisation, T(). *)
Fixpoint value_init (t : ty) : val :=
  match t with
  | TNil => VNil
  | TNum _ _ => VNum 0
  | TColl _ => VColl []
  | TTuple l => VTuple (map value_init l)
  | TUser id => VUser id []
  end.

(** Default-initialisation, [T x;]: scalars are indeterminate, the default constructor
    of std::tuple value-initialises its elements. *)
Definition default_init (t : ty) : val :=
  match t with TNum _ _ => VUndef | _ => value_init t end.

(** Is [v] a determinate value of type [t]? *)
Fixpoint has_ty (t : ty) (v : val) : bool :=
  match t, v with
  | TNil, VNil => true
  | TNum s b, VNum z => in_range s b z
  | TColl e, VColl l => forallb (has_ty e) l
  | TTuple ts, VTuple vs =>
      (fix go (ts : list ty) (vs : list val) : bool :=
         match ts, vs with
         | [], [] => true
         | t :: ts, v :: vs => has_ty t v && go ts vs
         | _, _ => false
         end) ts vs
  | TUser i, VUser j _ => i =? j
  | _, _ => false
  end.

(** What is stored when [v] is assigned to (or used to construct) an object of type
    [t]: value_wrapper.h:25-29, collection_wrapper.h:19-30.  Nil converts to anything
    default-constructible (nil.h:50-54) and anything converts to Nil (nil.h:25-34).
    Integral conversions are modular.  Anything else has to be of type [t] already;
    otherwise the C++ program is taken not to compile.
    Simplified: user-defined converting constructors other than Construct's. *)
Definition conv (t : ty) (v : val) : outcome val :=
  match t with
  | TNil => Done VNil
  | TNum s b =>
    match v with
    | VNum z => Done (VNum (wrap s b z))
    | VUndef => Err (EUb UbUninit)
    | VNil => Done (VNum 0)
    | _ => Err EType
    end
  | _ =>
    match v with
    | VNil => Done (value_init t)
    | _ => if has_ty t v then Done v else Err EType
    end
  end.

(** A wrapped destination.  The memory of a run is a list of cells: the user's
    object(s) and the buffers of the parsers being run; a reference is a cell number and
    a path of tuple indices.  Which wrapper it is follows from the type, as in
    select_wrapper.h:17-31: Nil, CollectionWrapper for [TColl], else ValueWrapper. *)
Inductive dst : Type :=
| DNil
| DRef (lvl : nat) (path : list nat) (t : ty).

(** [wrap_dst] of a whole cell, select_wrapper.h:35-38. *)
Definition dst_cell (lvl : nat) (t : ty) : dst :=
  match t with TNil => DNil | _ => DRef lvl [] t end.

(** [dst_value_type]: nil.h:20, value_wrapper.h:22, collection_wrapper.h:37. *)
Definition dst_value_ty (d : dst) : ty :=
  match d with
  | DNil => TNil
  | DRef _ _ (TColl e) => e
  | DRef _ _ t => t
  end.

(** [dst_type]: nil.h:19, value_wrapper.h:21, collection_wrapper.h:36. *)
Definition dst_ty (d : dst) : ty := match d with DNil => TNil | DRef _ _ t => t end.

(** Reading and replacing the object at a path: std::get<i> on nested tuples. *)
Fixpoint get_path (v : val) (p : list nat) : outcome val :=
  match p with
  | [] => Done v
  | i :: q => match v with
              | VTuple l => match nth_error l i with
                            | Some x => get_path x q
                            | None => Err EType
                            end
              | _ => Err EType
              end
  end.

Fixpoint set_path (v : val) (p : list nat) (x : val) : outcome val :=
  match p with
  | [] => Done x
  | i :: q => match v with
              | VTuple l => match nth_error l i with
                            | Some y => obind (set_path y q x) (fun y' => Done (VTuple (upd l i y')))
                            | None => Err EType
                            end
              | _ => Err EType
              end
  end.

(** Load and store through a reference. *)
Definition load (cells : list val) (d : dst) : outcome val :=
  match d with
  | DNil => Done VNil
  | DRef l p _ => obind (of_option EShape (nth_error cells l)) (fun v => get_path v p)
  end.

Definition store (cells : list val) (d : dst) (x : val) : outcome (list val) :=
  match d with
  | DNil => Done cells
  | DRef l p _ => obind (of_option EShape (nth_error cells l)) (fun v =>
                  obind (set_path v p x) (fun v' => Done (upd cells l v')))
  end.

(** [dst = v]: nil.h:30-34, value_wrapper.h:27-31 (assignment),
    collection_wrapper.h:42-46 (append). *)
Definition assign (cells : list val) (d : dst) (v : val) : outcome (list val) :=
  match d with
  | DNil => Done cells
  | DRef _ _ (TColl e) =>
      obind (conv e v) (fun x =>
      obind (load cells d) (fun c =>
      match c with
      | VColl l => store cells d (VColl (l ++ [x]))
      | _ => Err EType
      end))
  | DRef _ _ t => obind (conv t v) (fun x => store cells d x)
  end.

(** [dst.get() = 0] of the numeric parsers (uint.h:28, int.h:28): only integral types
    (and Nil) support the arithmetic that follows. *)
Definition num_zero (cells : list val) (d : dst) : outcome (list val) :=
  match d with
  | DNil => Done cells
  | DRef _ _ (TNum _ _) => store cells d (VNum 0)
  | DRef _ _ _ => Err EType
  end.

(** The value of a compound assignment on an integral object.  Types narrower than int
    are promoted and the result converted back; unsigned arithmetic is modular; signed
    arithmetic of 32 bits and more must not overflow. *)
Definition arith (s : bool) (b : Z) (z : Z) : outcome Z :=
  if (s && (32 <=? b)%Z)%bool
  then if in_range s b z then Done z else Err (EUb UbOverflow)
  else Done (wrap s b z).

(** [dst.get() op= k] (uint.h:42-43, int.h:35,59-60,67,73; nil.h:39-47 for Nil). *)
Definition num_op (f : Z -> Z) (cells : list val) (d : dst) : outcome (list val) :=
  match d with
  | DNil => Done cells
  | DRef _ _ (TNum s b) =>
      obind (load cells d) (fun v =>
      match v with
      | VNum z => obind (arith s b (f z)) (fun r => store cells d (VNum r))
      | VUndef => Err (EUb UbUninit)
      | _ => Err EType
      end)
  | DRef _ _ _ => Err EType
  end.
