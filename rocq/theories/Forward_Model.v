(** Model of
    lib/Transforms/ForwardStoreToLoad/ForwardStoreToLoad.cpp,
    lib/Transforms/ForwardInsertToExtract/ForwardInsertToExtract.cpp and
    lib/Transforms/FoldPlaintextMasks/FoldPlaintextMasks.{cpp,td}. *)

From Coq Require Import ZArith List Bool Lia.
From Flocq Require Import Core IEEE754.BinarySingleNaN.
From Verif Require Import Words TensorIndex_Model.
Import ListNotations.
Open Scope Z_scope.

(** * Stores and loads in one block *)

Section Memory.
Context {V : Type}.

(** SSA values are numbers. Memrefs, indices and data have separate name
    spaces. *)
Definition memory := nat -> list Z -> V.     (* buffer, index values *)
Definition data := nat -> V.                 (* data values *)

Inductive instr :=
  | Store (v m : nat) (idx : list nat)       (* memref.store *)
  | Load (dst m : nat) (idx : list nat)      (* memref.load *)
  | Compute (dst : nat) (f : data -> V)      (* no regions, no memory effects *)
  | Effect (f : memory -> data -> memory)    (* no regions, e.g. func.call, memref.copy *)
  | Region (f : memory -> data -> memory).   (* an operation with regions *)

(** [buf] gives the buffer a memref value refers to (two memref values may
    refer to the same one), [ix] the run-time value of an index. *)
Definition set_data (d : data) (x : nat) (v : V) : data :=
  fun y => if Nat.eqb y x then v else d y.
Fixpoint list_eqb (a b : list Z) : bool :=
  match a, b with
  | [], [] => true
  | x :: a', y :: b' => Z.eqb x y && list_eqb a' b'
  | _, _ => false
  end.
Definition set_mem (s : memory) (b : nat) (i : list Z) (v : V) : memory :=
  fun b' i' => if Nat.eqb b' b && list_eqb i' i then v else s b' i'.

Definition exec1 (buf : nat -> nat) (ix : nat -> Z) (st : memory * data) (i : instr)
  : memory * data :=
  let '(s, d) := st in
  match i with
  | Store v m idx => (set_mem s (buf m) (map ix idx) (d v), d)
  | Load dst m idx => (s, set_data d dst (s (buf m) (map ix idx)))
  | Compute dst f => (s, set_data d dst (f d))
  | Effect f => (f s d, d)
  | Region f => (f s d, d)
  end.
Definition exec buf ix (p : list instr) (st : memory * data) : memory * data :=
  fold_left (exec1 buf ix) p st.

Fixpoint names_eqb (a b : list nat) : bool :=
  match a, b with
  | [], [] => true
  | x :: a', y :: b' => Nat.eqb x y && names_eqb a' b'
  | _, _ => false
  end.

(** isForwardableOp, ForwardStoreToLoad.cpp 72-124, for a store [p1 ++ Store]
    followed by [mid] and the load: the index operands are the same SSA values,
    nothing in between has regions, and no store in between goes to the same
    memref value with the same index values (SSA names). *)
Definition no_region (i : instr) : bool := match i with Region _ => false | _ => true end.
Definition same_store (m : nat) (idx : list nat) (i : instr) : bool :=
  match i with Store _ m' idx' => Nat.eqb m' m && names_eqb idx' idx | _ => false end.
Definition same_load (m : nat) (idx : list nat) (i : instr) : bool :=
  match i with Load _ m' idx' => Nat.eqb m' m && names_eqb idx' idx | _ => false end.

Definition forwardable (m : nat) (idx : list nat) (mid : list instr) (m' : nat) (idx' : list nat)
  : bool :=
  Nat.eqb m' m && names_eqb idx' idx && forallb no_region mid
  && negb (existsb (same_store m idx) mid).

(** ForwardSingleStoreToLoad, lines 135-156. The users of the memref are tried
    in an unspecified order, so the model rewrites any forwardable pair: given
    the program [p1 ++ Store v m idx :: mid ++ Load dst m' idx' :: p2] it
    returns the program where the load became a copy of [v]. *)
Definition forward (p1 : list instr) (v m : nat) (idx : list nat) (mid : list instr)
    (dst m' : nat) (idx' : list nat) (p2 : list instr) : option (list instr) :=
  if forwardable m idx mid m' idx'
  then Some (p1 ++ Store v m idx :: mid ++ Compute dst (fun d => d v) :: p2)
  else None.

(** RemoveUnusedStore, lines 158-232: the first of two stores to the same
    memref value and SSA indices is erased if no operation in between has
    regions or loads from the same memref value and SSA indices. *)
Definition remove_store (p1 : list instr) (v m : nat) (idx : list nat) (mid : list instr)
    (v' m' : nat) (idx' : list nat) (p2 : list instr) : option (list instr) :=
  if Nat.eqb m' m && names_eqb idx' idx && forallb no_region mid
     && negb (existsb (same_load m idx) mid)
  then Some (p1 ++ mid ++ Store v' m' idx' :: p2)
  else None.
End Memory.
Arguments instr : clear implicits.
Arguments memory : clear implicits.
Arguments data : clear implicits.

(** * Inserts and extracts *)

(** An index: a constant, or an SSA value that is not a constant
    (getAsOpFoldResult). *)
Inductive ofr := OConst (z : Z) | OVal (x : nat).

(** isEqualConstantIntOrValue *)
Definition ofr_eqb (a b : ofr) : bool :=
  match a, b with
  | OConst x, OConst y => Z.eqb x y
  | OVal x, OVal y => Nat.eqb x y
  | _, _ => false
  end.
Fixpoint ofrs_eqb (a b : list ofr) : bool :=
  match a, b with
  | [], [] => true
  | x :: a', y :: b' => ofr_eqb x y && ofrs_eqb a' b'
  | _, _ => false
  end.
Fixpoint const_indices (l : list ofr) : option (list Z) :=
  match l with
  | [] => Some []
  | OConst z :: l' => match const_indices l' with Some r => Some (z :: r) | None => None end
  | OVal _ :: _ => None
  end.

(** How a tensor value is defined. Elements are attributes [V] or scalar SSA
    values. *)
Inductive tdef (V : Type) :=
  | TInsert (scalar : nat) (dest : tdef V) (idx : list ofr)
  | TSplat (v : V)                                  (* arith.constant, splat *)
  | TDense (elems : list V)                         (* arith.constant, row-major *)
  | TFromElements (scalars : list nat)              (* tensor.from_elements *)
  | TOpaque (t : list Z -> V).                      (* anything else *)
Arguments TInsert {V}. Arguments TSplat {V}. Arguments TDense {V}.
Arguments TFromElements {V}. Arguments TOpaque {V}.

(** Result of the search: a scalar SSA value or a constant. *)
Inductive fwd_result (V : Type) := RScalar (x : nat) | RAttr (v : V).
Arguments RScalar {V}. Arguments RAttr {V}.

(** ElementsAttr::isValidIndex and the row-major lookup of ElementsAttr. *)
Fixpoint valid_index (shape idx : list Z) : bool :=
  match shape, idx with
  | [], [] => true
  | d :: s, i :: r => Z.leb 0 i && Z.ltb i d && valid_index s r
  | _, _ => false
  end.
Fixpoint attr_position (shape idx : list Z) : Z :=
  match shape, idx with
  | d :: s, i :: r => i * fold_right Z.mul 1 s + attr_position s r
  | _, _ => 0
  end.

(** getValueAtIndex, ForwardInsertToExtract.cpp 36-100. [None] is failure; the
    access [getElements()[flat]] with a flat index out of range, which the code
    does not check, is also [None] here. *)
Fixpoint value_at {V} (shape : list Z) (t : tdef V) (idx : list ofr) : option (fwd_result V) :=
  match t with
  | TInsert x dest i => if ofrs_eqb i idx then Some (RScalar x) else value_at shape dest idx
  | TSplat v => Some (RAttr v)
  | TDense elems =>
      match const_indices idx with
      | None => None
      | Some l =>
          if valid_index shape l
          then option_map RAttr (nth_error elems (Z.to_nat (attr_position shape l)))
          else None
      end
  | TFromElements xs =>
      match const_indices idx with
      | None => None
      | Some l =>
          match flattened_index shape l with
          | Some k => option_map RScalar (nth_error xs (Z.to_nat k))
          | None => None
          end
      end
  | TOpaque _ => None
  end.

(** * Plaintext masks *)

(** getIntegerOneHotVector, FoldPlaintextMasks.cpp 26-48: despite its name it
    accepts any vector of zeros and ones (w-bit words). *)
Definition is_mask (m : list Z) : bool := forallb (fun x => Z.eqb x 0 || Z.eqb x 1) m.

(** intersectIntMasks, lines 84-93: elementwise and. *)
Fixpoint intersect (a b : list Z) : list Z :=
  match a, b with
  | x :: a', y :: b' => Z.land x y :: intersect a' b'
  | _, _ => []
  end.

(** Elementwise arith.muli on w-bit words. *)
Fixpoint vmul (w : Z) (a b : list Z) : list Z :=
  match a, b with
  | x :: a', y :: b' => muli w x y :: vmul w a' b'
  | _, _ => []
  end.

(** A product of constant tensors and variables. *)
Inductive mexpr := MConst (m : list Z) | MVar (x : nat) | MMul (a b : mexpr).
Fixpoint meval (w : Z) (e : nat -> list Z) (t : mexpr) : list Z :=
  match t with
  | MConst m => m
  | MVar x => e x
  | MMul a b => vmul w (meval w e a) (meval w e b)
  end.

(** The six patterns of Patterns.td on arith.muli, in order; [$value] is any
    expression, the masks are constants accepted by isOneHotVector. *)
Definition mask_of (t : mexpr) : option (list Z) :=
  match t with MConst m => if is_mask m then Some m else None | _ => None end.
Definition merge (v : mexpr) (m1 m2 : mexpr) : option mexpr :=
  match mask_of m1, mask_of m2 with
  | Some a, Some b => Some (MMul v (MConst (intersect a b)))
  | _, _ => None
  end.
Definition fold_masks (k : nat) (t : mexpr) : option mexpr :=
  match k, t with
  | 0%nat, MMul m1 (MMul m2 v) => merge v m1 m2
  | 1%nat, MMul m1 (MMul v m2) => merge v m1 m2
  | 2%nat, MMul v (MMul m1 m2) => merge v m1 m2
  | 3%nat, MMul (MMul m2 v) m1 => merge v m1 m2
  | 4%nat, MMul (MMul v m2) m1 => merge v m1 m2
  | 5%nat, MMul (MMul m1 m2) v => merge v m1 m2
  | _, _ => None
  end.

(** * Floating-point masks *)

Section FloatMasks.
Variables prec emax : Z.
Context {Hp : Prec_gt_0 prec} {He : Prec_lt_emax prec emax}.
Notation fpn := (binary_float prec emax).

(** One element of getFloatOneHotVector, FoldPlaintextMasks.cpp 50-74: zeros of
    either sign and 1.0 are accepted, the sign is cleared. *)
Definition float_mask_elem (x : fpn) : option fpn :=
  match x with
  | B754_zero _ => Some (B754_zero false)
  | _ => if Beqb x Bone then Some (Babs x) else None
  end.

(** One element of intersectFloatMasks, lines 95-110, on elements that went
    through [float_mask_elem]. *)
Definition float_intersect (a b : fpn) : fpn :=
  if Beqb a Bone && Beqb b Bone then a else B754_zero false.

(** The six patterns on arith.mulf, elementwise: the expression before and
    after, for any rounding mode [md]. *)
Variable md : mode.
Definition fmul (a b : fpn) : fpn := Bmult md a b.
Definition float_before (k : nat) (m1 m2 v : fpn) : fpn :=
  match k with
  | 0%nat => fmul m1 (fmul m2 v)
  | 1%nat => fmul m1 (fmul v m2)
  | 2%nat => fmul v (fmul m1 m2)
  | 3%nat => fmul (fmul m2 v) m1
  | 4%nat => fmul (fmul v m2) m1
  | _ => fmul (fmul m1 m2) v
  end.
Definition float_after (m1 m2 v : fpn) : option fpn :=
  match float_mask_elem m1, float_mask_elem m2 with
  | Some a, Some b => Some (fmul v (float_intersect a b))
  | _, _ => None
  end.
End FloatMasks.
