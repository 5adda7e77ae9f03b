(** Slices of tensors, as tensor.extract_slice and tensor.insert_slice of MLIR define them, for static sizes and strides. *)
From Coq Require Import List Bool ZArith.
Import ListNotations.
Local Open Scope Z_scope.

(** An index within a shape. *)
Definition in_bounds (shape idx : list Z) : Prop := Forall2 (fun n i => 0 <= i < n) shape idx.
(** All indices of a shape. *)
Fixpoint indices (shape : list Z) : list (list Z) :=
  match shape with
  | [] => [[]]
  | n :: shape => flat_map (fun i => map (cons (Z.of_nat i)) (indices shape)) (seq 0 (Z.to_nat n))
  end.

(** The entries of an index that belong to dimensions of size other than 1. *)
Fixpoint non_unit (shape idx : list Z) : list Z :=
  match shape, idx with
  | n :: shape, i :: idx => if n =? 1 then non_unit shape idx else i :: non_unit shape idx
  | _, _ => []
  end.
(** Coordinates for all sizes from those for the sizes other than 1. *)
Fixpoint expand (sizes c : list Z) : list Z :=
  match sizes with
  | [] => []
  | n :: sizes => if n =? 1 then 0 :: expand sizes c else hd 0 c :: expand sizes (tl c)
  end.
Fixpoint strided (offsets strides c : list Z) : list Z :=
  match offsets, strides, c with
  | o :: offsets, s :: strides, x :: c => o + x * s :: strided offsets strides c
  | _, _, _ => []
  end.
(** The element of the large tensor that index [idx] of the slice refers to; the slice may have dropped dimensions of size 1. *)
Definition slice_position (offsets sizes strides shape idx : list Z) : list Z :=
  strided offsets strides (expand sizes (non_unit shape idx)).

(** A slice of the given shape that lies within a tensor. *)
Record valid_slice (large offsets sizes strides shape : list Z) : Prop := {
  ranks : length offsets = length large /\ length sizes = length large /\ length strides = length large;
  positive : forall n, In n sizes -> 1 <= n;
  apart : forall s, In s strides -> s <> 0;
  reduced : non_unit sizes sizes = non_unit shape shape;
  fits : forall c, in_bounds sizes c -> in_bounds large (strided offsets strides c)
}.

(** Contents of tensors; None is an element of tensor.empty. *)
Definition contents := list Z -> option Z.
Definition extract_slice (offsets sizes strides shape : list Z) (t : contents) : contents :=
  fun idx => t (slice_position offsets sizes strides shape idx).
Fixpoint list_eqb (a b : list Z) : bool :=
  match a, b with [], [] => true | x :: a, y :: b => (x =? y) && list_eqb a b | _, _ => false end.
Definition insert_slice (offsets sizes strides shape : list Z) (source dest : contents) : contents :=
  fun r => match find (fun idx => list_eqb (slice_position offsets sizes strides shape idx) r) (indices shape) with
           | Some idx => source idx
           | None => dest r
           end.

(** Dimensions of size 1 only at the end of the shape of the slice. *)
Definition compact (shape : list Z) : Prop := exists n, shape = non_unit shape shape ++ repeat 1 n.

(** Offsets are known or the value of an operand. *)
Inductive offset := Static (z : Z) | Dynamic (operand : nat).
Definition offset_value (operands : nat -> Z) (o : offset) : Z := match o with Static z => z | Dynamic n => operands n end.

(** The operations that define a tensor. *)
Record slice := { offsets : list offset; sizes : list Z; strides : list Z; shape : list Z }.
Inductive tensor_def :=
  | Empty
  | Opaque (t : contents)
  | InsertSlice (s : slice) (source : contents) (dest : tensor_def).
Fixpoint tensor_value (operands : nat -> Z) (t : tensor_def) : contents :=
  match t with
  | Empty => fun _ => None
  | Opaque t => t
  | InsertSlice s source dest =>
      insert_slice (map (offset_value operands) (offsets s)) (sizes s) (strides s) (shape s) source (tensor_value operands dest)
  end.
