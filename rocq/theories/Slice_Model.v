(** Relations for slices and padding, lib/Utils/Layout/Utils.cpp, and forward-insert-slice-to-extract-slice.  Shapes are
    static.  A relation is given by its characteristic function. *)
From Coq Require Import List Bool ZArith.
From Verif Require Import Slice_Spec.
Import ListNotations.
Local Open Scope Z_scope.

(** addBounds for all dimensions of a tensor type; the number of variables is the rank. *)
Fixpoint bounded (shape vars : list Z) : bool :=
  match shape, vars with
  | [], [] => true
  | n :: shape, x :: vars => (0 <=? x) && (x <=? n - 1) && bounded shape vars
  | _, _ => false
  end.

(** The loop over the dimensions of the large tensor in getSliceInsertionRelation, Utils.cpp 1173-1193, and
    getSliceExtractionRelation, 1277-1297; [slice_var] reads the variable of a dimension of the slice. *)
Fixpoint link (slice_var : nat -> Z) (offsets sizes strides large : list Z) (slice_dim : nat) : bool :=
  match offsets, sizes, strides, large with
  | o :: offsets, n :: sizes, s :: strides, r :: large =>
      if 1 <? n
      then (- r + o + slice_var slice_dim * s =? 0) && link slice_var offsets sizes strides large (S slice_dim)
      else (- r + o =? 0) && link slice_var offsets sizes strides large slice_dim
  | _, _, _, _ => true
  end.

(** getSliceInsertionRelation, Utils.cpp 1144-1196: the domain are indices [d] of the slice, the range indices [r] of the
    result; the variables of the domain precede those of the range. *)
Definition insertion_relation (slice_shape result_shape offsets sizes strides : list Z) (d r : list Z) : bool :=
  bounded slice_shape d && bounded result_shape r &&
  link (fun i => nth i (d ++ r) 0) offsets sizes strides r 0.

(** getSliceExtractionRelation, Utils.cpp 1253-1300: the domain are indices [d] of the source, the range indices [r] of the
    slice. *)
Definition extraction_relation (source_shape result_shape offsets sizes strides : list Z) (d r : list Z) : bool :=
  bounded source_shape d && bounded result_shape r &&
  link (fun i => nth i r 0) offsets sizes strides d 0.

(** getPaddingRelation, Utils.cpp 1215-1251. *)
Fixpoint padded_by (low p u : list Z) : bool :=
  match low, p, u with
  | l :: low, x :: p, y :: u => (x - y - l =? 0) && padded_by low p u
  | _, _, _ => true
  end.
Definition padding_relation (padded_shape unpadded_shape low : list Z) (p u : list Z) : bool :=
  bounded padded_shape p && bounded unpadded_shape u && padded_by low p u.

(** shiftVar, Utils.cpp 1198-1213: the new variable at [pos] is the old one plus the offset. *)
Fixpoint set_var (pos : nat) (x : Z) (vars : list Z) : list Z :=
  match vars, pos with [], _ => [] | _ :: vars, 0%nat => x :: vars | y :: vars, S pos => y :: set_var pos x vars end.
Definition shift_var (relation : list Z -> bool) (pos : nat) (by_ : Z) (vars : list Z) : bool :=
  relation (set_var pos (nth pos vars 0 - by_) vars).

(** ShapedType::kDynamic, what getStaticOffsets holds for an operand. *)
Definition static_value (o : offset) : Z := match o with Static z => z | Dynamic _ => - 2 ^ 63 end.

(** Projecting the domain out; isEmpty.  MLIR's test may miss that a set is empty, then the pass does not continue. *)
Definition slice_set (large : list Z) (s : slice) (r : list Z) : bool :=
  existsb (fun d => insertion_relation (shape s) large (map static_value (offsets s)) (sizes s) (strides s) d r) (indices (shape s)).
Definition disjoint (large : list Z) (a b : slice) : bool :=
  forallb (fun r => negb (slice_set large a r && slice_set large b r)) (indices large).

(** isSameAs with equality of OpFoldResults. *)
Definition offset_eqb (a b : offset) : bool :=
  match a, b with Static x, Static y => x =? y | Dynamic x, Dynamic y => Nat.eqb x y | _, _ => false end.
Fixpoint offsets_eqb (a b : list offset) : bool :=
  match a, b with [], [] => true | x :: a, y :: b => offset_eqb x y && offsets_eqb a b | _, _ => false end.
Definition same_slice (a b : slice) : bool :=
  offsets_eqb (offsets a) (offsets b) && list_eqb (sizes a) (sizes b) && list_eqb (strides a) (strides b).

(** getValueAtSlice, ForwardInsertSliceToExtractSlice.cpp 33-117. *)
Fixpoint value_at_slice (large : list Z) (extract : slice) (t : tensor_def) : option contents :=
  match t with
  | InsertSlice insert source dest =>
      if list_eqb (shape insert) (shape extract) && same_slice insert extract then Some source
      else if disjoint large insert extract then value_at_slice large extract dest
      else None
  | Empty => Some (fun _ => None)
  | Opaque _ => None
  end.
