(** Access to elements and slices of packed tensors: LayoutPropagation.cpp 1591-1765 and ConvertToCiphertextSemantics.cpp
    1590-2530.  Quantifiers of composed relations range over the indices of a shape and over given points. *)
From Coq Require Import List Bool ZArith.
From Verif Require Import Slice_Spec Slice_Model PackedAccess_Spec.
Import ListNotations.
Local Open Scope Z_scope.

(** fixDomainVars and projectOut: the points of one index (createMaskFromStaticIndices, 1682-1686; createMasksFromStaticIndices,
    2180-2183). *)
Definition points_of (L : layout) (idx : list Z) (p : point) : bool := L idx p.

(** *** tensor.extract, ConvertToCiphertextSemantics.cpp 1671-1802 *)
(** createMaskFromStaticIndices: a 1 at the point that anyRangePoint picks. *)
Definition extract_mask (target : point) : packed := fun p => if point_eqb p target then 1 else 0.
Definition extract_masked (target : point) (ct : packed) : packed := fun p => extract_mask target p * ct p.
(** The relation of the layout of the masked tensor, which has no domain variables. *)
Definition extracted_layout (L : layout) (idx : list Z) (target : point) : layout := fun _ p => points_of L idx p && point_eqb p target.
(** convert_layout: inverse of the first layout, composed with the second one. *)
Definition conversion (shape : list Z) (from to : layout) (p q : point) : bool := existsb (fun idx => from idx p && to idx q) (indices shape).
(** The layout of the result, LayoutPropagation.cpp 1592. *)
Definition scalar_layout : layout := fun _ p => point_eqb p (0, 0).

(** *** tensor.insert, ConvertToCiphertextSemantics.cpp 2163-2436 *)
(** Both masks; the one for the scalar holds [value] instead of 1 for a cleartext scalar. The loop for dynamic indices, 1596-1667,
    visits all pairs of the layout and compares the index. *)
Definition scalar_mask (L : layout) (idx : list Z) (value : Z) : packed := fun p => if points_of L idx p then value else 0.
Definition dest_mask (L : layout) (idx : list Z) : packed := fun p => if points_of L idx p then 0 else 1.
Definition dynamic_masks (shape : list Z) (L : layout) (idx : list Z) (value : Z) : packed * packed :=
  (fun p => if existsb (fun i => L i p && list_eqb i idx) (indices shape) then value else 0,
   fun p => if existsb (fun i => L i p && list_eqb i idx) (indices shape) then 0 else 1).
(** cleartextScalarSecretTensor, 2290-2336. *)
Definition insert_cleartext (L : layout) (idx : list Z) (v : Z) (dest : packed) : packed :=
  fun p => scalar_mask L idx v p + dest_mask L idx p * dest p.
(** secretScalarSecretTensor, 2338-2425. *)
Definition insert_secret (L : layout) (idx : list Z) (scalar dest : packed) : packed :=
  fun p => scalar_mask L idx 1 p * scalar p + dest_mask L idx p * dest p.

(** *** tensor.extract_slice *)
(** LayoutPropagation.cpp 1731-1765: the slice relation, inverted and composed with the layout, with ciphertexts counted
    from the lower bound. *)
Definition slice_layout (large shape offsets sizes strides : list Z) (L : layout) (lower : Z) : layout :=
  fun idx p => existsb (fun r => extraction_relation large shape offsets sizes strides r idx && L r (fst p + lower, snd p)) (indices large).
(** secretSourceSecretResult, 2461-2510: the mapping for the remap. *)
Definition slice_mapping (large shape offsets sizes strides : list Z) (source result : layout) (p q : point) : bool :=
  existsb (fun r => source r p &&
    existsb (fun idx => extraction_relation large shape offsets sizes strides r idx && result idx q) (indices shape)) (indices large).
(** The layout that is recorded for the lowered value: the mapping, not the layout of the result (2506-2507). *)
Definition slice_recorded (large shape offsets sizes strides : list Z) (source result : layout) : layout :=
  fun idx q => match idx with [c; s] => slice_mapping large shape offsets sizes strides source result (c, s) q | _ => false end.

(** *** tensor.pad *)
(** LayoutPropagation.cpp 1706-1728. *)
Definition pad_layout (padded unpadded low : list Z) (L : layout) : layout :=
  fun p q => existsb (fun u => padding_relation padded unpadded low p u && L u q) (indices unpadded).
(** ConvertToCiphertextSemantics.cpp 1864-1895. *)
Definition pad_mapping (padded unpadded low : list Z) (source result : layout) (p q : point) : bool :=
  existsb (fun u => source u p && existsb (fun i => padding_relation padded unpadded low i u && result i q) (indices padded)) (indices unpadded).

(** *** tensor.insert_slice, ConvertToCiphertextSemantics.cpp 1931-2131 *)
(** restrictRelationToSlice, 113-131. *)
Fixpoint in_slice (offsets sizes idx : list Z) : bool :=
  match offsets, sizes, idx with
  | o :: offsets, n :: sizes, i :: idx => (0 <=? i - o) && (0 <=? o + n - i - 1) && in_slice offsets sizes idx
  | _, _, _ => true
  end.
(** The points of the slice in the destination. *)
Definition slice_points (large offsets sizes : list Z) (L : layout) (p : point) : bool :=
  existsb (fun r => in_slice offsets sizes r && L r p) (indices large).
(** The layout that the source is converted to: ciphertexts counted from the lower bound, 2034-2066. *)
Definition insertion_layout (large shape offsets sizes strides : list Z) (L : layout) (lower : Z) : layout :=
  fun idx p => existsb (fun r => insertion_relation shape large offsets sizes strides idx r && L r (fst p + lower, snd p)) (indices large).
(** The loop over ciphertexts, 2096-2127: the source is a single ciphertext. *)
Definition insert_packed (large offsets sizes : list Z) (L : layout) (source dest : packed) : packed :=
  fun p => (if slice_points large offsets sizes L p then 1 else 0) * source (0, snd p)
           + (if slice_points large offsets sizes L p then 0 else 1) * dest p.
