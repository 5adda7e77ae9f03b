(** Tensors packed into ciphertexts. *)
From Coq Require Import List Bool ZArith.
From Verif Require Import Slice_Spec.
Import ListNotations.
Local Open Scope Z_scope.

(** Ciphertext and slot. *)
Definition point : Type := Z * Z.
Definition point_eqb (p q : point) : bool := (fst p =? fst q) && (snd p =? snd q).
(** A layout relates indices of a tensor to points; a packed tensor has a number at every point. *)
Definition layout := list Z -> point -> bool.
Definition packed := point -> Z.
Definition data := list Z -> Z.

(** Every point that belongs to an index holds its element. *)
Definition packs (shape : list Z) (L : layout) (d : data) (ct : packed) : Prop :=
  forall idx p, in_bounds shape idx -> L idx p = true -> ct p = d idx.
(** No point belongs to two indices. *)
Definition unambiguous (shape : list Z) (L : layout) : Prop :=
  forall i j p, in_bounds shape i -> in_bounds shape j -> L i p = true -> L j p = true -> i = j.
(** Every index has a point. *)
Definition covers (shape : list Z) (L : layout) : Prop := forall i, in_bounds shape i -> exists p, L i p = true.

(** tensor_ext.remap (TensorExtOps.td 68-88): a point of the output gets the number of a point that is mapped to it; points
    to which nothing is mapped are zero. *)
Definition remaps (m : point -> point -> bool) (input output : packed) : Prop :=
  forall q, (exists p, m p q = true /\ output q = input p) \/ (output q = 0 /\ forall p, m p q = false).

(** tensor.insert, tensor.insert_slice with unit strides, tensor.pad with zeros on tensors. *)
Definition insert_element (idx : list Z) (v : Z) (d : data) : data := fun i => if list_eqb i idx then v else d i.
Definition insert_data (offsets sizes strides shape : list Z) (source dest : data) : data :=
  fun r => match find (fun idx => list_eqb (slice_position offsets sizes strides shape idx) r) (indices shape) with
           | Some idx => source idx
           | None => dest r
           end.
Fixpoint sub_low (p low : list Z) : list Z := match p, low with x :: p, l :: low => x - l :: sub_low p low | _, _ => [] end.
Definition pad_data (unpadded low : list Z) (d : data) : data :=
  fun p => if existsb (list_eqb (sub_low p low)) (indices unpadded) then d (sub_low p low) else 0.
