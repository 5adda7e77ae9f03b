(** Model of the row-major index helpers in lib/Utils/TensorUtils.cpp. *)

From Coq Require Import ZArith List Bool Lia.
From Verif Require Import Loops_Model.
Import ListNotations.
Open Scope Z_scope.

(** getFlattenedIndex, TensorUtils.cpp 16-26. Both accumulators are of type
    int, so every update is truncated to 32 bits. The loop runs from the last
    dimension to the first; [None] if there are fewer indices than
    dimensions. *)
Fixpoint flatten_loop (dims idxs : list Z) (flat stride : Z) : option Z :=
  match dims, idxs with
  | [], _ => Some flat
  | d :: dims', i :: idxs' =>
      flatten_loop dims' idxs' (to_int32 (flat + i * stride)) (to_int32 (stride * d))
  | _ :: _, [] => None
  end.
Definition flattened_index (shape idx : list Z) : option Z :=
  flatten_loop (rev shape) (rev idx) 0 1.

(** getIndicesFromRowMajorShape, TensorUtils.cpp 38-54 (int64_t, C++ division).
    [None] is a division by zero. *)
Fixpoint unflatten_loop (shape : list Z) (md rem : Z) : option (list Z) :=
  match shape with
  | [] => Some []
  | d :: shape' =>
      if Z.eqb d 0 then None
      else
        let md' := Z.quot md d in
        if Z.eqb md' 0 then None
        else
          let index := Z.quot rem md' in
          match unflatten_loop shape' md' (rem - index * md') with
          | Some r => Some (index :: r)
          | None => None
          end
  end.
Definition row_major_indices (k : Z) (shape : list Z) : option (list Z) :=
  unflatten_loop shape (fold_left Z.mul shape 1) k.
