(** Integers as vectors of bits and tensors in row-major order. *)
From Coq Require Import List Bool ZArith Arith.
Import ListNotations.

(** The bits of an integer of w bits (0 <= v < 2^w), the least significant one first. *)
Definition bits (w : nat) (v : Z) : list bool := map (fun i => Z.testbit v (Z.of_nat i)) (seq 0 w).

(** The position of an index in a tensor of the given shape; None out of bounds. *)
Fixpoint position (shape idx : list nat) : option nat :=
  match shape, idx with
  | [], [] => Some 0
  | d :: shape, i :: idx =>
      if Nat.ltb i d then option_map (fun p => i * fold_right Nat.mul 1 shape + p) (position shape idx) else None
  | _, _ => None
  end.
Definition elements (shape : list nat) : nat := fold_right Nat.mul 1 shape.

(** The strides of a tensor in row-major order. *)
Fixpoint row_major (shape : list nat) : list nat :=
  match shape with [] => [] | _ :: shape => elements shape :: row_major shape end.

(** A tensor of integers of w bits as a tensor of bits: the bits of each element next to each other. *)
Definition bit_tensor (w : nat) (data : list Z) : list bool := concat (map (bits w) data).
