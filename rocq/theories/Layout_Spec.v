(** What a packing of a tensor into ciphertexts means, independently of how it is written down. *)
From Coq Require Import ZArith List.
Import ListNotations.
Open Scope Z_scope.

(** an index of a tensor *)
Definition in_box (shape d : list Z) : Prop := Forall2 (fun s i => 0 <= i < s) shape d.
(** number of elements, and position of an element when the tensor is written in row-major order *)
Fixpoint size (shape : list Z) : Z := match shape with [] => 1 | s :: l => s * size l end.
Fixpoint flat (shape d : list Z) : Z :=
  match shape, d with
  | _ :: l, i :: d => i * size l + flat l d
  | _, _ => 0
  end.
(** p is the smallest power of two not below n *)
Definition padding (n p : Z) : Prop := (exists k, 0 <= k /\ p = 2 ^ k) /\ n <= p < 2 * n.

(** A packing relates the indices of a tensor to slots of ciphertexts. *)
Definition packing := list Z -> Z -> Z -> Prop.
(** A slot holds at most one element. *)
Definition functional (R : packing) : Prop := forall ct slot d e, R d ct slot -> R e ct slot -> d = e.
(** Every element of the tensor is in a slot, *)
Definition stores_all (shape : list Z) (R : packing) : Prop := forall d, in_box shape d -> exists ct slot, R d ct slot.
(** and only elements of the tensor are, in slots of the given number of ciphertexts. *)
Definition within (shape : list Z) (cts slots : Z) (R : packing) : Prop :=
  forall d ct slot, R d ct slot -> in_box shape d /\ 0 <= ct < cts /\ 0 <= slot < slots.
(** Turning a ciphertext by p slots leaves its contents as they are. *)
Definition periodic_by (p slots : Z) (R : packing) : Prop :=
  forall d ct slot, R d ct slot -> R d ct ((slot + p) mod slots).
