(** What the kernels are meant to compute, independently of the model: sums and
    products over a commutative ring, cyclic slots and matrix products. *)
From Coq Require Import ZArith List Bool InitialRing.
From Verif Require Import Kernel_Model.
Import ListNotations.
Open Scope Z_scope.

Section Spec.
Variable K : cring.

(** f 0 + ... + f (n-1) and f 0 * ... * f (n-1) *)
Fixpoint rsum (n : nat) (f : nat -> K) : K :=
  match n with O => r0 K | S m => radd K (rsum m f) (f m) end.
Fixpoint rprod (n : nat) (f : nat -> K) : K :=
  match n with O => r1 K | S m => rmul K (rprod m f) (f m) end.

(** slot i of a ciphertext, counted cyclically *)
Definition slot (v : list K) (i : Z) : K := nth (Z.to_nat (i mod Z.of_nat (length v))) v (r0 K).

(** the vector has N slots and slot s holds f s *)
Definition holds (v : list K) (N : nat) (f : Z -> K) : Prop :=
  length v = N /\ forall s, (s < N)%nat -> nth s v (r0 K) = f (Z.of_nat s).

(** entry (i, k) of a product of matrices with n columns and n rows *)
Definition entry (n : Z) (A B : Z -> Z -> K) (i k : Z) : K :=
  rsum (Z.to_nat n) (fun j => rmul K (A i (Z.of_nat j)) (B (Z.of_nat j) k)).

(** a matrix or vector extended by zeros *)
Definition padded2 (rows cols : Z) (M : Z -> Z -> K) (i j : Z) : K :=
  if ((i <? rows) && (j <? cols))%bool then M i j else r0 K.
Definition padded1 (n : Z) (x : Z -> K) (i : Z) : K := if i <? n then x i else r0 K.
End Spec.

(** the ring of integers, for examples *)
Definition Zcring : cring :=
  {| car := Z; r0 := 0; r1 := 1; radd := Z.add; rmul := Z.mul; rsub := Z.sub; ropp := Z.opp;
     r_ok := InitialRing.Zth |}.
