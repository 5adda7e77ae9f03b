(** What it means that ciphertexts hold a tensor, and the products of linear algebra, independently of the model. *)
From Coq Require Import ZArith List.
From Verif Require Import Kernel_Model Kernel_Spec Layout_Spec.
Import ListNotations.
Open Scope Z_scope.

Section Spec.
Variable K : cring.
(** the contents of a slot *)
Definition content (m : list (list K)) (ct slot : Z) : K := nth (Z.to_nat slot) (nth (Z.to_nat ct) m []) (r0 K).
(** [m] consists of [cts] ciphertexts of [slots] slots; each holds the element the packing puts there, and zero if there is none *)
Definition stored (R : packing) (f : list Z -> K) (cts slots : Z) (m : list (list K)) : Prop :=
  Z.of_nat (length m) = cts /\ Forall (fun v => Z.of_nat (length v) = slots) m /\
  (forall d ct slot, R d ct slot -> content m ct slot = f d) /\
  (forall ct slot, 0 <= ct < cts -> 0 <= slot < slots -> (forall d, ~ R d ct slot) -> content m ct slot = r0 K).

(** acc + sum over j < n of f j * g j *)
Definition accumulated (acc : K) (n : Z) (f g : Z -> K) : K :=
  radd K acc (rsum K (Z.to_nat n) (fun j => rmul K (f (Z.of_nat j)) (g (Z.of_nat j)))).
(** linalg.matvec, linalg.matmul, linalg.batch_matmul *)
Definition matvec_value (n : Z) (M x acc : list Z -> K) (d : list Z) : K :=
  let i := nth 0 d 0 in accumulated (acc d) n (fun j => M [i; j]) (fun j => x [j]).
Definition matmul_value (n : Z) (A B acc : list Z -> K) (d : list Z) : K :=
  let i := nth 0 d 0 in let k := nth 1 d 0 in accumulated (acc d) n (fun j => A [i; j]) (fun j => B [j; k]).
Definition batch_value (n : Z) (A B acc : list Z -> K) (d : list Z) : K :=
  let b := nth 0 d 0 in let i := nth 1 d 0 in let k := nth 2 d 0 in
  accumulated (acc d) n (fun j => A [b; i; j]) (fun j => B [b; j; k]).
Definition dot_value (n : Z) (x y acc : list Z -> K) (d : list Z) : K := accumulated (acc d) n (fun j => x [j]) (fun j => y [j]).
End Spec.
