(** What an evaluation program computes, its multiplicative depth, and what a
    decomposition of a Chebyshev series denotes. *)
From Coq Require Import ZArith List Bool.
From Verif Require Import Kernel_Model Kernel_Spec PolyArith_Spec PolyEval_Model.
Import ListNotations.
Open Scope Z_scope.

Section Spec.
Variable K : cring.

Fixpoint run (x : K) (d : dag K) : K :=
  match d with
  | X _ => x
  | Const _ c => c
  | Add _ a b => radd K (run x a) (run x b)
  | Sub _ a b => rsub K (run x a) (run x b)
  | Mul _ a b => rmul K (run x a) (run x b)
  end.
(** a null result counts as zero *)
Definition run_opt (x : K) (d : option (dag K)) : K := match d with Some d => run x d | None => r0 K end.

(** the largest number of multiplications on a path *)
Fixpoint depth (d : dag K) : Z :=
  match d with
  | X _ | Const _ _ => 0
  | Add _ a b | Sub _ a b => Z.max (depth a) (depth b)
  | Mul _ a b => 1 + Z.max (depth a) (depth b)
  end.

(** c_0 + c_1 T_k + c_2 T_k^2 + ... for series c_i *)
Definition recompose (k : nat) (l : list (list K)) (x : K) : K :=
  rsum K (length l) (fun i => rmul K (series K (nth i l []) x) (rpow K (T K k x) i)).
End Spec.
