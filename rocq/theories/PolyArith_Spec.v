(** What sparse polynomials and Chebyshev series denote. *)
From Coq Require Import ZArith List Bool.
From Verif Require Import Kernel_Model Kernel_Spec.
Import ListNotations.
Open Scope Z_scope.

Section Spec.
Variable K : cring.

Fixpoint rpow (x : K) (n : nat) : K := match n with O => r1 K | S m => rmul K x (rpow x m) end.

(** the sum of c * phi e over the terms c x^e; with powers of a point this is
    the value at the point, with an indicator it is a coefficient *)
Fixpoint weigh (phi : Z -> K) (p : list (K * Z)) : K :=
  match p with [] => r0 K | (c, e) :: r => radd K (rmul K c (phi e)) (weigh phi r) end.
Definition value (p : list (K * Z)) (x : K) : K := weigh (fun e => rpow x (Z.to_nat e)) p.
Definition coefficient (p : list (K * Z)) (d : Z) : K := weigh (fun e => if e =? d then r1 K else r0 K) p.

(** exponents strictly increasing, at least lo and below hi *)
Fixpoint increasing (lo hi : Z) (p : list (K * Z)) : Prop :=
  match p with [] => True | (_, e) :: r => lo <= e < hi /\ increasing (e + 1) hi r end.

(** two lists of terms denote the same polynomial *)
Definition same (p q : list (K * Z)) : Prop := forall d, coefficient p d = coefficient q d.
(** product, power and composition as unordered lists of terms *)
Definition pmul (p q : list (K * Z)) : list (K * Z) :=
  flat_map (fun t => map (fun u => (rmul K (fst t) (fst u), snd t + snd u)) q) p.
Fixpoint ppow (q : list (K * Z)) (n : nat) : list (K * Z) :=
  match n with O => [(r1 K, 0)] | S m => pmul q (ppow q m) end.
Definition pcompose (p q : list (K * Z)) : list (K * Z) :=
  flat_map (fun t => map (fun u => (rmul K (fst t) (fst u), snd u)) (ppow q (Z.to_nat (snd t)))) p.

(** Chebyshev polynomials of the first kind *)
Fixpoint cheb_pair (x : K) (n : nat) : K * K :=
  match n with
  | O => (r1 K, x)
  | S m => let '(a, b) := cheb_pair x m in (b, rsub K (rmul K (rmul K (radd K (r1 K) (r1 K)) x) b) a)
  end.
Definition T (n : nat) (x : K) : K := fst (cheb_pair x n).
(** c_0 T_0 + c_1 T_1 + ... *)
Definition series (c : list K) (x : K) : K :=
  rsum K (length c) (fun i => rmul K (nth i c (r0 K)) (T i x)).
End Spec.
