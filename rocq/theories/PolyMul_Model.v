(** Model of the lowering of polynomial.mul in coefficient form, one limb of modulus q
    stored in w bits.
    Source: lib/Dialect/Polynomial/Conversions/PolynomialToModArith/PolynomialToModArith.cpp.
    The loops run on index values, modelled as [nat]. *)
From Coq Require Import ZArith List Bool Arith.
From Verif Require Import Words ModArith_Model NumTheory_Model NTT_Model.
Import ListNotations.
Open Scope Z_scope.

(** Result of running the emitted code: an out-of-bounds access is [Undefined];
    [Timeout] is the artefact of the loop bound of the model. *)
Inductive outcome (A : Type) := Done (a : A) | Undefined | Timeout.
Arguments Done {A}. Arguments Undefined {A}. Arguments Timeout {A}.
Definition of_option {A} (o : option A) : outcome A := match o with Some a => Done a | None => Undefined end.
Definition obind {A B} (o : outcome A) (f : A -> outcome B) : outcome B :=
  match o with Done a => f a | Undefined => Undefined | Timeout => Timeout end.

(** 364-378 [ConvertConstant]: a 64-bit coefficient brought to [0,q):
    sextOrTrunc to w bits, srem, add the modulus if negative. *)
Definition const_coeff (w q v : Z) : Z :=
  let r := Z.rem (sgn w (wrap w v)) q in
  if r <? 0 then r + q else r.

(** 345-381 [ConvertConstant]: the terms (exponent, coefficient) of a polynomial constant become
    a dense tensor with [len] entries; a term outside is an out-of-bounds write. *)
Fixpoint const_tensor (w q : Z) (terms : list (nat * Z)) (acc : list Z) : option (list Z) :=
  match terms with
  | [] => Some acc
  | (e, v) :: rest =>
      if (e <? length acc)%nat then const_tensor w q rest (upd acc e (const_coeff w q v)) else None
  end.
Definition convert_constant (w q : Z) (len : nat) (terms : list (nat * Z)) : option (list Z) :=
  const_tensor w q terms (repeat 0 len).

(** 879-938: the linalg.generic c[i+j] += a[i]*b[j], executed as a loop nest, i outermost *)
Definition mac_into (w q : Z) (a b : list Z) (c : list Z) (ij : nat * nat) : option (list Z) :=
  let '(i, j) := ij in
  x <- nth_error a i ;; y <- nth_error b j ;; z <- nth_error c (i + j) ;;
  m <- lower_mul w q x y ;;
  s <- lower_add w q m z ;;
  Some (upd c (i + j) s).
Definition naive_polymul (w q : Z) (a b : list Z) : option (list Z) :=
  let n := length a in
  ofold (mac_into w q a b)
        (flat_map (fun i => map (fun j => (i, j)) (seq 0 (length b))) (seq 0 n))
        (repeat 0 (2 * n - 1)).

(** 682-735 [ConvertLeadingTerm]: scan down from index [idx-1]; reading below index 0 is
    out of bounds.  Result: degree and coefficient. *)
Fixpoint leading_term (w q : Z) (coeffs : list Z) (idx : nat) : option (nat * Z) :=
  match idx with
  | O => None
  | S i =>
      c <- nth_error coeffs i ;;
      l <- lower_lift_standard w q c ;;
      if l =? 0 then leading_term w q coeffs i else Some (i, c)
  end.

(** 507-553 [ConvertMulScalar]: lift the scalar, encapsulate it again, multiply elementwise *)
Definition mul_scalar (w q : Z) (p : list Z) (s : Z) : option (list Z) :=
  l <- lower_lift_standard w q s ;;
  omap (fun c => lower_mul w q c l) p.

(** 592-655 [ConvertMonicMonomialMul]: cyclic shift by [r]; the slice sizes must be in bounds *)
Definition monic_monomial_mul (p : list Z) (r : nat) : option (list Z) :=
  let n := length p in
  if (r <=? n)%nat then Some (skipn (n - r) p ++ firstn (n - r) p) else None.

(** 814-856 [ConvertPolyBinop] for polynomial.sub *)
Definition poly_sub (w q : Z) (p r : list Z) : option (list Z) :=
  if negb (length p =? length r)%nat then None else
  omap (fun xy => lower_sub w q (fst xy) (snd xy)) (combine p r).

(** 1205-1255: the while loop of the generated division function *)
Fixpoint divmod_loop (fuel : nat) (w q : Z) (divisor : list Z) (ddeg : nat) (lcinv : Z) (rem : list Z)
    : outcome (list Z) :=
  match fuel with
  | O => Timeout
  | S f =>
      obind (of_option (leading_term w q rem (length rem))) (fun dc =>
      let '(deg, c) := dc in
      if negb (ddeg <=? deg)%nat then Done rem else
      obind (of_option (m <- lower_mul w q c lcinv ;;
                        sd <- mul_scalar w q divisor m ;;
                        inc <- monic_monomial_mul sd (deg - ddeg) ;;
                        poly_sub w q rem inc)) (fun rem' =>
      divmod_loop f w q divisor ddeg lcinv rem'))
  end.

(** 1161-1203: compile-time part of [buildPolynomialModFunc]: degree of the divisor, inverse of its
    leading coefficient (as 64-bit word, widths extended to the larger one; zero means failure) and
    the dense divisor in the ring of x^(2n-1) - 1. *)
Definition divisor_info (w q : Z) (terms : list (nat * Z)) : option (nat * Z * list Z) :=
  match rev terms with
  | [] => None
  | (deg, lc) :: _ =>
      inv <- multiplicative_inverse (Z.max w 64) (wrap 64 lc) q ;;
      if inv =? 0 then None else
      d <- convert_constant w q (2 * deg - 1) terms ;;
      Some (deg, wrap w inv, d)
  end.

(** 860-957 [ConvertMulCoeffForm] with the function of 1055-1272; [None]: the compiler fails.
    The loop is given [2n] iterations (theorem C19 shows that this never runs out). *)
Definition lowered_polymul (w q : Z) (terms : list (nat * Z)) : option (list Z -> list Z -> outcome (list Z)) :=
  info <- divisor_info w q terms ;;
  let '(deg, inv, d) := info in
  Some (fun a b =>
    obind (of_option (naive_polymul w q a b)) (fun prod =>
    obind (divmod_loop (2 * deg) w q d deg inv prod) (fun r =>
    Done (firstn deg r)))).
