(** Model of the lowering of RLWE operations to polynomial arithmetic.
    Sources: lib/Dialect/LWE/Conversions/LWEToPolynomial/LWEToPolynomial.cpp,
    lib/Dialect/LWE/Transforms/DecomposeLWEOps.cpp,
    lib/Dialect/CKKS/Transforms/DecomposeRelinearize.cpp.
    The polynomial ring is Z[x]/(x^n + 1) with coefficients in a ModArith type (one modulus) or an
    RNS type (several moduli of one storage width w).  [None]: the pass fails, the result does not
    verify, or an assertion fails. *)
From Coq Require Import ZArith List Bool.
From Verif Require Import Words ModArith_Model NumTheory_Model RNS_Model Rlwe_Spec.
Import ListNotations.
Open Scope Z_scope.

(** ** The polynomial dialect *)

(** An element of the ring: one polynomial with coefficients in [0,q) per modulus q.  A value has
    type [polynomial] or [tensor<k x polynomial>]. *)
Definition elt := list (list Z).
Inductive value := Poly (x : elt) | Tensor (l : list elt).

Definition reduced (q : Z) (a : list Z) : list Z := map (fun x => x mod q) a.
Fixpoint zip_limbs (f : list Z -> list Z -> list Z) (qs : list Z) (x y : elt) : elt :=
  match qs, x, y with
  | q :: qs', a :: x', b :: y' => reduced q (f a b) :: zip_limbs f qs' x' y'
  | _, _, _ => []
  end.
Fixpoint map2 {A B C} (f : A -> B -> C) (l : list A) (m : list B) : list C :=
  match l, m with a :: l', b :: m' => f a b :: map2 f l' m' | _, _ => [] end.

(** PolynomialOps.td:25-108: add, sub and mul work on two operands of one type, elementwise on
    tensors *)
Definition elementwise (f : elt -> elt -> elt) (a b : value) : option value :=
  match a, b with
  | Poly x, Poly y => Some (Poly (f x y))
  | Tensor l, Tensor m => if (length l =? length m)%nat then Some (Tensor (map2 f l m)) else None
  | _, _ => None
  end.
Definition elt_add n qs := zip_limbs (padd n) qs.
Definition elt_sub n qs := zip_limbs (psub n) qs.
Definition elt_mul n qs := zip_limbs (pmul n) qs.
Definition poly_add n qs := elementwise (elt_add n qs).
Definition poly_sub n qs := elementwise (elt_sub n qs).
Definition poly_mul n qs := elementwise (elt_mul n qs).
(** PolynomialOps.td:110-138: the scalar has one residue per modulus *)
Fixpoint elt_scale (n : nat) (qs cs : list Z) (x : elt) : elt :=
  match qs, cs, x with
  | q :: qs', c :: cs', a :: x' => reduced q (pscale n c a) :: elt_scale n qs' cs' x'
  | _, _, _ => []
  end.
Definition poly_scale n qs cs (a : value) : value :=
  match a with
  | Poly x => Poly (elt_scale n qs cs x)
  | Tensor l => Tensor (map (elt_scale n qs cs) l)
  end.
Definition extract (v : value) (i : nat) : option elt :=
  match v with Tensor l => nth_error l i | Poly _ => None end.

(** ** LWEToPolynomial.cpp *)

(** 320-332 and 350-362 *)
Definition lower_radd n qs (x y : value) : option value := poly_add n qs x y.
Definition lower_rsub n qs (x y : value) : option value := poly_sub n qs x y.
(** 335-347, 365-377: the plaintext becomes a polynomial (type converter, 78-81) *)
Definition lower_radd_plain n qs (x y : value) : option value := poly_add n qs x y.
Definition lower_rsub_plain n qs (x y : value) : option value := poly_sub n qs x y.
(** 380-416: multiply by the constant -1, stored as a word of w bits; only for one modulus *)
Definition lower_rnegate n (w : Z) (qs : list Z) (x : value) : option value :=
  match qs, x with
  | [q], Tensor _ => Some (poly_scale n qs [wrap w (-1)] x)
  | _, _ => None
  end.
(** 418-436 *)
Definition lower_mul_scalar n qs (x : value) (cs : list Z) : option value := Some (poly_scale n qs cs x).
(** 438-489 *)
Definition lower_rmul n qs (x y : value) : option value :=
  match x, y with
  | Tensor [x0; x1], Tensor [y0; y1] =>
      Some (Tensor [elt_mul n qs x0 y0; elt_add n qs (elt_mul n qs x0 y1) (elt_mul n qs x1 y0);
                    elt_mul n qs x1 y1])
  | _, _ => None
  end.
(** 491-523: both operands are cast to tensors (the casts assert); the tensor of two plaintext
    tensors built afterwards does not verify *)
Definition lower_rmul_plain (x y : value) : option value :=
  match x, y with
  | Tensor [_; _], Tensor [_] => None
  | _, _ => None
  end.
(** 525-563: a ring element times a ciphertext *)
Definition lower_rmul_ring_elt n qs (x : elt) (y : value) : option value :=
  match y with
  | Tensor [_; _] => poly_mul n qs (Tensor [x; x]) y
  | _ => None
  end.

(** mod_switch of one coefficient between two ModArith types (ModArithToArith.cpp:469-497; the
    emitted code is [lower_modswitch], see C05): the representative is centred first *)
Definition switch_coef (q p x : Z) : Z := (if x <? q / 2 then x else x - q) mod p.
Definition mod_switch (q p : Z) (a : list Z) : list Z := map (switch_coef q p) a.

(** 104-160 [ConvertRLWEDecrypt], ciphertext modulus q, plaintext modulus t *)
Definition lower_decrypt n (q t : Z) (ct : value) (sk : value) : option (list Z) :=
  match ct, sk with
  | Tensor [_; _], Tensor [_] =>
      c0 <- extract ct 0 ;;
      c1 <- extract ct 1 ;;
      s <- extract sk 0 ;;
      match elt_add n [q] (elt_mul n [q] s c0) c1 with
      | [a] => Some (mod_switch q t a)
      | _ => None
      end
  | _, _ => None
  end.

(** 162-318 [ConvertRLWEEncrypt] with a public key: [u] and the noise samples are given.  The
    constant T has the plaintext type (modulus t) and is switched to the ciphertext modulus. *)
Definition constant_t (q t : Z) : Z := switch_coef t q t.
Definition lower_encrypt_public n (q t : Z) (pk : value) (u e0 e1 : elt) (m : list Z) : option value :=
  pk0 <- extract pk 0 ;;
  pk1 <- extract pk 1 ;;
  let te0 := elt_scale n [q] [constant_t q t] e0 in
  let te1 := elt_scale n [q] [constant_t q t] e1 in
  let c0 := elt_add n [q] (elt_add n [q] (elt_mul n [q] pk0 u) te0) [mod_switch t q m] in
  let c1 := elt_add n [q] (elt_mul n [q] pk1 u) te1 in
  Some (Tensor [c0; c1]).
(** 283-314: with a secret key *)
Definition lower_encrypt_secret n (q t : Z) (sk : value) (u e : elt) (m : list Z) : option value :=
  match sk with
  | Tensor [s] =>
      let us := elt_mul n [q] u s in
      let usm := elt_add n [q] us [mod_switch t q m] in
      Some (Tensor [u; elt_add n [q] usm e])
  | _ => None
  end.

(** ** DecomposeLWEOps.cpp and DecomposeRelinearize.cpp *)

(** LWEToPolynomial.cpp:626-655 [ConvertConvertBasis]: coefficient by coefficient *)
Definition column (x : elt) (k : nat) : list Z := map (fun a => coef a k) x.
Definition convert_elt n (w : Z) (qs ps : list Z) (x : elt) : option elt :=
  cols <- oseq (map (fun k => convert_basis w qs (column x k) ps) (seq 0 n)) ;;
  Some (map (fun j => map (fun c => nth j c 0) cols) (seq 0 (length ps))).

(** DecomposeLWEOps.cpp:36-73 [createPInvModQConstant] *)
Fixpoint p_mod_q (w q acc : Z) (ps : list Z) : option Z :=
  match ps with
  | [] => Some acc
  | p :: rest => acc' <- modular_multiplication w acc (p mod q) q ;; p_mod_q w q acc' rest
  end.
Definition p_inv (w : Z) (ps : list Z) (q : Z) : option Z :=
  pm <- p_mod_q w q (wrap w 1) ps ;;
  inv <- multiplicative_inverse w pm q ;;
  if inv =? 0 then None else Some inv.

(** DecomposeLWEOps.cpp:80-146 [DecomposeModDownPattern] (verifier LWEOps.cpp:114-133: the target
    basis is a proper prefix): input basis qs ++ ps, target basis qs *)
Definition mod_down n (w : Z) (qs ps : list Z) (ct : list elt) : option (list elt) :=
  match ps with [] => None | _ =>
  conv <- oseq (map (fun x => convert_elt n w ps qs (skipn (length qs) x)) ct) ;;
  let base := map (firstn (length qs)) ct in
  let diff := map2 (elt_sub n qs) base conv in
  inv <- oseq (map (p_inv w ps) qs) ;;
  Some (map (elt_scale n qs inv) diff)
  end.

(** DecomposeLWEOps.cpp:197-238: the parts of a list, of size [size], the last one may be shorter *)
Fixpoint parts {A} (fuel size : nat) (l : list A) : list (list A) :=
  match fuel, l with
  | S f, _ :: _ => firstn size l :: parts f size (skipn size l)
  | _, _ => []
  end.
Definition partition {A} (size : nat) (l : list A) : list (list A) := parts (length l) size l.

(** 261-271: the sum of the products of the extended parts with the keys *)
Fixpoint dot n (basis : list Z) (sum : option value) (terms : list (elt * value)) : option value :=
  match terms with
  | [] => sum
  | (d, k) :: rest =>
      prod <- lower_rmul_ring_elt n basis d k ;;
      sum' <- match sum with None => Some prod | Some v => lower_radd n basis v prod end ;;
      dot n basis (Some sum') rest
  end.

(** DecomposeLWEOps.cpp:148-290 [DecomposeKeySwitchPattern]: [qs] the basis of the ring element,
    [ps] the key-switch primes, so that the key has basis qs ++ ps; the result is the constant and
    the linear term. *)
Definition key_switch n (w : Z) (qs ps : list Z) (x : elt) (key : list value) : option (elt * elt) :=
  match ps with [] => None | _ =>
  let size := length ps in
  let basis := qs ++ ps in
  if negb (length key =? length (partition size qs))%nat then None else
  ext <- oseq (map2 (fun sub part => convert_elt n w sub basis part) (partition size qs) (partition size x)) ;;
  sum <- dot n basis None (combine ext key) ;;
  match sum with
  | Tensor ct =>
      out <- mod_down n w qs ps ct ;;
      match out with
      | c0 :: c1 :: _ => Some (c0, c1)
      | _ => None
      end
  | Poly _ => None
  end
  end.

(** DecomposeRelinearize.cpp:25-58 *)
Definition relinearize n (w : Z) (qs ps : list Z) (ct : list elt) (key : list value) : option (list elt) :=
  match ct with
  | [c0; c1; c2] =>
      ks <- key_switch n w qs ps c2 key ;;
      Some (map2 (elt_add n qs) [fst ks; snd ks] [c0; c1])
  | _ => None
  end.
