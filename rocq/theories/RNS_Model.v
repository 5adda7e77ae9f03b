(** Model of the RNS basis conversion and of CRT interpolation.
    Sources: lib/Dialect/RNS/IR/RNSOps.cpp, lib/Dialect/RNS/Transforms/LowerConvertBasis.cpp,
    lib/Dialect/RNS/IR/RNSTypes.cpp, ModArithTypes.cpp (isCompatibleWith),
    ModArithToArith.cpp:523-565, ModArithOps.cpp:123-170.
    All limbs of one RNS type share the storage width w (isCompatibleWith), and
    mod_arith.encapsulate forces the target limbs to that width too. *)
From Coq Require Import ZArith List Bool.
From Verif Require Import Words ModArith_Model NumTheory_Model.
Import ListNotations.
Open Scope Z_scope.

(** RNSTypes.cpp:25-55 with ModArithTypes.cpp:24-40: pairwise coprime limbs *)
Fixpoint verify_rns (qs : list Z) : bool :=
  match qs with
  | [] => true
  | q :: rest => forallb (fun r => Z.gcd q r =? 1) rest && verify_rns rest
  end.

Fixpoint oseq {A} (l : list (option A)) : option (list A) :=
  match l with
  | [] => Some []
  | o :: rest => a <- o ;; r <- oseq rest ;; Some (a :: r)
  end.

(** RNSOps.cpp:128-179 [buildQInvProds]: [pp] is the product of the moduli seen
    so far (its width grows, so it is exact) *)
Fixpoint build_qinv (w pp : Z) (qs : list Z) : option (list Z) :=
  match qs with
  | q :: ((q' :: _) as rest) =>
      let pp' := pp * q in
      inv <- multiplicative_inverse w (trunci w (pp' mod q')) q' ;;
      if inv =? 0 then None else
      r <- build_qinv w pp' rest ;; Some (inv :: r)
  | _ => Some []
  end.

(** the Horner loops: RNSOps.cpp:90-110 and LowerConvertBasis.cpp:184-208.
    Each step carries the constant multiplied with and the coefficient added. *)
Fixpoint horner_macs (w p : Z) (steps : list (Z * Z)) (acc : Z) : option Z :=
  match steps with
  | [] => Some acc
  | (qc, c) :: rest =>
      r <- lower_reduce w p c ;;
      acc' <- lower_mac w p acc qc r ;;
      horner_macs w p rest acc'
  end.

(** RNSOps.cpp:68-126: one more mixed-radix coefficient.  [rev_mrcs] lists the
    earlier ones, latest first.  The constant of every step is the modulus of
    the limb being computed (84-85). *)
Definition mrc_next (w qi xi qinv : Z) (rev_mrcs : list Z) : option Z :=
  match rev_mrcs with
  | [] => None
  | c :: cs =>
      t0 <- lower_reduce w qi c ;;
      t <- horner_macs w qi (map (fun cj => (qi, cj)) cs) t0 ;;
      d <- lower_sub w qi xi t ;;
      m <- lower_mul w qi d qinv ;;
      lower_lift_centered w qi m
  end.
Fixpoint mrcs_from (w : Z) (limbs : list (Z * Z * Z)) (rev_mrcs : list Z) : option (list Z) :=
  match limbs with
  | [] => Some rev_mrcs
  | (qi, xi, qinv) :: rest =>
      c <- mrc_next w qi xi qinv rev_mrcs ;;
      mrcs_from w rest (c :: rev_mrcs)
  end.
(** RNSOps.cpp:33-127 [computeMixedRadixCoeffs]; result in reverse order *)
Definition compute_mrcs (w : Z) (qs xs qinvs : list Z) : option (list Z) :=
  match qs, xs with
  | q0 :: qs', x0 :: xs' =>
      c0 <- lower_lift_centered w q0 x0 ;;
      mrcs_from w (combine (combine qs' xs') qinvs) [c0]
  | _, _ => None
  end.

(** LowerConvertBasis.cpp:142-213: one output limb *)
Definition find_limb (p : Z) (qs xs : list Z) : option Z :=
  match find (fun qx => fst qx =? p) (rev (combine qs xs)) with
  | Some (_, x) => Some x
  | None => None
  end.
Definition convert_limb (w p : Z) (qs xs rev_mrcs : list Z) : option Z :=
  match find_limb p qs xs with
  | Some x => Some x
  | None =>
      match rev_mrcs with
      | [] => None
      | c :: cs =>
          t0 <- lower_reduce w p c ;;
          horner_macs w p (combine (tl (rev (map (trunci w) qs))) cs) t0
      end
  end.
(** LowerConvertBasis.cpp:59-218 [LowerConvertBasisOp] *)
Definition convert_basis (w : Z) (qs xs ps : list Z) : option (list Z) :=
  qinvs <- build_qinv w 1 qs ;;
  if negb (forallb Z.odd qs && forallb Z.odd ps) then None else
  mrcs <- compute_mrcs w qs xs qinvs ;;
  oseq (map (fun p => convert_limb w p qs xs mrcs) ps).

(** llvm::Log2_64_Ceil *)
Definition log2_ceil (k : Z) : Z := Z.log2_up k.

(** ModArithToArith.cpp:523-565 [ConvertModSwitch], RNS to mod_arith.
    [wo] width of the output modulus [bigq], [wr] width of the limbs. *)
Fixpoint crt_sum (width bigq : Z) (limbs : list (Z * Z)) (sum : Z) : option Z :=
  match limbs with
  | [] => Some sum
  | (q, x) :: rest =>
      tmp <- divui width bigq q ;;
      inv <- multiplicative_inverse width (tmp mod q) q ;;
      let coeff := muli width tmp inv in
      crt_sum width bigq rest (addi width sum (muli width (extui width x) coeff))
  end.
Definition lower_modswitch_from_rns (wo wr bigq : Z) (limbs : list (Z * Z)) : option Z :=
  let width := wo + 2 * wr + log2_ceil (Z.of_nat (length limbs)) in
  s <- crt_sum width bigq limbs 0 ;;
  r <- remui width s bigq ;;
  Some (trunci wo r).

(** ModArithOps.cpp:123-170 [verifySingleToMultiModSwitch] without injection:
    the product is computed in [wo] bits *)
Definition verify_modswitch (wo wr bigq : Z) (qs : list Z) : bool :=
  (2 <=? Z.of_nat (length qs)) && (wr <=? wo) &&
  (fold_left (fun acc q => muli wo acc q) qs (wrap wo 1) =? bigq).
