(** Model of the noise analysis of BGV with the worst case bounds of coefficients (lib/Analysis/NoiseAnalysis/BGV) and of the
    validation of the bounds (lib/Transforms/ValidateNoise). *)
From Coq Require Import ZArith QArith List Bool.
Import ListNotations.
From Verif Require Import Noise_Spec.
Open Scope Q_scope.

(** lib/Parameters/RLWEParams.h:44-78 and lib/Parameters/BGV/Params.h:23: the fields of the scheme parameters used by the noise
    model.  logqi holds logarithms of the primes; the primes themselves are kept here, since lib/Analysis/NoiseAnalysis/Noise.h:88-108 exposes products and
    sums of the numbers and keeps logarithms inside.  Doubles are modelled by rationals: rounding is left out. *)
Record params := { ringDim : Z; plaintextModulus : Z; qi : nat -> Z; dnum : Z; usePublicKey : bool; extended : bool }.

(** lib/Parameters/RLWEParams.cpp:22-30 *)
Definition computeDnum (level : Z) : Z := (if 3 <? level then 3 else if 0 <? level then 2 else 1)%Z.
(** lib/Parameters/RLWEParams.cpp:38 and 99: number of special primes *)
Definition special_primes (level : Z) : Z := ceil_div (level + 1) (computeDnum level).
(** lib/Parameters/BGV/Params.cpp:55-56: dnum of parameters given by an attribute with numbers of primes nq and np *)
Definition dnumFromAttr (nq np : Z) : Z := ceil_div nq np.

Section NoiseModel.
  Variable p : params.

  (** BGV/NoiseByBoundCoeffModel.cpp:44-60 and 62-79, variant WORST_CASE *)
  Definition expansionFactor : Q := inject_Z (ringDim p).
  Definition expansionFactorMS : Q := inject_Z (ringDim p).
  (** BGV/NoiseByBoundCoeffModel.cpp:81-87; std0 = 3.2 (RLWEParams.h:48) *)
  Definition boundErr : Q := (16 # 5) * 6.
  (** BGV/NoiseByBoundCoeffModel.cpp:89-93 *)
  Definition boundKey : Q := 1.
  (** BGV/NoiseByBoundCoeffModel.cpp:95-107 *)
  Definition evalEncryptPk : Q := boundErr * (1 + 2 * expansionFactor * boundKey).
  (** BGV/NoiseByBoundCoeffModel.cpp:109-118 *)
  Definition evalEncryptSk : Q := boundErr.
  (** BGV/NoiseByBoundCoeffModel.cpp:136-141 *)
  Definition evalConstant : Q := 0.
  (** BGV/NoiseByBoundCoeffModel.cpp:143-149 *)
  Definition evalAdd (lhs rhs : Q) : Q := lhs + rhs + 1.
  (** BGV/NoiseByBoundCoeffModel.cpp:151-168; ringDim * t / 2 is a division of integers *)
  Definition evalMul (lhs rhs : Q) : Q :=
    (lhs * rhs) * expansionFactor * inject_Z (plaintextModulus p) +
    (lhs + rhs + 1) * inject_Z (Z.quot (ringDim p * plaintextModulus p) 2).
  (** BGV/NoiseByBoundCoeffModel.cpp:170-196; None is the assertion on the dimension *)
  Definition evalModReduce (level : nat) (dimension : Z) (input : Q) : option Q :=
    if negb (dimension =? 2)%Z then None else
    let modulus := inject_Z (qi p level) in
    let scaled := input * (1 / modulus) in
    let added := (1 + expansionFactorMS * boundKey) / 2 in
    Some (scaled + added).
  (** BGV/NoiseByBoundCoeffModel.cpp:217-219 *)
  Definition currentNumDigit (level : nat) : Z := (ceil_div (Z.of_nat level + 1) (dnum p) + 1)%Z.
  (** BGV/NoiseByBoundCoeffModel.cpp:198-250 *)
  Definition evalRelinearize (level : nat) (input : Q) : Q :=
    let scaled := inject_Z (currentNumDigit level) * expansionFactor * boundErr / 2 in
    let added := (1 + expansionFactorMS * boundKey) / 2 in
    input + scaled + added.
  (** BGV/NoiseByBoundCoeffModel.cpp:120-134 *)
  Definition evalEncrypt (level : nat) (dimension : Z) : option Q :=
    if extended p then evalModReduce level dimension evalEncryptPk
    else Some (if usePublicKey p then evalEncryptPk else evalEncryptSk).
  (** BGV/NoiseByBoundCoeffModel.cpp:21-28: the bound, not its logarithm *)
  Definition toBound (noise : Q) : Q := noise * inject_Z (plaintextModulus p).
  (** BGV/NoiseByBoundCoeffModel.cpp:35-42: product of the primes 0..level, halved *)
  Definition toTotal (level : nat) : Q := inject_Z (modulus_at (qi p) level) / 2.

  (** level and dimension of each value (attributes of the mgmt dialect) *)
  Variables (lev : nat -> nat) (dim : nat -> Z).

  Definition noise_of (env : list Q) (a : operand) : option Q :=
    match a with Sec i => nth_error env i | Pln _ => Some evalConstant end.

  (** BGV/NoiseAnalysis.cpp:63-239 visitOperation on an operation with a secret result; env holds the noise of the earlier values.
      At least one operand of an addition or multiplication is secret (96).  None stands for the assertions (Noise.h:63, 95). *)
  Definition visitOperation (env : list Q) (o : op) : option Q :=
    match o with
    | MulI a b =>
        match noise_of env a, noise_of env b with Some x, Some y => Some (evalMul x y) | _, _ => None end
    | AddI a b | SubI a b =>
        match noise_of env a, noise_of env b with Some x, Some y => Some (evalAdd x y) | _, _ => None end
    | Rotate i _ | Relinearize i =>
        match nth_error env i with Some x => Some (evalRelinearize (lev i) x) | None => None end
    | AdjustScale i _ =>
        match nth_error env i with Some x => Some (evalMul x evalConstant) | None => None end
    | ModReduce i =>
        match nth_error env i with Some x => evalModReduce (lev i) (dim i) x | None => None end
    | LevelReduce i => nth_error env i
    | ExtractSlice i _ => nth_error env i
    | InsertSlice i j _ =>
        (* 222-231: the first secret operand *)
        nth_error env i
    | BlockArg i =>
        (* 115-123: arguments of the body of a secret.generic *)
        evalEncrypt (lev (length env)) (dim (length env))
    end.
  (** the analysis of a straight-line program: every value is visited after its operands, and joined with nothing else *)
  Fixpoint analyse (env : list Q) (os : list op) : option (list Q) :=
    match os with
    | [] => Some env
    | o :: os => match visitOperation env o with Some x => analyse (env ++ [x]) os | None => None end
    end.

  (** lib/Transforms/ValidateNoise/ValidateNoise.cpp:69-97: rejected when log total - log bound is negative *)
  Definition validated (level : nat) (noise : Q) : bool := Qle_bool (toBound noise) (toTotal level).
End NoiseModel.
