(** Model of lib/Utils/APIntUtils.{h,cpp} and of the root finders in
    lib/Utils/MathUtils.cpp.  An APInt of width w is an integer in [0,2^w).
    [None] of an outer option is undefined behaviour, a failed assertion or a
    loop that has not finished within the fuel. *)
From Coq Require Import ZArith List Bool.
From Verif Require Import Words.
Import ListNotations.
Open Scope Z_scope.

(** APIntUtils.cpp:40-47, the loop of multiplicativeInverse.  The C++ code flips
    the index i instead of swapping; r0,t0 stand for r[i],t[i] and r1,t1 for
    r[i^1],t[i^1].  Result: (r[i], t[i]) when r[i^1] = 0. *)
Fixpoint mi_loop (fuel : nat) (w r0 r1 t0 t1 : Z) : option (Z * Z) :=
  if r1 =? 0 then Some (r0, t0) else
  match fuel with
  | O => None
  | S f =>
      let q := r0 / r1 in
      mi_loop f w r1 (r0 mod r1) t1 (wrap w (t0 - wrap w (t1 * q)))
  end.

(** APIntUtils.cpp:24-62 [multiplicativeInverse] at width w *)
Definition multiplicative_inverse (w x m : Z) : option Z :=
  if negb (x <? m) then None (* assert, 25 *) else
  rt <- mi_loop (Z.to_nat (2 * w + 1)) w m x 0 (wrap w 1) ;;
  let '(r, t) := rt in
  if negb (r =? 1) then Some 0
  else Some (if 2 ^ (w - 1) <=? t then addi w t m else t).

(** APIntUtils.h:14-21 [modularMultiplication] *)
Definition modular_multiplication (w a b m : Z) : option Z :=
  r <- remui (2 * w) (muli (2 * w) a b) m ;; Some (trunci w r).

(** APIntUtils.cpp:64-78 [modularExponentiation]; the exponent's width is [we] *)
Fixpoint me_loop (fuel : nat) (w m res b e : Z) : option Z :=
  if negb (0 <? e) then Some res else
  match fuel with
  | O => None
  | S f =>
      res' <- (if Z.odd e then modular_multiplication w res b m else Some res) ;;
      b' <- modular_multiplication w b b m ;;
      me_loop f w m res' b' (e / 2)
  end.
Definition modular_exponentiation (w base we e m : Z) : option Z :=
  b <- remui w base m ;;
  me_loop (Z.to_nat we) w m (wrap w 1) b e.

(** APInt::countTrailingZeros of a non-zero number *)
Fixpoint pos_ctz (p : positive) : nat :=
  match p with xO p' => S (pos_ctz p') | _ => O end.
Definition ctz (x : Z) : nat := match x with Zpos p => pos_ctz p | _ => O end.

(** APIntUtils.cpp:101-107: square x repeatedly, [k] times; true when n-1 is met *)
Fixpoint mr_squares (k : nat) (w n x : Z) : option bool :=
  match k with
  | O => Some false
  | S k' =>
      x' <- modular_multiplication w x x n ;;
      if x' =? n - 1 then Some true else mr_squares k' w n x'
  end.
(** APIntUtils.cpp:96-109, the loop over the bases *)
Fixpoint mr_bases (bases : list Z) (w n d : Z) (s : nat) : option bool :=
  match bases with
  | [] => Some true
  | a :: rest =>
      if n <=? a then Some true else
      x <- modular_exponentiation w (wrap w a) w d n ;;
      if (x =? 1) || (x =? n - 1) then mr_bases rest w n d s else
      ok <- mr_squares (s - 1) w n x ;;
      if (ok : bool) then mr_bases rest w n d s else Some false
  end.
(** APIntUtils.cpp:94-95 *)
Definition mr_base_list : list Z :=
  [2; 3; 5; 7; 11; 13; 17; 19; 23; 29; 31; 37; 41; 43; 47; 53; 59; 61; 67; 71].
(** APIntUtils.cpp:80-112 [isPrime] *)
Definition is_prime (w n : Z) : option bool :=
  if n <? 2 then Some false else
  if n <? 4 then Some true else
  if negb (Z.odd n) then Some false else
  let d0 := n - 1 in
  let s := ctz d0 in
  mr_bases mr_base_list w n (d0 / 2 ^ Z.of_nat s) s.

(** [while (val % d == 0) val /= d], APIntUtils.cpp:126-128 and 144-146 *)
Fixpoint strip (fuel : nat) (d v : Z) : option Z :=
  if v mod d =? 0 then match fuel with O => None | S f => strip f d (v / d) end
  else Some v.
(** APIntUtils.cpp:121-134, the 64-bit path: [d * d] and [++d] wrap modulo 2^64.
    [val % 0] is undefined. *)
Fixpoint fact64 (fuel : nat) (d val : Z) : option (list Z) :=
  match fuel with
  | O => None
  | S f =>
      if negb (wrap 64 (d * d) <=? val) then Some (if 1 <? val then [val] else [])
      else
      if d =? 0 then None else
      if val mod d =? 0 then
        val' <- strip 64 d val ;;
        rest <- fact64 f (wrap 64 (d + 1)) val' ;; Some (d :: rest)
      else fact64 f (wrap 64 (d + 1)) val
  end.
(** APIntUtils.cpp:137-153, the wide path (d * d is computed in 2w bits) *)
Fixpoint factw (fuel : nat) (w d n : Z) : option (list Z) :=
  match fuel with
  | O => None
  | S f =>
      if n <? wrap (2 * w) (d * d) then Some (if 1 <? n then [n] else [])
      else
      if d =? 0 then None else
      if n mod d =? 0 then
        n' <- strip (Z.to_nat w) d n ;;
        rest <- factw f w (wrap w (d + 1)) n' ;; Some (d :: rest)
      else factw f w (wrap w (d + 1)) n
  end.
(** APIntUtils.cpp:114-154 [factorize]; pushed factors are d, val < 2^w *)
Definition factorize (fuel : nat) (w n : Z) : option (list Z) :=
  if n <? 2 then Some [] else
  if active_bits n <=? 64 then fact64 fuel 2 n else factw fuel w 2 n.

(** MathUtils.cpp:71-76, the test of a candidate g *)
Fixpoint root_test (factors : list Z) (w g phi q : Z) : option bool :=
  match factors with
  | [] => Some true
  | p :: rest =>
      e <- divui w phi p ;;
      x <- modular_exponentiation w g w e q ;;
      if x =? 1 then Some false else root_test rest w g phi q
  end.
(** MathUtils.cpp:69-79; the candidate g is a uint64_t *)
Fixpoint root_loop (fuel : nat) (factors : list Z) (w g phi q : Z) : option (option Z) :=
  if negb (g <? q) then Some None else
  match fuel with
  | O => None
  | S f =>
      ok <- root_test factors w (wrap w g) phi q ;;
      if (ok : bool) then Some (Some (wrap w g))
      else root_loop f factors w (wrap 64 (g + 1)) phi q
  end.
(** MathUtils.cpp:58-80 [findPrimitiveRoot] *)
Definition find_primitive_root (fuel : nat) (w q : Z) : option (option Z) :=
  if q <=? 1 then Some None else
  if negb (Z.odd q) then (if q =? 2 then Some (Some (wrap w 1)) else Some None) else
  let phi := q - 1 in
  factors <- factorize fuel w phi ;;
  root_loop fuel factors w 2 phi q.
(** MathUtils.cpp:94-107 [findPrimitive2nthRoot]; n is a uint64_t *)
Definition find_primitive_2nth_root (fuel : nat) (w q n : Z) : option (option Z) :=
  let two_n := wrap w (wrap 64 (2 * n)) in
  r <- remui w q two_n ;;
  if negb (r =? 1) then Some None else
  g <- find_primitive_root fuel w q ;;
  match g with
  | None => Some None
  | Some g =>
      e <- divui w (q - 1) two_n ;;
      x <- modular_exponentiation w g w e q ;; Some (Some x)
  end.

(** MathUtils.h:17-28 [nextPowerOfTwo] on uint64_t *)
Definition next_power_of_two (v0 : Z) : Z :=
  let v := wrap 64 (v0 - 1) in
  let v := Z.lor v (Z.shiftr v 1) in
  let v := Z.lor v (Z.shiftr v 2) in
  let v := Z.lor v (Z.shiftr v 4) in
  let v := Z.lor v (Z.shiftr v 8) in
  let v := Z.lor v (Z.shiftr v 16) in
  let v := Z.lor v (Z.shiftr v 32) in
  wrap 64 (v + 1).
(** MathUtils.h:30 [isPowerOfTwo] on int64_t *)
Definition is_power_of_two (n : Z) : bool := (0 <? n) && (Z.land n (n - 1) =? 0).
