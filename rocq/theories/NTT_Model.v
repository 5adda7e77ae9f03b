(** Model of the number-theoretic transforms.
    Sources: lib/Utils/Polynomial/NTT.cpp (constant folding of polynomial.ntt),
    lib/Utils/Polynomial/RNSPolynomial.cpp,
    lib/Dialect/Polynomial/Conversions/PolynomialToModArith/PolynomialToModArith.cpp:1274-1700.
    Array indices are [nat]: the uint32/index arithmetic does not overflow for
    array lengths up to 2^31.  Out-of-range accesses and failed assertions are [None]. *)
From Coq Require Import ZArith List Bool Arith.
From Verif Require Import Words ModArith_Model NumTheory_Model.
Import ListNotations.
Open Scope Z_scope.

Fixpoint upd {A} (l : list A) (i : nat) (v : A) : list A :=
  match l, i with
  | [], _ => []
  | _ :: r, O => v :: r
  | x :: r, S i' => x :: upd r i' v
  end.
Fixpoint ofold {A B} (f : A -> B -> option A) (l : list B) (a : A) : option A :=
  match l with
  | [] => Some a
  | b :: r => a' <- f a b ;; ofold f r a'
  end.
Fixpoint omap {A B} (f : A -> option B) (l : list A) : option (list B) :=
  match l with
  | [] => Some []
  | a :: r => b <- f a ;; r' <- omap f r ;; Some (b :: r')
  end.

(** NTT.cpp:32-37, 64x64 to 128-bit product *)
Definition mulmod64 (a b m : Z) : option Z :=
  r <- remui 128 (muli 128 a b) m ;; Some (wrap 64 r).
(** NTT.cpp:39-42 *)
Definition addmod64 (u v m : Z) : option Z :=
  if negb ((u <? m) && (v <? m)) then None else
  let d := subi 64 m v in
  Some (if d <=? u then subi 64 u d else addi 64 u v).
(** NTT.cpp:44-47 *)
Definition submod64 (u v m : Z) : option Z :=
  if negb ((u <? m) && (v <? m)) then None else
  Some (if u <? v then subi 64 m (subi 64 v u) else subi 64 u v).

(** NTT.cpp:55-60, 91-96: powers of the root *)
Fixpoint root_table (mm : Z -> Z -> option Z) (n : nat) (x root : Z) : option (list Z) :=
  match n with
  | O => Some []
  | S n' => y <- mm x root ;; r <- root_table mm n' y root ;; Some (x :: r)
  end.

(** one butterfly on positions i and j of the array *)
Definition butterfly (bf : Z -> Z -> Z -> option (Z * Z)) (table : list Z) (a : list Z)
    (ijk : nat * nat * nat) : option (list Z) :=
  let '(i, j, k) := ijk in
  u <- nth_error a i ;; v <- nth_error a j ;; w <- nth_error table k ;;
  r <- bf u v w ;;
  Some (upd (upd a i (fst r)) j (snd r)).

Definition pow2b (n : nat) : bool := (Nat.land n (n - 1) =? 0)%nat.

(** NTT.cpp:69-84 the two inner loops for one span *)
Definition dif_pairs (n span : nat) : list (nat * nat * nat) :=
  let groups := (n / (2 * span))%nat in
  flat_map (fun j => map (fun g => (g * 2 * span + j, g * 2 * span + j + span, 2 * j * groups)%nat)
                         (seq 0 groups))
           (seq 0 span).
Definition bfly_ntt (m u v om : Z) : option (Z * Z) :=
  u' <- addmod64 u v m ;; d <- submod64 u v m ;; v' <- mulmod64 d om m ;; Some (u', v').
Definition bfly_intt (m u v om : Z) : option (Z * Z) :=
  vs <- mulmod64 v om m ;; u' <- addmod64 u vs m ;; v' <- submod64 u vs m ;; Some (u', v').

(** spans visited: NTT.cpp:67-68 (halving) and 98-99 (doubling) *)
Fixpoint spans_down (fuel span : nat) : list nat :=
  match fuel with
  | O => []
  | S f => if (1 <=? span)%nat then span :: spans_down f (span / 2) else []
  end.
Fixpoint spans_up (fuel span n : nat) : list nat :=
  match fuel with
  | O => []
  | S f => if (span <? n)%nat then span :: spans_up f (2 * span) n else []
  end.

(** NTT.cpp:49-85 [nttInPlace] *)
Definition ntt_in_place (m root : Z) (a : list Z) : option (list Z) :=
  let n := length a in
  if (n <=? 1)%nat then Some a else
  if negb (pow2b n) then None else
  table <- root_table (fun x y => mulmod64 x y m) n 1 root ;;
  a0 <- omap (fun cw => mulmod64 (fst cw) (snd cw) m) (combine a table) ;;
  ofold (fun a span => ofold (butterfly (bfly_ntt m) table) (dif_pairs n span) a)
        (spans_down n (n / 2)) a0.

(** NTT.cpp:87-126 [inttInPlace] *)
Definition intt_in_place (m root : Z) (a : list Z) : option (list Z) :=
  let n := length a in
  if (n <=? 1)%nat then Some a else
  if negb (pow2b n) then None else
  rinv <- multiplicative_inverse 64 root m ;;
  table <- root_table (fun x y => mulmod64 x y m) n 1 rinv ;;
  a1 <- ofold (fun a span => ofold (butterfly (bfly_intt m) table) (dif_pairs n span) a)
              (spans_up n 1 n) a ;;
  ninv <- multiplicative_inverse 64 (Z.of_nat n) m ;;
  omap (fun cw => f <- mulmod64 (snd cw) ninv m ;; mulmod64 (fst cw) f m) (combine a1 table).

(** ** RNSPolynomial.cpp; a limb is its modulus with its coefficients *)
Definition rnspoly := list (Z * list Z).

(** RNSPolynomial.cpp:31-54 *)
Definition add64 (m a b : Z) : Z :=
  let s := addi 64 a b in if m <=? s then subi 64 s m else s.
(** RNSPolynomial.cpp:56-80 *)
Definition sub64 (m a b : Z) : Z :=
  let d := if a <? b then addi 64 a m else a in subi 64 d b.
Definition limb_zip (f : Z -> Z -> Z -> option Z) (x y : Z * list Z) : option (Z * list Z) :=
  if negb ((fst x =? fst y) && (length (snd x) =? length (snd y))%nat) then None else
  r <- omap (fun ab => f (fst x) (fst ab) (snd ab)) (combine (snd x) (snd y)) ;;
  Some (fst x, r).
Definition rns_zip (f : Z -> Z -> Z -> option Z) (p q : rnspoly) : option rnspoly :=
  if negb (length p =? length q)%nat then None else
  omap (fun xy => limb_zip f (fst xy) (snd xy)) (combine p q).
Definition rns_add := rns_zip (fun m a b => Some (add64 m a b)).
Definition rns_sub := rns_zip (fun m a b => Some (sub64 m a b)).
(** RNSPolynomial.cpp:107-122, both operands in evaluation form *)
Definition rns_mul_eval := rns_zip (fun m a b => mulmod64 a b m).
(** RNSPolynomial.cpp:82-99 *)
Definition rns_scalar_mul (ss : list Z) (p : rnspoly) : option rnspoly :=
  if negb (length ss =? length p)%nat then None else
  omap (fun sl => let '(s, (m, cs)) := sl in
        sc <- remui 64 s m ;;
        r <- omap (fun c => mulmod64 c sc m) cs ;; Some (m, r)) (combine ss p).

(** RNSPolynomial.cpp:137-182 [toNtt] and 197-241 [toCoefficient] without given roots *)
Definition limb_transform (fuel : nat) (tr : Z -> Z -> list Z -> option (list Z)) (l : Z * list Z)
    : option (Z * list Z) :=
  let n := length (snd l) in
  if (0 <? n)%nat && negb (pow2b n) then None else
  o <- find_primitive_2nth_root fuel 64 (fst l) (Z.of_nat n) ;;
  root <- o ;;
  r <- tr (fst l) root (snd l) ;; Some (fst l, r).
Definition to_ntt (fuel : nat) (p : rnspoly) : option rnspoly :=
  omap (limb_transform fuel ntt_in_place) p.
Definition to_coefficient (fuel : nat) (p : rnspoly) : option rnspoly :=
  omap (limb_transform fuel intt_in_place) p.
(** RNSPolynomial.cpp:124-132, both operands in coefficient form *)
Definition rns_mul_coeff (fuel : nat) (p q : rnspoly) : option rnspoly :=
  p' <- to_ntt fuel p ;; q' <- to_ntt fuel q ;;
  r <- rns_mul_eval p' q' ;; to_coefficient fuel r.

(** ** Lowered transforms (PolynomialToModArith.cpp), one limb of modulus q in w bits *)

(** 1274-1285 [mulMod] *)
Definition mul_mod_ap (w q x y : Z) : option Z :=
  r <- remui (2 * w) (muli (2 * w) x y) q ;; Some (trunci w r).

(** APInt(k, i).reverseBits() *)
Fixpoint bitrev (k i : nat) : nat :=
  match k with
  | O => O
  | S k' => ((i mod 2) * 2 ^ k' + bitrev k' (i / 2))%nat
  end.
(** 1304-1344 [computeReverseBitOrder] *)
Definition reverse_bit_order (a : list Z) : option (list Z) :=
  let n := length a in
  if negb (pow2b n) then None else
  omap (fun i => nth_error a (bitrev (Nat.log2 n) i)) (seq 0 n).

(** 1346-1362 *)
Definition bfly_ct (w q a b root : Z) : option (Z * Z) :=
  rb <- lower_mul w q b root ;; p <- lower_add w q a rb ;; m <- lower_sub w q a rb ;; Some (p, m).
Definition bfly_gs (w q a b root : Z) : option (Z * Z) :=
  p <- lower_add w q a b ;; m <- lower_sub w q a b ;; mr <- lower_mul w q m root ;; Some (p, mr).

(** 1471-1540: loops over k and j for one stage with batch size m and root exponent r *)
Definition stage_pairs (n m r : nat) : list (nat * nat * nat) :=
  flat_map (fun k => map (fun j => (j + m * k, j + m * k + m / 2, (2 * j + 1) * r)%nat)
                         (seq 0 (m / 2)))
           (seq 0 (n / m)).
Fixpoint stages (inverse : bool) (w q : Z) (table : list Z) (n : nat) (s m r : nat) (a : list Z)
    : option (list Z) :=
  match s with
  | O => Some a
  | S s' =>
      a' <- ofold (butterfly (if inverse then bfly_gs w q else bfly_ct w q) table)
                  (stage_pairs n m r) a ;;
      stages inverse w q table n s' (if inverse then m / 2 else m * 2)%nat
             (if inverse then r * 2 else r / 2)%nat a'
  end.
(** 1374-1565 [fastNTT] *)
Definition fast_ntt (inverse : bool) (w q root : Z) (a : list Z) : option (list Z) :=
  let n := length a in
  table <- root_table (mul_mod_ap w q) n 1 root ;;
  a0 <- omap (lower_reduce w q) a ;;
  a1 <- stages inverse w q table n (Nat.log2 n) (if inverse then n else 2)%nat
               (if inverse then 1 else n / 2)%nat a0 ;;
  if inverse then
    ninv <- multiplicative_inverse w (Z.of_nat n) q ;;
    omap (fun x => lower_mul w q x ninv) a1
  else Some a1.
(** 1588-1639 [ConvertNTT], 1641-1692 [ConvertINTT] *)
Definition lowered_ntt (w q root : Z) (a : list Z) : option (list Z) :=
  r <- reverse_bit_order a ;; fast_ntt false w q root r.
Definition lowered_intt (w q root : Z) (a : list Z) : option (list Z) :=
  r <- fast_ntt true w q root a ;; reverse_bit_order r.

(** ** Constant folding of the transforms.
    PolynomialOps.cpp:1145-1165 [NTTOp::fold] and 1190-1210 [INTTOp::fold] for one limb:
    [toNtt]/[toCoefficient] with the root attribute of the op
    (RNSPolynomial.cpp:137-177, 191-232).  [None] when the length is not a power of two. *)
Definition folded_ntt (q root : Z) (a : list Z) : option (list Z) :=
  if (0 <? length a)%nat && negb (pow2b (length a)) then None else ntt_in_place q root a.
Definition folded_intt (q root : Z) (a : list Z) : option (list Z) :=
  if (0 <? length a)%nat && negb (pow2b (length a)) then None else intt_in_place q root a.
