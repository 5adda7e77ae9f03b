(** Model of the lowering of arith to CGGI with integers split into chunks.
    Source: lib/Dialect/Arith/Conversions/ArithToCGGIQuart/ArithToCGGIQuart.cpp.
    A ciphertext is modelled by the number in it; the operations of the CGGI dialect act on unsigned
    numbers of the width of the ciphertext: addition, subtraction and multiplication wrap around, a cast
    to a narrower type drops the high bits, a cast to a wider type adds zero bits, and the scalar shift
    right is logical.  Not modelled: the patterns for memref and tensor operations, and the pattern for
    trunci, which the pass does not register. *)
From Coq Require Import ZArith List Bool.
From Verif Require Import Words.
Import ListNotations.
Open Scope Z_scope.

(** 41 *)
Definition max_int_width : Z := 16.
(** realWidth and acutalBitWidth, 53 and 221 *)
Definition half_width : Z := Z.shiftr max_int_width 1.

(** the operations of the dialect on 16-bit ciphertexts *)
Definition c_add (a b : Z) : Z := (a + b) mod 2 ^ max_int_width.
Definition c_sub (a b : Z) : Z := (a - b) mod 2 ^ max_int_width.
Definition c_mul (a b : Z) : Z := (a * b) mod 2 ^ max_int_width.
Definition c_shr (a : Z) : Z := Z.shiftr a half_width.
(** a cast to the 8-bit type and back: [outputLsb] and [outputLsbHigh] *)
Definition c_low (a : Z) : Z := (a mod 2 ^ half_width) mod 2 ^ max_int_width.

(** 48-60: number of chunks of an integer type; [None]: type not converted *)
Definition nb_chunks (w : Z) : option nat :=
  if w <=? 64 then Some (Z.to_nat ((w + half_width - 1) / half_width)) else None.

(** 103-110 [createTrivialOpMaxWidth]: the attribute keeps the low 16 bits of the value *)
Definition trivial (v : Z) : Z := v mod 2 ^ max_int_width.
(** APInt::extractBits asserts that the bits exist *)
Definition extract_bits (w v num pos : Z) : option Z :=
  if (pos <? w) && (num + pos <=? w) then Some (Z.shiftr v pos mod 2 ^ num) else None.
(** APInt::getSExtValue *)
Definition sext_value (num v : Z) : Z := if v <? 2 ^ (num - 1) then v else v - 2 ^ num.
(** 228-236 the loop over the chunks of a constant *)
Fixpoint const_loop (w v : Z) (is : list nat) : option (list Z) :=
  match is with
  | [] => Some []
  | i :: is' =>
      c <- extract_bits w v half_width (Z.of_nat i * half_width) ;;
      rest <- const_loop w v is' ;;
      Some (trivial (sext_value half_width c) :: rest)
  end.
(** 203-247 [ConvertQuartConstantOp] *)
Definition lower_const (w v : Z) : option (list Z) :=
  n <- nb_chunks w ;; const_loop w v (seq 0 n).

(** 282-322 [ConvertQuartExt], the same for extui and extsi *)
Definition lower_ext (w_in w_out : Z) (a : list Z) : option (list Z) :=
  n_out <- nb_chunks w_out ;;
  n_in <- nb_chunks w_in ;;
  Some (a ++ repeat (trivial 0) (n_out - n_in)).

(** 358-380 one round of the loop of [ConvertQuartAddI]; the state is (carries, outputs) *)
Definition add_step (lhs rhs : list Z) (st : list Z * list Z) (i : nat) : list Z * list Z :=
  let (carries, outputs) := st in
  let low_sum := c_add (nth i lhs 0) (nth i rhs 0) in
  let lsb := c_low low_sum in
  let carries := if Nat.eqb i (length lhs - 1) then carries else carries ++ [c_shr low_sum] in
  let outputs :=
    outputs ++ [if Nat.eqb i 0 then lsb else c_add lsb (nth (i - 1) carries 0)] in
  (carries, outputs).
(** 325-385; [None]: the assertion on the sizes fails *)
Definition lower_add (lhs rhs : list Z) : option (list Z) :=
  if Nat.eqb (length lhs) (length rhs)
  then Some (snd (fold_left (add_step lhs rhs) (seq 0 (length lhs)) ([], [])))
  else None.

(** 389-478 [ConvertQuartMulI]; [None]: the pattern does not apply *)
Definition lower_mul (lhs rhs : list Z) : option (list Z) :=
  match lhs, rhs with
  | [a0; a1; a2; a3], [b0; b1; b2; b3] =>
      let z00 := c_mul a0 b0 in
      let z02 := c_mul a1 b1 in
      let z01 := c_sub (c_sub (c_mul (c_add a0 a1) (c_add b0 b1)) z00) z02 in
      let z1a0 := c_mul a0 b2 in
      let z1a2 := c_mul a1 b3 in
      let z1a1 := c_sub (c_sub (c_mul (c_add a0 a1) (c_add b2 b3)) z1a0) z1a2 in
      let z1b0 := c_mul a2 b0 in
      let z1b2 := c_mul a3 b1 in
      let z1b1 := c_sub (c_sub (c_mul (c_add a2 a3) (c_add b0 b1)) z1b0) z1b2 in
      let out2_carry := c_add (c_add z1a0 z1b0) z02 in
      let out3_carry := c_add z1a1 z1b1 in
      Some [c_low z00;
            c_add (c_low z01) (c_shr z00);
            c_add (c_low out2_carry) (c_shr z01);
            c_add (c_low out3_carry) (c_shr out2_carry)]
  | _, _ => None
  end.

(** Expressions of the arith dialect over signless integers; every node carries what the pass looks at.
    [EIn w cs]: a function argument of type i[w], converted to the tensor [cs] of chunks. *)
Inductive expr :=
| EIn (w : Z) (cs : list Z)
| EConst (w v : Z)
| EAdd (a b : expr)
| EMul (a b : expr)
| EExtU (w : Z) (a : expr)
| EExtS (w : Z) (a : expr).
Fixpoint width (e : expr) : Z :=
  match e with
  | EIn w _ | EConst w _ | EExtU w _ | EExtS w _ => w
  | EAdd a _ | EMul a _ => width a
  end.
(** the value computed by the lowered program *)
Fixpoint lower (e : expr) : option (list Z) :=
  match e with
  | EIn w cs => _ <- nb_chunks w ;; Some cs
  | EConst w v => lower_const w v
  | EAdd a b => x <- lower a ;; y <- lower b ;; lower_add x y
  | EMul a b => x <- lower a ;; y <- lower b ;; lower_mul x y
  | EExtU w a | EExtS w a => x <- lower a ;; lower_ext (width a) w x
  end.
