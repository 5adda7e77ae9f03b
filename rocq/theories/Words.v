(** Machine words and the MLIR [arith] operations on them.

    An [iW] value is modelled by the integer in [0, 2^W) it denotes when read
    as unsigned.  Undefined behaviour (division by zero, signed overflow of a
    division, over-long shifts) is the distinct outcome [None].
    Semantics: MLIR arith dialect reference (addi/subi/muli wrap; remui, remsi,
    divsi undefined for a zero divisor; shrui with shift >= width is poison). *)
From Coq Require Import ZArith List Bool.
Import ListNotations.
Open Scope Z_scope.

Definition bind {A B} (o : option A) (f : A -> option B) : option B :=
  match o with Some a => f a | None => None end.
Notation "x <- e ;; k" := (bind e (fun x => k))
  (at level 61, e at next level, right associativity).

Definition wrap (w x : Z) : Z := x mod 2 ^ w.
(** signed reading of a [w]-bit word *)
Definition sgn (w x : Z) : Z := if x <? 2 ^ (w - 1) then x else x - 2 ^ w.
Definition is_word (w x : Z) : Prop := 0 <= x < 2 ^ w.

Definition addi (w a b : Z) : Z := wrap w (a + b).
Definition subi (w a b : Z) : Z := wrap w (a - b).
Definition muli (w a b : Z) : Z := wrap w (a * b).
Definition remui (w a b : Z) : option Z := if b =? 0 then None else Some (a mod b).
Definition divui (w a b : Z) : option Z := if b =? 0 then None else Some (a / b).
Definition remsi (w a b : Z) : option Z :=
  if (b =? 0) || ((a =? 2 ^ (w - 1)) && (b =? 2 ^ w - 1)) then None
  else Some (wrap w (Z.rem (sgn w a) (sgn w b))).
Definition divsi (w a b : Z) : option Z :=
  if (b =? 0) || ((a =? 2 ^ (w - 1)) && (b =? 2 ^ w - 1)) then None
  else Some (wrap w (Z.quot (sgn w a) (sgn w b))).
Definition shrui (w a s : Z) : option Z :=
  if s <? w then Some (a / 2 ^ s) else None.
Definition cmp_slt (w a b : Z) : bool := sgn w a <? sgn w b.
Definition cmp_sge (w a b : Z) : bool := sgn w b <=? sgn w a.
Definition cmp_uge (w a b : Z) : bool := b <=? a.
Definition cmp_ugt (w a b : Z) : bool := b <? a.
(** extui to a wider type keeps the number; trunci drops high bits *)
Definition extui (w' a : Z) : Z := a.
Definition trunci (w' a : Z) : Z := wrap w' a.
(** APInt::getActiveBits of a non-negative number *)
Definition active_bits (x : Z) : Z := if x <=? 0 then 0 else Z.log2 x + 1.
