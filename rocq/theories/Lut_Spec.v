(** What a lookup table means: the inputs, written from the most to the least significant one, form the index of a bit of
    the table (lib/Dialect/Comb/IR/Combinational.td 298-302, lib/Dialect/CGGI/IR/CGGIPBSOps.td 36-50). *)
From Coq Require Import List Bool NArith.
Import ListNotations.
Local Open Scope N_scope.

(** The number with the given binary digits, the most significant one first. *)
Definition msb_value (bits : list bool) : N := fold_left (fun acc b => 2 * acc + N.b2n b) bits 0.

(** The number with the given binary digits, the least significant one first. *)
Fixpoint lsb_value (bits : list bool) : N :=
  match bits with [] => 0 | b :: bits => N.b2n b + 2 * lsb_value bits end.

(** comb.truth_table, and cggi.lut2, lut3, lut4 on the messages of the ciphertexts. *)
Definition truth_table (table : N) (inputs : list bool) : bool := N.testbit table (msb_value inputs).

(** The cell $lut of Yosys: bit A of the parameter LUT, where input A lists its bits from A[0]. *)
Definition yosys_lut (lut : N) (a : list bool) : bool := N.testbit lut (lsb_value a).

(** The boolean gates. *)
Inductive gate := AND | NAND | OR | NOR | XOR | XNOR.
Definition gate_bit (g : gate) (a b : bool) : bool :=
  match g with
  | AND => a && b | NAND => negb (a && b) | OR => a || b | NOR => negb (a || b) | XOR => xorb a b | XNOR => negb (xorb a b)
  end.
