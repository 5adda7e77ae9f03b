(** Lookup tables and boolean gates on the way from a netlist to the backends: the techmap of the cell $lut and LUTImporter,
    secret-to-cggi, cggi-decompose-operations, cggi-to-tfhe-rust, cggi-to-tfhe-rust-bool and cggi-to-jaxite, on cleartexts.
    A ciphertext with a plaintext space of w bits holds a message modulo 2^w; noise and padding bits are not modelled. *)
From Coq Require Import Ascii String List Bool NArith ZArith.
From Verif Require Import Lut_Spec.
Import ListNotations.
Local Open Scope N_scope.

(** *** The netlist *)

(** A cell lutN: the digit after "lut", the ports \P0, \P1, ..., and the connections in the order in which the dictionary of
    the cell is traversed, by name. *)
Record cell := { digit : nat; ports : list bool; connections : list (string * bool) }.

(** Whether a name contains a letter: IdString::contains. *)
Fixpoint contains (c : Ascii.ascii) (s : string) : bool :=
  match s with EmptyString => false | String d s => Ascii.eqb c d || contains c s end.

(** lib/Transforms/YosysOptimizer/yosys/techmap_lut4.v 660-779 (and techmap_lut3.v for k = 3): a $lut of n <= k inputs
    becomes a cell lutk; the missing inputs and the missing rows of the table are 0. The connections are listed from A on;
    the P and Y connections are at the end, with their values left out. *)
Definition port_names : list string := ["A"%string; "B"%string; "C"%string; "D"%string].
Definition techmap (k : nat) (lut : N) (a : list bool) : cell :=
  {| digit := k;
     ports := map (fun i => (Nat.ltb i (2 ^ length a)) && N.testbit lut (N.of_nat i))%bool (seq 0 (2 ^ k));
     connections := combine port_names (firstn k (a ++ repeat false k)) ++ [("Y"%string, false); ("P0"%string, false)] |}.

(** LUTImporter::createOp, LUTImporter.cpp 21-39: the table is assembled with shifts of an int, so that rows from 31 on are
    not representable (no result). A missing port is no result. *)
Fixpoint assemble (i count : nat) (ps : list bool) : option N :=
  match count, ps with
  | O, _ => Some 0
  | S count, p :: ps =>
      if Nat.ltb i 31 then match assemble (S i) count ps with Some v => Some (N.lor (N.shiftl (N.b2n p) (N.of_nat i)) v) | None => None end
      else None
  | S _, [] => None
  end.
Definition lut_value (c : cell) : option N := assemble 0 (2 ^ digit c) (ports c).

(** LUTImporter::getInputs, LUTImporter.cpp 41-61. *)
Definition lut_inputs (c : cell) : list bool :=
  rev (map snd (filter (fun conn => negb (contains "P"%char (fst conn) || contains "Y"%char (fst conn))) (connections c))).

(** The operation that is created: the inputs and the table of a comb.truth_table; its verifier compares the number of
    inputs with the width of the table, CombOps.cpp 235-245. *)
Definition import_lut (c : cell) : option (list bool * N) :=
  match lut_value c with
  | Some table => if Nat.eqb (2 ^ length (lut_inputs c)) (2 ^ digit c) then Some (lut_inputs c, table) else None
  | None => None
  end.

(** *** secret-to-cggi *)

(** An input of an operation in a secret.generic: whether it is secret, and the bit it holds. *)
Definition input := (bool * bool)%type.

(** encodeInputs, SecretToCGGI.cpp 193-222: plaintexts are encrypted trivially with the type of the first ciphertext; without
    any ciphertext the type is null. *)
Definition encode_inputs (ins : list input) : option (list bool) :=
  if existsb fst ins then Some (map snd ins) else None.

(** cggi.lut2, lut3, lut4 with the table; the operands in the order of the operation, CGGIPBSOps.td 57-76. *)
Inductive cggi := Lut2 (b a : bool) (table : N) | Lut3 (c b a : bool) (table : N) | Lut4 (d c b a : bool) (table : N).

(** SecretGenericOpLUTConversion, SecretToCGGI.cpp 293-324. *)
Definition lower_truth_table (ins : list input) (table : N) : option cggi :=
  match encode_inputs ins with
  | Some [x; y; z] => Some (Lut3 x y z table)
  | Some [x; y; z; u] => Some (Lut4 x y z u table)
  | _ => None
  end.

(** buildSelectTruthTable, SecretToCGGI.cpp 66-87: arith.select on plaintexts. [ins] holds the inputs from the last one on,
    since every step takes away the last one. *)
Fixpoint build_select (ins : list bool) (lut : N) : bool :=
  match ins with
  | [] => if lut =? 0 then false else true
  | last :: before =>
      let half := 2 ^ N.of_nat (length before) in
      let first_half := lut mod 2 ^ half in
      let last_half := N.shiftr lut half mod 2 ^ half in
      if last then build_select before first_half else build_select before last_half
  end.
(** ConvertTruthTableOp, SecretToCGGI.cpp 426-456, for a truth table on plaintexts only. *)
Definition plain_truth_table (ins : list bool) (table : N) : bool := build_select (rev ins) table.

(** findLUTSize, SecretToCGGI.cpp 742-760: the width of the plaintext space that all ciphertexts get. *)
Inductive comb_op := TruthTable (inputs : nat) | OtherComb (width : nat).
Definition comb_size (o : comb_op) : nat := match o with TruthTable n => n | OtherComb w => w end.
Definition find_lut_size (ops : list comb_op) : nat := fold_left (fun m o => Nat.max m (comb_size o)) ops 1%nat.

(** *** cggi-decompose-operations *)

(** lwe.mul_scalar, lwe.add and cggi.sshl on messages of w bits; a scalar is an integer constant of w bits. *)
Definition wrap (w : nat) (x : Z) : N := Z.to_N (x mod 2 ^ Z.of_nat w)%Z.
Definition mul_scalar (w : nat) (m : N) (c : Z) : N := wrap w (Z.of_N m * Z.of_N (wrap w c)).
Definition add (w : nat) (x y : N) : N := wrap w (Z.of_N x + Z.of_N y).
Definition shl (w : nat) (m : N) (k : N) : N := wrap w (Z.of_N (N.shiftl m k)).

(** cggi.programmable_bootstrap: the bit of the table at the message. *)
Definition bootstrap (m table : N) : bool := N.testbit table m.

(** ProgrammableBootstrapOp::verify, CGGIOps.cpp 81-101: at most 2^w active bits. *)
Definition bootstrap_verify (w : nat) (table : N) : bool := N.size table <=? 2 ^ N.of_nat w.

(** LutLinCombOp::verify, CGGIOps.cpp 43-79. *)
Definition lincomb_verify (w : nat) (inputs : list bool) (coefficients : list Z) (table : N) : bool :=
  Nat.eqb (length inputs) (length coefficients)
  && forallb (fun c => (c <=? 2 ^ Z.of_nat w - 1)%Z) coefficients
  && (N.size table <=? 2 ^ N.of_nat w).

(** The meaning of cggi.lut_lincomb, CGGIPBSOps.td 93-138: the table shifted by the linear combination. *)
Definition linear (inputs : list bool) (coefficients : list Z) : Z :=
  fold_right Z.add 0%Z (map (fun ic : bool * Z => (Z.b2z (fst ic) * snd ic)%Z) (combine inputs coefficients)).

(** ExpandLutLinComb, DecomposeOperations.cpp 60-90. *)
Definition expand_lincomb (w : nat) (inputs : list bool) (coefficients : list Z) (table : N) : option bool :=
  match map (fun ic : bool * Z => mul_scalar w (N.b2n (fst ic)) (snd ic)) (combine inputs coefficients) with
  | [] => None
  | first :: rest => let m := fold_left (add w) rest first in
                     if bootstrap_verify w table then Some (bootstrap m table) else None
  end.

(** ExpandLut2 and ExpandLut3, DecomposeOperations.cpp 32-58: the linear combination; there is no pattern for lut4. *)
Definition expand_lut (op : cggi) : option (list bool * list Z * N) :=
  match op with
  | Lut2 b a t => Some ([b; a], [2; 1]%Z, t)
  | Lut3 c b a t => Some ([c; b; a], [4; 2; 1]%Z, t)
  | Lut4 _ _ _ _ _ => None
  end.
(** Both steps, with the option expand-lincomb. *)
Definition decompose (w : nat) (op : cggi) : option bool :=
  match expand_lut op with
  | Some (ins, cs, t) => expand_lincomb w ins cs t
  | None => None
  end.

(** ExpandAndOp, ExpandOrOp, ExpandXOrOp, DecomposeOperations.td 28-58; the other gates have no pattern. *)
Definition gate_table (g : gate) : option N :=
  match g with AND => Some 8 | OR => Some 14 | XOR => Some 6 | _ => None end.
Definition expand_gate (w : nat) (g : gate) (lhs rhs : bool) : option bool :=
  match gate_table g with
  | Some t => let m := add w (shl w (N.b2n rhs) 1) (N.b2n lhs) in
              if bootstrap_verify w t then Some (bootstrap m t) else None
  | None => None
  end.

(** *** The backends *)

(** ConvertLut2Op, ConvertLut3Op, ConvertLut4Op, CGGIToTfheRust.cpp 142-248; the generated lookup table is the closure
    |x| (table >> x) & 1, TfheRustEmitter.cpp 486-504. *)
Definition tfhe_rust (w : nat) (op : cggi) : bool :=
  match op with
  | Lut2 b a t =>
      let shifted_b := shl w (N.b2n b) 1 in
      bootstrap (add w shifted_b (N.b2n a)) t
  | Lut3 c b a t =>
      let shifted_c := shl w (N.b2n c) 2 in
      let shifted_b := shl w (N.b2n b) 1 in
      bootstrap (add w (add w shifted_c shifted_b) (N.b2n a)) t
  | Lut4 d c b a t =>
      let shifted_d := shl w (N.b2n d) 3 in
      let shifted_c := shl w (N.b2n c) 2 in
      let shifted_b := shl w (N.b2n b) 1 in
      bootstrap (add w (add w shifted_b (add w shifted_c shifted_d)) (N.b2n a)) t
  end.

(** jaxite.lut3, JaxiteOps.td 29-49: truth_table >> {c, b, a} for the operands a, b, c, with a table of 8 bits. *)
Definition jaxite_lut3 (a b c : bool) (table : N) : bool := N.testbit table (4 * N.b2n c + 2 * N.b2n b + N.b2n a).

(** ConvertCGGIToJaxiteLut3Op, CGGIToJaxite.cpp 107-141: the operands are reversed. *)
Definition jaxite (op : cggi) : option bool :=
  match op with Lut3 c b a t => Some (jaxite_lut3 a b c (t mod 256)) | _ => None end.

(** Lut3Op::buildBatchedOperation, CGGIOps.cpp 294-315: the operands of cggi.packed_lut3, which are named a, b, c in
    this order (CGGIPBSOps.td 78-91), are the first, second and third operands of the lut3 operations. *)
Record packed_lut3 := { tables : list N; opA : list bool; opB : list bool; opC : list bool }.
Definition batch_lut3 (ops : list cggi) : option packed_lut3 :=
  fold_right (fun op acc =>
    match op, acc with
    | Lut3 c b a t, Some p => Some {| tables := t :: tables p; opA := c :: opA p; opB := b :: opB p; opC := a :: opC p |}
    | _, _ => None
    end) (Some {| tables := []; opA := []; opB := []; opC := [] |}) ops.

(** ConvertCGGIToJaxitePmapLut3Op, CGGIToJaxite.cpp 143-189: one tuple per table, from the operands a, b, c; jaxite.pmap_lut3
    is "a batched Lut3Op" (JaxiteOps.td 62-71). *)
Definition pmap_lut3 (p : packed_lut3) : list (option bool) :=
  map (fun i =>
    match nth_error (opA p) i, nth_error (opB p) i, nth_error (opC p) i, nth_error (tables p) i with
    | Some a, Some b, Some c, Some t => Some (jaxite_lut3 a b c (t mod 256))
    | _, _, _, _ => None
    end) (seq 0 (length (tables p))).

(** The gate enums: I32EnumAttrCase with the numbers of BooleanGates.td 1-7, for both dialects. *)
Definition cggi_code (g : gate) : nat := match g with AND => 0 | NAND => 1 | OR => 2 | NOR => 3 | XOR => 4 | XNOR => 5 end.
Definition tfhe_gate (code : nat) : option gate :=
  match code with
  | 0%nat => Some AND | 1%nat => Some NAND | 2%nat => Some OR | 3%nat => Some NOR | 4%nat => Some XOR | 5%nat => Some XNOR | _ => None
  end.
(** buildBatchedBooleanGateOperation, CGGIOps.cpp 142-186, and ConvertPackedOp, CGGIToTfheRustBool.cpp 143-180: the gates, the
    left and the right operands become lists; gate i is applied to the elements i. *)
Definition batch_gates (ops : list (gate * bool * bool)) : list nat * list bool * list bool :=
  (map (fun o => cggi_code (fst (fst o))) ops, map (fun o => snd (fst o)) ops, map snd ops).
Definition tfhe_packed (p : list nat * list bool * list bool) : list (option bool) :=
  let '(codes, ls, rs) := p in
  map (fun glr : nat * (bool * bool) => option_map (fun g => gate_bit g (fst (snd glr)) (snd (snd glr))) (tfhe_gate (fst glr)))
      (combine codes (combine ls rs)).
