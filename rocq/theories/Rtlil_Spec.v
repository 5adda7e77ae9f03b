(** Netlists of Yosys (RTLIL) and what they mean: an assignment of bits to the wires that agrees with every cell and every
    connection. Cells are the boolean gates of abc and the lookup tables of lib/Transforms/YosysOptimizer/yosys. *)
From Coq Require Import Ascii String List Bool NArith Arith DecimalString DecimalNat.
From Verif Require Import Lut_Spec.
Import ListNotations.
Local Open Scope string_scope.

(** A wire of a module; [port_id] counts the ports from 1 on and is 0 for internal wires. *)
Record wire := { wname : string; width : nat; port_id : nat; port_input : bool; port_output : bool }.

(** A bit of a signal: a constant or a bit of a wire. A signal lists its bits from the least significant one on. *)
Inductive bit := Const (b : bool) | Bit (w : string) (i : nat).
Definition signal := list bit.

(** A cell: its type and its ports with the signals that are connected to them. *)
Record cell := { ctype : string; conns : list (string * signal) }.

Record module := { wires : list wire; cells : list (string * cell); connections : list (signal * signal) }.

(** The values of the wires, bit by bit. *)
Definition assignment := string -> nat -> bool.
Definition bit_value (rho : assignment) (b : bit) : bool := match b with Const c => c | Bit w i => rho w i end.
Definition signal_value (rho : assignment) (s : signal) : list bool := map (bit_value rho) s.

(** The value at a port of one bit. *)
Fixpoint lookup {A} (name : string) (l : list (string * A)) : option A :=
  match l with [] => None | (n, a) :: l => if String.eqb n name then Some a else lookup name l end.
Definition port_value (rho : assignment) (c : cell) (name : string) : option bool :=
  match lookup name (conns c) with Some [b] => Some (bit_value rho b) | _ => None end.

(** The kinds of cells. *)
Inductive kind := KNot | KGate (g : gate) | KLut (inputs : nat).
Definition kind_of (type : string) : option kind :=
  lookup type [("$_NOT_", KNot); ("$_AND_", KGate AND); ("$_NAND_", KGate NAND); ("$_OR_", KGate OR); ("$_NOR_", KGate NOR);
               ("$_XOR_", KGate XOR); ("$_XNOR_", KGate XNOR); ("\lut2", KLut 2); ("\lut3", KLut 3); ("\lut4", KLut 4)].
Definition input_ports : list string := ["\A"; "\B"; "\C"; "\D"].

(** The port that holds row i of a table. *)
Definition row_port (i : nat) : string := "\P" ++ NilEmpty.string_of_uint (Nat.to_uint i).

(** The output of a cell as a function of its inputs; row A + 2 B + 4 C + 8 D of a lookup table. *)
Definition cell_value (rho : assignment) (c : cell) : option bool :=
  match kind_of (ctype c) with
  | Some KNot => option_map negb (port_value rho c "\A")
  | Some (KGate g) =>
      match port_value rho c "\A", port_value rho c "\B" with Some a, Some b => Some (gate_bit g a b) | _, _ => None end
  | Some (KLut n) =>
      let ins := map (fun p => match port_value rho c p with Some b => b | None => false end) (firstn n input_ports) in
      port_value rho c (row_port (N.to_nat (lsb_value ins)))
  | None => None
  end.

(** The assignment agrees with the netlist. *)
Definition consistent (m : module) (rho : assignment) : Prop :=
  (forall name c, In (name, c) (cells m) -> cell_value rho c = port_value rho c "\Y") /\
  (forall l r, In (l, r) (connections m) -> signal_value rho l = signal_value rho r).

(** A cell as Yosys leaves it behind: every port has one bit; a gate has the ports A, B and Y (A and Y for the negation); a
    lookup table of n inputs has the first n of A, B, C, D in this order, the output and constant rows. *)
Definition cell_ok (c : cell) : Prop :=
  NoDup (map fst (conns c)) /\ (forall p s, In (p, s) (conns c) -> length s = 1) /\
  match kind_of (ctype c) with
  | Some KNot => forall p, In p (map fst (conns c)) <-> In p ["\A"; "\Y"]
  | Some (KGate _) => forall p, In p (map fst (conns c)) <-> In p ["\A"; "\B"; "\Y"]
  | Some (KLut n) =>
      (forall p, In p (map fst (conns c)) <-> In p (firstn n input_ports ++ "\Y" :: map row_port (seq 0 (2 ^ n)))) /\
      filter (fun p => existsb (String.eqb p) input_ports) (map fst (conns c)) = firstn n input_ports /\
      (forall i, i < 2 ^ n -> exists b, lookup (row_port i) (conns c) = Some [Const b])
  | None => False
  end.

(** The signals of a module only mention bits of its wires. *)
Definition in_range (m : module) (s : signal) : Prop :=
  forall w i, In (Bit w i) s -> exists x, In x (wires m) /\ wname x = w /\ i < width x.

(** The ports: the inputs come first, both are numbered consecutively. *)
Definition ports_ok (m : module) (ins outs : list wire) : Prop :=
  NoDup (map wname (wires m)) /\
  (forall x, In x ins <-> In x (wires m) /\ port_input x = true) /\
  (forall x, In x outs <-> In x (wires m) /\ port_input x = false /\ port_output x = true) /\
  map port_id (ins ++ outs) = seq 1 (length ins + length outs).

Definition module_ok (m : module) (ins outs : list wire) : Prop :=
  ports_ok m ins outs /\ NoDup (map fst (cells m)) /\
  (forall name c, In (name, c) (cells m) -> cell_ok c /\ forall p s, In (p, s) (conns c) -> in_range m s) /\
  (forall l r, In (l, r) (connections m) -> length l = length r /\ in_range m l /\ in_range m r).

(** All bits of a wire. *)
Definition whole (x : wire) : signal := map (Bit (wname x)) (seq 0 (width x)).

(** A connection that copies one wire to another. *)
Definition copies (m : module) (l r : signal) : Prop :=
  exists x y, In x (wires m) /\ In y (wires m) /\ l = whole x /\ r = whole y.

(** Something that drives bits and reads others: a cell or a connection. *)
Inductive step := Cell (c : cell) | Connect (l r : signal).
Definition reads (s : step) (b : bit) : Prop :=
  match s with
  | Cell c => exists p sg, In (p, sg) (conns c) /\ p <> "\Y" /\ In b sg
  | Connect l r => In b r
  end.
Definition drives (s : step) (b : bit) : Prop :=
  match s with Cell c => exists sg, In ("\Y", sg) (conns c) /\ In b sg | Connect l r => In b l end.
Definition is_copy (m : module) (s : step) : Prop := match s with Cell _ => False | Connect l r => copies m l r end.

(** The bits of the outputs of several bits are not read before they are driven, in the order: the cells as listed, then the
    connections; and they are not driven by copying a whole wire. Copies of whole wires read no bits. *)
Definition in_order (m : module) (outs : list wire) (steps : list step) : Prop :=
  forall before s after, steps = (before ++ s :: after)%list -> ~ is_copy m s ->
    forall x i, In x outs -> width x <> 1 -> reads s (Bit (wname x) i) ->
    exists s', In s' before /\ drives s' (Bit (wname x) i) /\ ~ is_copy m s'.

(** Some cell or connection of the module drives the bit. *)
Definition driven (m : module) (b : bit) : Prop :=
  (exists name c, In (name, c) (cells m) /\ drives (Cell c) b) \/
  (exists l r, In (l, r) (connections m) /\ drives (Connect l r) b).

(** Values of MLIR: a wire of one bit is an i1, the others are tensors of bits. *)
Inductive value := VBit (b : bool) | VTensor (l : list bool).
Definition wire_value (rho : assignment) (x : wire) : value :=
  if Nat.eqb (width x) 1 then VBit (rho (wname x) 0) else VTensor (map (rho (wname x)) (seq 0 (width x))).

(** What an importer needs in order not to fail. *)

(** Gates for one importer, lookup tables for the other one. *)
Definition all_gates (m : module) : Prop :=
  forall name c, In (name, c) (cells m) -> exists k, kind_of (ctype c) = Some k /\ forall n, k <> KLut n.
Definition all_luts (m : module) : Prop := forall name c, In (name, c) (cells m) -> exists n, kind_of (ctype c) = Some (KLut n).

(** Every bit that is read is a constant, belongs to an input or was driven before. *)
Definition topological (m : module) (steps : list step) : Prop :=
  forall before s after, steps = (before ++ s :: after)%list ->
    forall x i, In x (wires m) -> port_input x = false -> reads s (Bit (wname x) i) ->
    exists s', In s' before /\ drives s' (Bit (wname x) i).

(** Internal wires have one bit, only bits of wires are driven, outputs of one bit are driven, and a connection that reads a
    whole wire of several bits either drives consecutive bits of a wire that is larger, or copies an input. *)
Definition simple (m : module) (outs : list wire) : Prop :=
  (forall x, In x (wires m) -> width x <> 0 /\ (port_input x = false -> port_output x = false -> width x = 1)) /\
  (forall name c p s, In (name, c) (cells m) -> In (p, s) (conns c) -> p = "\Y" -> forall b, ~ In (Const b) s) /\
  (forall l r, In (l, r) (connections m) -> l <> [] /\ forall b, ~ In (Const b) l) /\
  (forall x, In x outs -> width x = 1 -> driven m (Bit (wname x) 0)) /\
  (forall l r y, In (l, r) (connections m) -> In y (wires m) -> width y <> 1 -> r = whole y ->
     (exists x, In x (wires m) /\ l = whole x /\ port_input y = true) \/
     (exists x i, In x (wires m) /\ i + length l <= width x /\ length l <> width x /\ l = map (Bit (wname x)) (seq i (length l)))).
