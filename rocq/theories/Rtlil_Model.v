(** RTLILImporter with BooleanGateImporter and LUTImporter (lib/Transforms/YosysOptimizer): from a netlist to a function on
    bits and tensors of bits. Wires are identified by their names, instead of pointers. *)
From Coq Require Import Ascii String List Bool NArith Arith.
From Verif Require Import Lut_Spec Lut_Model Rtlil_Spec.
Import ListNotations.
Local Open Scope string_scope.
Local Open Scope list_scope.

(** The operations created by the importers: gates of comb (InvOp, AndOp, ..., variadic) and comb.truth_table. *)
Inductive comb := Inv | Nary (g : gate) | Table (t : N).

(** An SSA value, as the tree of the operations that define it. *)
Inductive expr :=
| Arg (i : nat) | Lit (b : bool) | Op (k : comb) (ins : list expr) | Extract (e : expr) (i : nat) | FromElements (l : list expr).

(** The meaning of the operations on bits, lib/Dialect/Comb/IR/Combinational.td. *)
Definition comb_value (k : comb) (l : list bool) : option bool :=
  match k, l with
  | Inv, [a] => Some (negb a)
  | Nary g, [a; b] => Some (gate_bit g a b)
  | Table t, _ => Some (truth_table t l)
  | _, _ => None
  end.
Definition as_bit (v : option value) : option bool := match v with Some (VBit b) => Some b | _ => None end.
Fixpoint all {A} (l : list (option A)) : option (list A) :=
  match l with
  | [] => Some []
  | Some a :: l => option_map (cons a) (all l)
  | None :: _ => None
  end.
Fixpoint eval (args : list value) (e : expr) : option value :=
  match e with
  | Arg i => nth_error args i
  | Lit b => Some (VBit b)
  | Op k ins =>
      match all (map (fun e => as_bit (eval args e)) ins) with Some l => option_map VBit (comb_value k l) | None => None end
  | Extract e i => match eval args e with Some (VTensor l) => option_map VBit (nth_error l i) | _ => None end
  | FromElements l => option_map VTensor (all (map (fun e => as_bit (eval args e)) l))
  end.

(** *** SigSpec of Yosys (kernel/rtlil.h) *)

Definition bit_dec (a b : bit) : {a = b} + {a <> b}.
Proof. decide equality; [apply Bool.bool_dec|apply Nat.eq_dec|apply string_dec]. Defined.
Definition signal_dec : forall s t : signal, {s = t} + {s <> t} := list_eq_dec bit_dec.
Definition find_wire (m : module) (name : string) : option wire := find (fun x => String.eqb (wname x) name) (wires m).

(** is_wire and as_wire: all bits of one wire. *)
Definition as_wire (m : module) (s : signal) : option string :=
  match s with
  | Bit w _ :: _ =>
      match find_wire m w with Some x => if signal_dec s (whole x) then Some w else None | None => None end
  | _ => None
  end.
Definition is_const (b : bit) : bool := match b with Const _ => true | Bit _ _ => false end.

(** The number of chunks after packing: constants next to each other and consecutive bits of a wire are joined. *)
Definition joins (a b : bit) : bool :=
  match a, b with
  | Const _, Const _ => true
  | Bit w i, Bit v j => String.eqb w v && Nat.eqb j (S i)
  | _, _ => false
  end.
Fixpoint chunks (s : signal) : nat :=
  match s with
  | [] => 0
  | a :: rest => match rest with [] => 1 | b :: _ => if joins a b then chunks rest else S (chunks rest) end
  end.
Definition is_chunk (s : signal) : bool := Nat.eqb (chunks s) 1.
Definition is_wire (m : module) (s : signal) : bool := match as_wire m s with Some _ => true | None => false end.

(** *** The importers of cells *)

(** BooleanGateImporter::getInputs, BooleanGateImporter.cpp 40-52. *)
Definition gate_inputs (c : cell) : list signal :=
  map snd (filter (fun conn => negb (contains "Y"%char (fst conn))) (conns c)).

(** BooleanGateImporter::createOp, BooleanGateImporter.cpp 20-38. All operations are created for every cell, the ones that
    are not wanted are dead; [inputs[0]] requires an input. *)
Definition gate_op (c : cell) (ins : list expr) : option expr :=
  match ins with
  | [] => None
  | first :: _ =>
      let type := ctype c in
      match lookup (substring 2 (String.length type - 3) type)
              [("NOT", Op Inv [first]); ("XNOR", Op (Nary XNOR) ins); ("AND", Op (Nary AND) ins); ("XOR", Op (Nary XOR) ins);
               ("NAND", Op (Nary NAND) ins); ("NOR", Op (Nary NOR) ins); ("OR", Op (Nary OR) ins)] with
      | Some op => Some op
      | None => None
      end
  end.

(** LUTImporter::getInputs, LUTImporter.cpp 41-61. *)
Definition lut_ports (c : cell) : list signal :=
  rev (map snd (filter (fun conn => negb (contains "P"%char (fst conn) || contains "Y"%char (fst conn))) (conns c))).

(** LUTImporter::createOp, LUTImporter.cpp 21-39; the assertion on the type is part of it. The rows are constants of one bit
    (as_bool). *)
Definition row (c : cell) (i : nat) : option bool :=
  match lookup (row_port i) (conns c) with Some [Const b] => Some b | _ => None end.
Definition digit_of (type : string) : option nat :=
  match get 4 type with
  | Some a => let n := nat_of_ascii a in if Nat.leb 48 n && Nat.leb n 57 then Some (n - 48) else None
  | None => None
  end.
Definition lut_op (c : cell) (ins : list expr) : option expr :=
  if prefix "\lut" (ctype c) then
    match digit_of (ctype c) with
    | Some bits =>
        match all (map (row c) (seq 0 (2 ^ bits))) with
        | Some rows =>
            match assemble 0 (2 ^ bits) rows with
            | Some table => if Nat.eqb (2 ^ length ins) (2 ^ bits) then Some (Op (Table table) ins) else None
            | None => None
            end
        | None => None
        end
    | None => None
    end
  else None.

(** getInputs, createOp and getOutput (BooleanGateImporter.cpp 54-57, LUTImporter.cpp 63-66). *)
Inductive importer := Boolean | LUT.
Definition get_inputs (k : importer) (c : cell) : list signal := match k with Boolean => gate_inputs c | LUT => lut_ports c end.
Definition create_op (k : importer) (c : cell) (ins : list expr) : option expr :=
  match k with Boolean => gate_op c ins | LUT => lut_op c ins end.
Definition get_output (c : cell) : option signal := lookup "\Y" (conns c).

(** *** RTLILImporter *)

(** wireNameToValue and retBitValues. *)
Record state := { named : string -> option expr; ret : string -> option (list expr) }.
Definition set {A} (f : string -> option A) (name : string) (a : A) : string -> option A :=
  fun n => if String.eqb n name then Some a else f n.

(** addWireValue, RTLILImporter.cpp 75-77: insert keeps a value that is there. *)
Definition add_wire_value (st : state) (name : string) (e : expr) : state :=
  match named st name with Some _ => st | None => {| named := set (named st) name e; ret := ret st |} end.

(** getBit, RTLILImporter.cpp 85-114. A failed assertion is no result; constants of several bits are no result. *)
Definition get_bit (m : module) (st : state) (s : signal) : option expr :=
  match as_wire m s with
  | Some w => named st w
  | None =>
      if forallb is_const s then match s with [Const b] => Some (Lit b) | _ => None end
      else
        match s with
        | [Bit w i] =>
            match ret st w with
            | Some l => nth_error l i
            | None => option_map (fun e => Extract e i) (named st w)
            end
        | _ => None
        end
  end.

Fixpoint replace_nth {A} (i : nat) (a : A) (l : list A) : list A :=
  match l, i with
  | [], _ => []
  | _ :: l, O => a :: l
  | b :: l, S i => b :: replace_nth i a l
  end.

(** addResultBit, RTLILImporter.cpp 116-138. *)
Definition add_result_bit (m : module) (st : state) (s : signal) (e : expr) : option state :=
  match as_wire m s with
  | Some w => Some (add_wire_value st w e)
  | None =>
      match s with
      | [Bit w i] =>
          match ret st w with
          | Some l =>
              if Nat.ltb i (length l) then Some {| named := named st; ret := set (ret st) w (replace_nth i e l) |} else None
          | None => match named st w with Some _ => Some st | None => None end
          end
      | _ => None
      end
  end.

(** One cell, RTLILImporter.cpp 197-209. *)
Definition import_cell (k : importer) (m : module) (st : state) (name : string) : option state :=
  match lookup name (cells m) with
  | Some c =>
      match all (map (get_bit m st) (get_inputs k c)) with
      | Some ins =>
          match create_op k c ins, get_output c with
          | Some op, Some out => add_result_bit m st out op
          | _, _ => None
          end
      | None => None
      end
  | None => None
  end.

(** A connection bit by bit, RTLILImporter.cpp 228-231. *)
Fixpoint connect_bits (m : module) (st : state) (l r : signal) : option state :=
  match l, r with
  | [], _ => Some st
  | a :: l, b :: r =>
      match get_bit m st [b] with
      | Some e => match add_result_bit m st [a] e with Some st => connect_bits m st l r | None => None end
      | None => None
      end
  | _ :: _, [] => None
  end.

(** One connection, RTLILImporter.cpp 212-237. *)
Definition import_connection (m : module) (st : state) (conn : signal * signal) : option state :=
  let (l, r) := conn in
  if existsb is_const l then None
  else if (is_chunk l && negb (is_wire m l)) || ((is_chunk r && negb (is_wire m r)) || Nat.ltb 1 (chunks r)) then connect_bits m st l r
  else match get_bit m st r with Some e => add_result_bit m st l e | None => None end.

Fixpoint run_all {A} (f : state -> A -> option state) (st : state) (l : list A) : option state :=
  match l with
  | [] => Some st
  | a :: l => match f st a with Some st => run_all f st l | None => None end
  end.

(** The ports, RTLILImporter.cpp 145-173, 192-194 and 247: maps from port_id - 1 to wires; a missing entry is a null pointer.
    The ids of the ports are taken to be different from each other. *)
Definition is_ret (x : wire) : bool := negb (port_input x) && port_output x.
Definition arg_at (m : module) (i : nat) : option wire := find (fun x => port_input x && Nat.eqb (port_id x) (S i)) (wires m).
Definition ret_at (m : module) (i : nat) : option wire := find (fun x => is_ret x && Nat.eqb (port_id x) (S i)) (wires m).

(** The state before the first cell, RTLILImporter.cpp 160, 184-194: bits of the outputs are 0. *)
Definition initial (m : module) (args : list wire) : state :=
  fold_left (fun st (ix : nat * wire) => add_wire_value st (wname (snd ix)) (Arg (fst ix))) (combine (seq 0 (length args)) args)
    {| named := fun _ => None;
       ret := fun name => match find_wire m name with
                          | Some x => if is_ret x then Some (repeat (Lit false) (width x)) else None
                          | None => None
                          end |}.

(** The value that is returned for an output, RTLILImporter.cpp 246-263. *)
Definition returned (st : state) (x : wire) : option expr :=
  match named st (wname x) with
  | Some e => Some e
  | None => match ret st (wname x) with
            | Some bits => if Nat.ltb 1 (length bits) then Some (FromElements bits) else None
            | None => None
            end
  end.

(** importModule, RTLILImporter.cpp 140-267: the values that the function returns. *)
Definition import_module (k : importer) (m : module) (order : list string) : option (list expr) :=
  let num_inputs := length (filter port_input (wires m)) in
  let num_rets := length (filter is_ret (wires m)) in
  match all (map (arg_at m) (seq 0 num_inputs)) with
  | Some args =>
      match run_all (import_cell k m) (initial m args) order with
      | Some st =>
          match run_all (import_connection m) st (connections m) with
          | Some st =>
              match all (map (fun i => ret_at m (num_inputs + i)) (seq 0 num_rets)) with
              | Some rets => all (map (returned st) rets)
              | None => None
              end
          | None => None
          end
      | None => None
      end
  | None => None
  end.

(** The function on the values of its arguments. *)
Definition run (results : list expr) (args : list value) : option (list value) := all (map (eval args) results).
