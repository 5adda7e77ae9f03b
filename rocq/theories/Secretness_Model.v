(** Model of the secretness analysis.
    Source: lib/Analysis/SecretnessAnalysis/SecretnessAnalysis.h and .cpp, lib/Analysis/Utils.h.
    The analysis is a set of update steps on a lattice value per SSA value; the MLIR solver repeats them, in
    an order of its own, until nothing changes.  Modelled here: the update steps written in the repository,
    and the three the framework performs itself (SparseForwardDataFlowAnalysis): results and block arguments
    of control-flow operations are joined from the values forwarded to them, the induction variable of a
    loop gets the entry state, and so do the block arguments of other regions.  Simplified: every block is
    live (no DeadCodeAnalysis), control flow is scf.if and scf.for, functions call only external functions,
    and a memref is a named buffer. *)
From Coq Require Import List Bool Arith.
Import ListNotations.

(** * The lattice, SecretnessAnalysis.h:24-90 *)
Definition secretness := option bool.
(** 47-54 *)
Definition join (l r : secretness) : secretness :=
  match l, r with
  | None, _ => r
  | _, None => l
  | Some a, Some b => if Bool.eqb a b then l else Some (a || b)
  end.
Definition state := nat -> secretness.
Definition upd {A} (v : nat) (x : A) (f : nat -> A) : nat -> A := fun u => if Nat.eqb u v then x else f u.

(** * Programs *)
Inductive op :=
| OpPure (name : nat) (ins outs : list nat)                 (* an operation without regions *)
| OpRegion (name : nat) (ins caps outs : list nat)          (* regions that are no control flow; they use [caps] *)
| OpCall (name : nat) (ins outs : list nat)                 (* call of an external function *)
| OpReveal (i o : nat)                                      (* secret.reveal *)
| OpAlloc (m : nat)
| OpStore (v m i : nat)
| OpLoad (r m i : nat)
| OpIf (c : nat) (tb : list op) (ty : list nat) (eb : list op) (ey : list nat) (outs : list nat)
| OpFor (lb ub st : nat) (inits : list nat) (iv : nat) (args : list nat) (body : list op) (yields outs : list nat)
| OpGeneric (ins : list (nat * bool)) (args : list nat) (body : list op) (yields outs : list nat).
                                                            (* secret.generic; true: operand of secret type *)
(** an argument: value, element type is secret-like, carries the attribute secret.secret *)
Record func := Func { f_args : list (nat * (bool * bool)); f_body : list op }.

(** * Update steps *)
Inductive unit_ :=
| UEntry (v : nat) (secret_type : bool)
| UOp (ins outs : list nat) (regions : bool)
| UReveal (o : nat)
| UCall (ins outs : list nat)
| UJoin (src dst : nat).

(** SecretnessAnalysis.cpp:96-109: the loop over the operands; [uninit] is isUninitializedOpFound *)
Fixpoint operand_loop (st : state) (ins : list nat) (res : secretness) (uninit : bool) : secretness * bool :=
  match ins with
  | [] => (res, uninit)
  | v :: ins' =>
      let uninit := match st v with None => true | Some _ => uninit end in
      let res := join res (st v) in
      match res with
      | Some true => (res, uninit)
      | _ => operand_loop st ins' res uninit
      end
  end.
(** 74-128 [visitOperation], other operations than reveal *)
Definition visit_op (st : state) (ins : list nat) (regions : bool) : secretness :=
  let res0 := match ins with [] => Some false | _ => None end in
  let '(res, uninit) := operand_loop st ins res0 false in
  if uninit || regions then match res with Some false => None | _ => res end else res.
(** Utils.h:27-43 *)
Definition visit_call (st : state) (ins : list nat) : secretness :=
  fold_left (fun acc v => join acc (st v)) ins None.

Definition join_into (x : secretness) (st : state) (v : nat) : state := upd v (join (st v) x) st.
Definition visit (u : unit_) (st : state) : state :=
  match u with
  | UEntry v b => join_into (Some b) st v                                     (* 34-72 *)
  | UOp ins outs rg => fold_left (join_into (visit_op st ins rg)) outs st
  | UReveal o => join_into (Some false) st o                                  (* 86-93 *)
  | UCall ins outs => fold_left (join_into (visit_call st ins)) outs st
  | UJoin s d => join_into (st s) st d
  end.

Definition joins (srcs dsts : list nat) : list unit_ := map (fun p => UJoin (fst p) (snd p)) (combine srcs dsts).
(** the update steps of an operation *)
Fixpoint op_units (o : op) : list unit_ :=
  match o with
  | OpPure _ ins outs => [UOp ins outs false]
  | OpRegion _ ins _ outs => [UOp ins outs true]
  | OpCall _ ins outs => [UCall ins outs]
  | OpReveal _ r => [UReveal r]
  | OpAlloc m => [UOp [] [m] false]
  | OpStore v m i => [UOp [v; m; i] [] false]
  | OpLoad r m i => [UOp [m; i] [r] false]
  | OpIf _ tb ty eb ey outs =>
      joins ty outs ++ joins ey outs ++ flat_map op_units tb ++ flat_map op_units eb
  | OpFor _ _ _ inits iv args body yields outs =>
      [UEntry iv false] ++ joins inits args ++ joins yields args ++ joins inits outs ++ joins yields outs ++
      flat_map op_units body
  | OpGeneric ins args body _ outs =>
      [UOp (map fst ins) outs true] ++ map (fun p : nat * (nat * bool) => UEntry (fst p) (snd (snd p))) (combine args ins) ++
      flat_map op_units body
  end.
(** 55-69 arguments of a function *)
Definition func_units (f : func) : list unit_ :=
  map (fun a : nat * (bool * bool) => UEntry (fst a) (if snd (snd a) then true else fst (snd a))) (f_args f) ++ flat_map op_units (f_body f).

(** A run of the solver: steps of the function in any order, any number of times ... *)
Definition run (us : list unit_) : state := fold_left (fun st u => visit u st) us (fun _ => None).
(** ... until no step changes anything. *)
Definition solution (f : func) (st : state) : Prop :=
  (exists us, incl us (func_units f) /\ forall v, st v = run us v) /\
  (forall u, In u (func_units f) -> forall v, visit u st v = st v).

(** 242-250 *)
Definition is_secret (st : state) (v : nat) : bool := match st v with Some b => b | None => false end.
(** 252-258 *)
Definition all_secret (st : state) (vs : list nat) : bool :=
  match vs with [] => false | _ => forallb (is_secret st) vs end.
