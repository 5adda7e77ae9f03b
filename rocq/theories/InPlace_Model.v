(** Model of the two passes that turn allocating ciphertext operations into in-place ones.
    Sources: lib/Utils/AllocToInPlaceUtils.h, lib/Dialect/Lattigo/Transforms/AllocToInPlace.cpp,
    lib/Dialect/Openfhe/Transforms/AllocToInPlace.cpp.
    A program is one block of a function.  Operations other than the ones distinguished below behave like an
    allocating operation without in-place form.  Operands that are not ciphertexts (evaluator, plaintexts,
    shifts, constants) are part of the name [f] of the operation.  When an operation is replaced the new
    operation keeps the number of the old result; in the code the uses are redirected to the new result. *)
From Coq Require Import List Bool Arith.
Import ListNotations.

Inductive kind :=
| KOther                       (* no in-place form: encrypt, bootstrap, calls, ... *)
| KUnary                       (* Lattigo: ConvertUnaryOp, ConvertDropLevelOp *)
| KBinary.                     (* Lattigo: ConvertBinOp, ConvertRotateOp; they also look for the memref pattern *)
Definition convertible (k : kind) : bool := match k with KOther => false | _ => true end.

Inductive rhs :=
| INew (k : kind) (f : nat) (args : list nat)       (* allocates its result *)
| IInPlace (f : nat) (args : list nat) (dst : nat)  (* writes its result into the storage of dst *)
| IExtract (t i : nat)                              (* tensor.extract *)
| IInsert (c t i : nat)                             (* tensor.insert *)
| IPack (cs : list nat)                             (* tensor.from_elements *)
| IAlloc (n : nat)                                  (* memref.alloc *)
| ILoad (m i : nat)                                 (* memref.load *)
| IStore (c m i : nat)                              (* memref.store; no result *)
| ILoop (init trips f : nat) (args : list nat)      (* scf.for carrying init; its body is f, which uses args *)
| IDebug (v : nat).                                 (* call of a function __heir_debug...; no result *)
(** [lev]: the result of the level analysis (levels consumed), None if unknown; [dep]: the levels that the
    result has really consumed when the operation is executed. *)
Record instr := Instr { res : nat; def : rhs; lev : option nat; dep : nat }.
Record block := Block { code : list instr; rets : list nat }.

Definition mem_nat (x : nat) (l : list nat) : bool := existsb (Nat.eqb x) l.

(** * Uses of a value *)
(** uses by the operations of the block itself *)
Definition uses (d : rhs) : list nat :=
  match d with
  | INew _ _ args => args
  | IInPlace _ args dst => args ++ [dst]
  | IExtract t _ => [t]
  | IInsert c t _ => [c; t]
  | IPack cs => cs
  | IAlloc _ => []
  | ILoad m _ => [m]
  | IStore c m _ => [c; m]
  | ILoop init _ _ _ => [init]
  | IDebug v => [v]
  end.
(** uses by operations in nested blocks *)
Definition nested_uses (d : rhs) : list nat := match d with ILoop _ _ _ args => args | _ => [] end.
Definition all_uses (d : rhs) : list nat := uses d ++ nested_uses d.
Definition is_debug (d : rhs) : bool := match d with IDebug _ => true | _ => false end.

(** isDeadAfterLocal, AllocToInPlaceUtils.h:45-57: [b] is the whole block and [rest] what follows the operation *)
Definition dead_after_local (b : block) (rest : list instr) (v : nat) : bool :=
  negb (existsb (fun i => mem_nat v (nested_uses (def i))) (code b)) &&
  negb (existsb (fun i => mem_nat v (uses (def i))) rest) &&
  negb (mem_nat v (rets b)).

(** Liveness::isDeadAfter of MLIR for a value and an operation of a block without successors: no use by a
    later operation of the block or by an operation nested in one. *)
Definition dead_after (b : block) (rest : list instr) (v : nat) : bool :=
  negb (existsb (fun i => mem_nat v (all_uses (def i))) rest) && negb (mem_nat v (rets b)).

(** isStored, 59-93.  Slices are not modelled. *)
Definition only_debug (b : block) (v : nat) : bool :=
  forallb (fun i => negb (mem_nat v (all_uses (def i))) || is_debug (def i)) (code b) && negb (mem_nat v (rets b)).
Definition stored_by (b : block) (v : nat) (i : instr) : bool :=
  match def i with
  | IStore c _ _ => c =? v
  | IInsert c _ _ => (c =? v) && negb (only_debug b (res i))
  | _ => false
  end.
Definition is_stored (b : block) (v : nat) : bool :=
  existsb (stored_by b v) (code b) || mem_nat v (rets b).

(** * CallerProvidedStorageInfo, 120-249: a MapVector from storages to their referring values *)
Definition smap := list (nat * list nat).
Definition lookup (m : smap) (s : nat) : list nat :=
  match find (fun e => fst e =? s) m with Some e => snd e | None => [] end.
(** operator[] followed by an update of the entry; a missing key is appended *)
Fixpoint update (m : smap) (s : nat) (g : list nat -> list nat) : smap :=
  match m with
  | [] => [(s, g [])]
  | (k, vs) :: m' => if k =? s then (k, g vs) :: m' else (k, vs) :: update m' s g
  end.
(** 124 *)
Definition add_storage (m : smap) (s : nat) : smap := update m s (fun _ => []).
(** 126-128 *)
Definition add_referring (m : smap) (s v : nat) : smap := update m s (fun vs => vs ++ [v]).
(** 134-141 *)
Definition merge_storage (m : smap) (from to : nat) : smap :=
  filter (fun e => negb (fst e =? from)) (update m to (fun vs => vs ++ lookup m from)).
(** 145-162 *)
Definition storage_of (m : smap) (v : nat) : option nat :=
  option_map fst (find (fun e => mem_nat v (fst e :: snd e)) m).
(** 222-234 *)
Definition replace_alloc (m : smap) (old s : nat) : smap := merge_storage (add_referring m s old) old s.
(** 237-244; the level of a value is the one of its defining operation *)
Definition level_of (b : block) (v : nat) : option nat :=
  match find (fun i => res i =? v) (code b) with Some i => lev i | None => None end.
Definition storage_level (b : block) (e : nat * list nat) : option nat := level_of b (last (snd e) (fst e)).
(** getAvailableStorage, 178-220; [before] are the operations that precede the operation *)
Definition available (b : block) (before rest : list instr) (lv : option nat) (e : nat * list nat) : bool :=
  let '(s, vs) := e in
  mem_nat s (map res before) &&
  negb (is_stored b s || existsb (is_stored b) vs) &&
  match lv, storage_level b e with Some d, Some d' => negb (d <? d') | _, _ => false end &&
  (forallb (dead_after_local b rest) vs && dead_after_local b rest s).
Definition available_storage (b : block) (before rest : list instr) (lv : option nat) (m : smap) : option nat :=
  option_map fst (find (available b before rest lv) m).

(** initializeAllocToInPlaceBlockStorage, 252-295 *)
Definition init_instr (m : smap) (i : instr) : smap :=
  match def i with
  | INew _ _ _ => add_storage m (res i)
  | IInPlace _ _ dst => match storage_of m dst with Some s => add_referring m s (res i) | None => m end
  | _ => m
  end.
Definition init_map (b : block) : smap := fold_left init_instr (code b) [].

(** * Lattigo, AllocToInPlace.cpp *)
(** findStorageFromMemrefPattern, 54-85.  Memrefs must-alias when they are the same value, indices are
    constants; the uses are visited in program order. *)
Definition loaded_from (b : block) (m i v : nat) : bool :=
  existsb (fun j => match def j with ILoad m' i' => (res j =? v) && (m' =? m) && (i' =? i) | _ => false end) (code b).
Definition memref_storage (b : block) (rest : list instr) (r : nat) (args : list nat) : option nat :=
  let found := flat_map (fun j => match def j with
                                  | IStore c m i => if c =? r
                                                    then filter (fun v => loaded_from b m i v && dead_after b rest v) args
                                                    else []
                                  | _ => []
                                  end) (code b) in
  hd_error found.
(** the storage chosen by the patterns: 104-112, 154-159, 200-207, 263-268 *)
Definition choose (b : block) (before rest : list instr) (m : smap) (i : instr) (k : kind) (args : list nat) : option nat :=
  match k with
  | KOther => None
  | KUnary => available_storage b before rest (lev i) m
  | KBinary => match available_storage b before rest (lev i) m with
               | Some s => Some s
               | None => memref_storage b rest (res i) args
               end
  end.
(** runOnOperation, 298-343: the walk visits the operations in order *)
Fixpoint walk (done : list instr) (rest : list instr) (ret : list nat) (m : smap) : list instr :=
  match rest with
  | [] => done
  | i :: rest' =>
      match def i with
      | INew k f args =>
          match choose (Block (done ++ i :: rest') ret) done rest' m i k args with
          | Some s => walk (done ++ [Instr (res i) (IInPlace f args s) (lev i) (dep i)]) rest' ret
                        (replace_alloc m (res i) s)
          | None => walk (done ++ [i]) rest' ret m
          end
      | _ => walk (done ++ [i]) rest' ret m
      end
  end.
Definition lattigo_inplace (b : block) : block := Block (walk [] (code b) (rets b) (init_map b)) (rets b).

(** * OpenFHE: OperandMutatedStorageInfo, AllocToInPlaceUtils.h:311-373, and AllocToInPlace.cpp *)
(** the mutated operand is the first ciphertext operand, AllocToInPlace.cpp:34-38 *)
Definition of_storage (vs : list (nat * nat)) (v : nat) : nat :=
  match find (fun e => fst e =? v) vs with Some e => snd e | None => v end.
Definition safe_to_mutate (b : block) (rest : list instr) (vs : list (nat * nat)) (v : nat) : bool :=
  dead_after b rest v && dead_after b rest (of_storage vs v).
(** returns the new operations and the map valueToStorage *)
Fixpoint of_walk (done : list instr) (rest : list instr) (ret : list nat) (vs : list (nat * nat))
  : list instr * list (nat * nat) :=
  match rest with
  | [] => (done, vs)
  | i :: rest' =>
      match def i with
      | INew k f (v :: args) =>
          if convertible k && safe_to_mutate (Block (done ++ i :: rest') ret) rest' vs v
          then of_walk (done ++ [Instr (res i) (IInPlace f (v :: args) v) (lev i) (dep i)]) rest' ret ((res i, v) :: vs)
          else of_walk (done ++ [i]) rest' ret vs
      | _ => of_walk (done ++ [i]) rest' ret vs
      end
  end.
Definition openfhe_inplace (b : block) : block := Block (fst (of_walk [] (code b) (rets b) [])) (rets b).

(** A function whose body is [pre], a loop without iteration arguments around [body], and [post].  An operation
    of [pre] is followed by the loop and [post].  Liveness::isDeadAfter for an operation of the loop body only
    looks at the uses in the loop body: no successor block makes a value live out of it. *)
Record nest := Nest { pre : list instr; trips : nat; body : list instr; post : list instr; nrets : list nat }.
Definition used_in (is : list instr) : list nat := flat_map (fun i => all_uses (def i)) is.
Definition openfhe_inplace_nest (p : nest) : nest :=
  let '(pre', vs) := of_walk [] (pre p) (used_in (body p) ++ used_in (post p) ++ nrets p) [] in
  let '(body', vs') := of_walk [] (body p) [] vs in
  Nest pre' (trips p) body' (fst (of_walk [] (post p) (nrets p) vs')) (nrets p).
