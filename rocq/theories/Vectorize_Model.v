(** Model of the boolean vectorizer and the straight line vectorizer.
    lib/Transforms/BooleanVectorizer/BooleanVectorizer.cpp
    lib/Transforms/StraightLineVectorizer/StraightLineVectorizer.cpp
    lib/Dialect/CGGI/IR/CGGIOps.cpp 142-315 ([isBatchCompatible], [buildBatchedOperation])

    Simplified: an operation has one result; the values that the terminator reads are given as a list beside the
    operations; the constants for the indices of tensor.extract are part of the extract; blocks nested in an operation
    are part of its meaning and capture no value of the block; the groups of compatible operations, kept in a hash map,
    are visited in the order in which they were created; values are numbers, an operation is known by the number of its
    result, new values get the numbers from [next] on. *)
From Coq Require Import Arith Bool List NArith.
From Verif Require Import Graph_Model Lut_Spec Vectorize_Spec.
Import ListNotations.

Definition find_op (ops : list op) (i : nat) : option op := find (fun o => rid o =? i) ops.
Definition mem (i : nat) (l : list nat) : bool := existsb (Nat.eqb i) l.

(** MLIR's [getBackwardSlice] of an operation, as used in BooleanVectorizer.cpp 129-133: all values needed, going
    backwards through the operations in front of it; [before] is the block in front of the operation, last one first *)
Fixpoint slice (before : list op) (wanted : list nat) : list nat :=
  match before with
  | [] => wanted
  | o :: rest => slice rest (if mem (rid o) wanted then args o ++ wanted else wanted)
  end.

Section Engine.
(** which operations become vertices, which are compatible, and the lanes of the vector operation for a bucket *)
Variable candidate : op -> bool.
Variable compatible : op -> op -> bool.
Variable lanes : op -> list op -> option (list scalar_op).

(** BooleanVectorizer.cpp 121-139, StraightLineVectorizer.cpp 40-62: the dependency graph; an edge whose source is not
    a vertex is refused by [addEdge] (Graph.h 54-61) *)
Fixpoint build_graph (before ops : list op) (g : graph) : graph :=
  match ops with
  | [] => g
  | o :: rest =>
    let g' := if candidate o
              then fold_left (fun g u => snd (add_edge u (rid o) g)) (slice before (args o)) (add_vertex (rid o) g)
              else g in
    build_graph (o :: before) rest g'
  end.

(** BooleanVectorizer.cpp 87-117 [buildCompatibleOps]; [parallelism] 0 means no limit.  The straight line vectorizer
    (90-101) does the same without a limit. *)
Definition group : Type := op * list (list op).
Fixpoint push (parallelism : nat) (o : op) (buckets : list (list op)) : list (list op) :=
  match buckets with
  | [] => [[o]]   (* not reached: every group has a bucket *)
  | [b] => if (parallelism =? 0) || (length b <? parallelism) then [b ++ [o]] else [b; [o]]
  | b :: rest => b :: push parallelism o rest
  end.
Definition add_op (parallelism : nat) (groups : list group) (o : op) : list group :=
  let groups' := map (fun g => if compatible (fst g) o then (fst g, push parallelism o (snd g)) else g) groups in
  if existsb (fun g => compatible (fst g) o) groups then groups' else groups' ++ [(o, [[o]])].
Definition build_groups (parallelism : nat) (level : list op) : list group :=
  fold_left (add_op parallelism) level [].
(** BooleanVectorizer.cpp 79-85 *)
Definition bucket_size (buckets : list (list op)) : nat := fold_left (fun n b => n + length b) buckets 0.

(** the block, the values its terminator reads, and the number of the next new value *)
Record state := { ops : list op; rets : list nat; next : nat }.

Fixpoint assoc (l : list (nat * nat)) (i : nat) : nat :=
  match l with [] => i | (a, b) :: r => if i =? a then b else assoc r i end.
Definition rename (s : list (nat * nat)) (o : op) : op :=
  {| rid := rid o; kind := kind o; args := map (assoc s) (args o); typ := typ o; disc := disc o |}.
(** the operation as it stands in the block now; [None]: it has been erased *)
Definition current (st : state) (l : list op) : option (list op) := all_some (map (fun o => find_op (ops st) (rid o)) l).

(** BooleanVectorizer.cpp 36-77 [buildVectorizedOperands] (StraightLineVectorizer.cpp 121-132) for operand [j] *)
Definition operand (j : nat) (bucket : list op) : option (list nat) := all_some (map (fun o => nth_error (args o) j) bucket).
Definition build_operands (st : state) (key : op) (bucket : list op) : option (list op) :=
  all_some (map (fun j => option_map (fun a =>
      {| rid := next st + j; kind := FromElements; args := a; typ := typ key; disc := 0 |}) (operand j bucket))
    (seq 0 (length (args key)))).
(** BooleanVectorizer.cpp 186-226, StraightLineVectorizer.cpp 114-148: the operations for one bucket are built in front
    of its last operation, and its results are replaced by the extracted elements *)
Fixpoint insert_before (i : nat) (new ops : list op) : list op :=
  match ops with
  | [] => []
  | o :: rest => if rid o =? i then new ++ ops else o :: insert_before i new rest
  end.
Definition replace_bucket (key : op) (bucket : list op) (st : state) : option state :=
  match current st [key], current st bucket with
  | Some [k], Some now =>
    match build_operands st k now, lanes k now with
    | Some vectors, Some ks =>
      let packed := next st + length vectors in
      let vop := {| rid := packed; kind := Lanes ks; args := map rid vectors; typ := typ k; disc := 0 |} in
      let extracts := map (fun i => {| rid := packed + 1 + i; kind := Extract i; args := [packed]; typ := typ k; disc := 0 |})
                          (seq 0 (length now)) in
      let s := combine (map rid now) (map rid extracts) in
      Some {| ops := map (rename s) (insert_before (rid (last now k)) (vectors ++ vop :: extracts) (ops st));
              rets := map (assoc s) (rets st); next := packed + 1 + length now |}
    | _, _ => None
    end
  | _, _ => None
  end.
Fixpoint replace_buckets (key : op) (buckets : list (list op)) (st : state) : option state :=
  match buckets with
  | [] => Some st
  | b :: rest => match replace_bucket key b st with Some st' => replace_buckets key rest st' | None => None end
  end.
(** BooleanVectorizer.cpp 229-234, StraightLineVectorizer.cpp 150-152 *)
Definition erase (l : list op) (st : state) : state :=
  {| ops := filter (fun o => negb (mem (rid o) (map rid l))) (ops st); rets := rets st; next := next st |}.
(** BooleanVectorizer.cpp 172-235, StraightLineVectorizer.cpp 105-154: groups with fewer than two operations stay *)
Fixpoint vectorize_groups (groups : list group) (st : state) : option state :=
  match groups with
  | [] => Some st
  | (key, buckets) :: rest =>
    if bucket_size buckets <? 2 then vectorize_groups rest st
    else match replace_buckets key buckets st with
         | Some st' => vectorize_groups rest (erase (concat buckets) st')
         | None => None
         end
  end.
Fixpoint vectorize_levels (parallelism : nat) (levels : list (list op)) (st : state) : option state :=
  match levels with
  | [] => Some st
  | l :: rest =>
    match vectorize_groups (build_groups parallelism l) st with
    | Some st' => vectorize_levels parallelism rest st'
    | None => None
    end
  end.
(** BooleanVectorizer.cpp 119-238 [tryBoolVectorizeBlock], StraightLineVectorizer.cpp 38-158 [tryVectorizeBlock];
    [None]: the assertion on a cycle, the use of an erased operation, or the failure to build the vector operation *)
Definition vectorize (parallelism : nat) (st : state) : option state :=
  match sort_by_levels (build_graph [] (ops st) empty_graph) with
  | Some (Some levels) =>
    match all_some (map (fun l => all_some (map (find_op (ops st)) l)) levels) with
    | Some ls => vectorize_levels parallelism ls st
    | None => None
    end
  | _ => None
  end.
End Engine.

(** ** The boolean vectorizer *)
(** CGGIBinOps.td 7-46, CGGIOps.td (Lut3Op): the operations that implement BatchVectorizableOpInterface *)
Definition batchable (o : op) : bool :=
  match kind o with Scalar (Gate _) | Scalar Not | Scalar (Lut3 _) => true | _ => false end.
(** CGGIOps.cpp 188-192 [isPackedGateOp], 196-291, 294 [isBatchCompatible] of the key [k] *)
Definition batch_compatible (k o : op) : bool :=
  match kind k, kind o with
  | Scalar (Gate _), Scalar (Gate _) => (typ k =? typ o) && (disc k =? disc o)
  | Scalar Not, Scalar Not => (disc k =? disc o) && (typ k =? typ o)
  | Scalar (Lut3 _), Scalar (Lut3 _) => true
  | _, _ => false
  end.
(** CGGIOps.cpp 142-186 [buildBatchedBooleanGateOperation], 279-292 (NotOp), 296-316 (Lut3Op): the gates, or the tables,
    of the operations in the bucket; a vector of negations *)
Definition batch_lanes (k : op) (bucket : list op) : option (list scalar_op) :=
  match kind k with
  | Scalar (Gate _) => all_some (map (fun o => match kind o with Scalar (Gate g) => Some (Gate g) | _ => None end) bucket)
  | Scalar Not => Some (map (fun _ => Not) bucket)
  | Scalar (Lut3 _) => all_some (map (fun o => match kind o with Scalar (Lut3 t) => Some (Lut3 t) | _ => None end) bucket)
  | _ => None
  end.
Definition boolean_vectorize : nat -> state -> option state := vectorize batchable batch_compatible batch_lanes.

(** ** The straight line vectorizer *)
Definition gate_eqb (g h : gate) : bool :=
  match g, h with
  | AND, AND | NAND, NAND | OR, OR | NOR, NOR | XOR, XOR | XNOR, XNOR => true
  | _, _ => false
  end.
(** name and attributes agree *)
Definition same_op (k l : scalar_op) : bool :=
  match k, l with
  | Gate g, Gate h => gate_eqb g h
  | Not, Not => true
  | Lut3 t, Lut3 u => N.eqb t u
  | Other f a, Other g b => (f =? g) && (a =? b)
  | _, _ => false
  end.
(** StraightLineVectorizer.cpp 40-50: [elementwise] says which operations have the trait and belong to the dialect *)
Definition straight_candidate (elementwise : scalar_op -> bool) (o : op) : bool :=
  match kind o with Scalar k => elementwise k | _ => false end.
(** StraightLineVectorizer.cpp 26-38 [areCompatible]; [mappable]: has all elementwise mappable traits *)
Definition are_compatible (mappable : scalar_op -> bool) (l r : op) : bool :=
  match kind l, kind r with
  | Scalar k, Scalar k' => same_op k k' && (typ l =? typ r) && (disc l =? disc r) && mappable k
  | _, _ => false
  end.
(** StraightLineVectorizer.cpp 134-136: a copy of the key with vector operands *)
Definition straight_lanes (k : op) (bucket : list op) : option (list scalar_op) :=
  match kind k with Scalar s => Some (map (fun _ => s) bucket) | _ => None end.
Definition straight_vectorize (elementwise mappable : scalar_op -> bool) : state -> option state :=
  vectorize (straight_candidate elementwise) (are_compatible mappable) straight_lanes 0.
