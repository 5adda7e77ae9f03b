(** lib/Kernel/RotationCountVisitor.cpp and the visitor of the same name in
    lib/Transforms/LayoutOptimization/LayoutConversionCost.cpp. *)
From Coq Require Import ZArith List Bool Arith Lia.
From Verif Require Import RotCount_Spec.
Import ListNotations.
Open Scope Z_scope.

Definition bind {A B} (o : option A) (f : A -> option B) : option B :=
  match o with Some a => f a | None => None end.
Notation "' p <- e ;; f" := (bind e (fun x => match x with p => f end))
  (at level 100, p pattern, e at next level, right associativity).

(** RotationCountVisitor.h:52-53. The map from nodes to secrecy gives false for
    nodes not yet entered, as operator[] of std::unordered_map does. *)
Record state := State { visitedNodes : list nat; nodeSecretStatus : nat -> bool }.

Definition visited (s : state) (i : nat) : bool := existsb (Nat.eqb i) (visitedNodes s).
Definition insert_visited (i : nat) (s : state) : state :=
  State (i :: visitedNodes s) (nodeSecretStatus s).
Definition set_status (i : nat) (b : bool) (s : state) : state :=
  State (visitedNodes s) (fun j => if Nat.eqb j i then b else nodeSecretStatus s j).

(** (upper - lower) / step in int32_t (RotationCountVisitor.cpp:269, the fields
    of ArithmeticDag.h:233-235); overflow and division by 0 are undefined. *)
Definition in_int32 (z : Z) : bool := (- 2 ^ 31 <=? z) && (z <? 2 ^ 31).
Definition iterations (lower upper step : Z) : option Z :=
  if (step =? 0) || negb (in_int32 (upper - lower)) then None
  else let q := Z.quot (upper - lower) step in if in_int32 q then Some q else None.

Section Visit.
  Variable processInternal : nat -> state -> option (Z * state).

  (** RotationCountVisitor.cpp:57-69, 71-84, 86-99, 186-199 *)
  Definition visit_binary (thisNode left right : nat) (s : state) : option (Z * state) :=
    '(leftCount, s) <- processInternal left s ;;
    '(rightCount, s) <- processInternal right s ;;
    let leftIsSecret := nodeSecretStatus s left in
    let rightIsSecret := nodeSecretStatus s right in
    Some (leftCount + rightCount, set_status thisNode (leftIsSecret || rightIsSecret) s).

  (** RotationCountVisitor.cpp:101-108, 110-121, 237-244 *)
  Definition visit_unary (thisNode operand : nat) (s : state) : option (Z * state) :=
    '(count, s) <- processInternal operand s ;;
    Some (count, set_status thisNode (nodeSecretStatus s operand) s).

  (** RotationCountVisitor.cpp:123-138 (one rotation), 140-154 (as many as there
      are shifts). The shifts are not visited. *)
  Definition visit_rotate (thisNode operand : nat) (rotations : Z) (s : state) : option (Z * state) :=
    '(operandCount, s) <- processInternal operand s ;;
    let operandIsSecret := nodeSecretStatus s operand in
    Some (operandCount + (if operandIsSecret then rotations else 0),
          set_status thisNode operandIsSecret s).

  (** RotationCountVisitor.cpp:156-168 *)
  Definition visit_extract (thisNode operand index : nat) (s : state) : option (Z * state) :=
    '(operandCount, s) <- processInternal operand s ;;
    '(indexCount, s) <- processInternal index s ;;
    Some (operandCount + indexCount, set_status thisNode (nodeSecretStatus s operand) s).

  (** RotationCountVisitor.cpp:170-184 *)
  Definition visit_insert (thisNode scalar dest index : nat) (s : state) : option (Z * state) :=
    '(scalarCount, s) <- processInternal scalar s ;;
    '(destCount, s) <- processInternal dest s ;;
    '(indexCount, s) <- processInternal index s ;;
    let scalarIsSecret := nodeSecretStatus s scalar in
    let destIsSecret := nodeSecretStatus s dest in
    Some (scalarCount + destCount + indexCount, set_status thisNode (scalarIsSecret || destIsSecret) s).

  (** RotationCountVisitor.cpp:201-216 *)
  Definition visit_if (thisNode condition thenBody elseBody : nat) (s : state) : option (Z * state) :=
    '(condCount, s) <- processInternal condition s ;;
    '(thenCount, s) <- processInternal thenBody s ;;
    '(elseCount, s) <- processInternal elseBody s ;;
    let condIsSecret := nodeSecretStatus s condition in
    let thenIsSecret := nodeSecretStatus s thenBody in
    let elseIsSecret := nodeSecretStatus s elseBody in
    Some (condCount + thenCount + elseCount,
          set_status thisNode (condIsSecret || thenIsSecret || elseIsSecret) s).

  (** the loops of RotationCountVisitor.cpp:229-232 and 253-256 *)
  Fixpoint visit_elements (elements : list nat) (totalCount : Z) (isSecret : bool) (s : state)
    : option (Z * bool * state) :=
    match elements with
    | [] => Some (totalCount, isSecret, s)
    | element :: rest =>
        '(count, s) <- processInternal element s ;;
        visit_elements rest (totalCount + count) (isSecret || nodeSecretStatus s element) s
    end.

  (** RotationCountVisitor.cpp:246-270 *)
  Definition visit_for (thisNode : nat) (inits : list nat) (body : option nat)
      (lower upper step : Z) (s : state) : option (Z * state) :=
    '(initCount, initIsSecret, s) <- visit_elements inits 0 false s ;;
    '(bodyCount, s) <- match body with Some b => processInternal b s | None => Some (0, s) end ;;
    let bodyIsSecret := match body with Some b => nodeSecretStatus s b | None => false end in
    '(n) <- iterations lower upper step ;;
    Some (initCount + bodyCount * n, set_status thisNode (initIsSecret || bodyIsSecret) s).

  (** the operators of RotationCountVisitor.cpp:39-281, chosen by std::visit *)
  Definition visit_node (thisNode : nat) (n : node) (s : state) : option (Z * state) :=
    match n with
    | ConstantScalar | ConstantTensor | Splat | Empty => Some (0, set_status thisNode false s)
    | Leaf isSecret => Some (0, set_status thisNode isSecret s)
    | Add l r | Subtract l r | Multiply l r | Comparison l r => visit_binary thisNode l r s
    | FloorDiv a | Power a | ResultAt a _ => visit_unary thisNode a s
    | LeftRotate a _ => visit_rotate thisNode a 1 s
    | LeftRotateBulk a shifts => visit_rotate thisNode a (Z.of_nat (length shifts)) s
    | Extract a i => visit_extract thisNode a i s
    | Insert x d i => visit_insert thisNode x d i s
    | IfElse c t e => visit_if thisNode c t e s
    | Variable_ => Some (0, set_status thisNode false s)
    | Yield es =>
        '(totalCount, isSecret, s) <- visit_elements es 0 false s ;;
        Some (totalCount, set_status thisNode isSecret s)
    | ForLoop inits _ body lower upper step => visit_for thisNode inits body lower upper step s
    end.
End Visit.

(** RotationCountVisitor.cpp:20-35. The recursion is on a bound on its depth,
    which the number of nodes is for graphs without cycles; a pointer to no node
    is undefined. Counts are int64_t in the code, here they are unbounded. *)
Fixpoint processInternal (fuel : nat) (d : dag) (i : nat) (s : state) : option (Z * state) :=
  match fuel with
  | O => None
  | S fuel =>
      if visited s i then Some (0, s)
      else
        let s := insert_visited i s in
        match nth_error d i with
        | None => None
        | Some n => visit_node (processInternal fuel d) i n s
        end
  end.

(** RotationCountVisitor.cpp:14-18 *)
Definition process (d : dag) (root : nat) : option Z :=
  '(count, _) <- processInternal (S (length d)) d root (State [] (fun _ => false)) ;;
  Some count.

(** LayoutConversionCost.cpp:48-78 with CachingVisitor::process of
    ArithmeticDag.h:518-533: the cache holds the results of the nodes already
    processed. Other nodes are not implemented (assertions of ArithmeticDag.h). *)
Definition cache := list (nat * Z).
Definition lookup (c : cache) (i : nat) : option Z :=
  option_map snd (find (fun p => Nat.eqb i (fst p)) c).

Fixpoint caching_process (fuel : nat) (d : dag) (i : nat) (c : cache) : option (Z * cache) :=
  match fuel with
  | O => None
  | S fuel =>
      match lookup c i with
      | Some result => Some (result, c)
      | None =>
          '(result, c) <-
            match nth_error d i with
            | Some (ConstantScalar) | Some (ConstantTensor) | Some (Leaf _) => Some (0, c)
            | Some (Add l r) | Some (Subtract l r) | Some (Multiply l r) =>
                '(x, c) <- caching_process fuel d l c ;;
                '(y, c) <- caching_process fuel d r c ;;
                Some (x + y, c)
            | Some (LeftRotate a _) =>
                '(x, c) <- caching_process fuel d a c ;;
                Some (x + 1, c)
            | _ => None
            end ;;
          Some (result, (i, result) :: c)
      end
  end.

(** LayoutConversionCost.cpp:121-124: every output gets its own counter *)
Fixpoint group_rotations (d : dag) (outputs : list nat) (groupRotations : Z) : option Z :=
  match outputs with
  | [] => Some groupRotations
  | v :: rest =>
      '(x, _) <- caching_process (S (length d)) d v [] ;;
      group_rotations d rest (groupRotations + x)
  end.

(** LayoutConversionCost.cpp:113-126: the largest number among the groups *)
Fixpoint max_rotations (d : dag) (groups : list (list nat)) (maxRotations : Z) : option Z :=
  match groups with
  | [] => Some maxRotations
  | g :: rest =>
      '(x) <- group_rotations d g 0 ;;
      max_rotations d rest (Z.max maxRotations x)
  end.
