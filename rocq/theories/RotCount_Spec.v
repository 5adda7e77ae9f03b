(** The rotations that evaluating a kernel performs on encrypted data. A kernel
    is a graph of operations that share their operands; the graph is a list of
    nodes that name their operands by position. *)
From Coq Require Import ZArith List Lia.
Import ListNotations.
Open Scope Z_scope.

(** ArithmeticDag.h:98-236. Values, types, divisors and exponents do not matter
    for rotations; a leaf is encrypted or not (AbstractValue.h, SymbolicValue).
    The first operand of a rotation is the data, the others are shifts. *)
Inductive node :=
  | ConstantScalar
  | ConstantTensor
  | Leaf (isSecret : bool)
  | Add (left right : nat)
  | Subtract (left right : nat)
  | Multiply (left right : nat)
  | FloorDiv (left : nat)
  | Power (base : nat)
  | LeftRotate (operand shift : nat)
  | LeftRotateBulk (operand : nat) (shifts : list nat)
  | Extract (operand index : nat)
  | Insert (scalar dest index : nat)
  | Comparison (left right : nat)
  | IfElse (condition thenBody elseBody : nat)
  | Variable_
  | ForLoop (inits iterArgs : list nat) (body : option nat) (lower upper step : Z)
  | Yield (elements : list nat)
  | ResultAt (operand : nat) (index : nat)
  | Splat
  | Empty.

Definition dag := list node.

Definition operands (n : node) : list nat :=
  match n with
  | ConstantScalar | ConstantTensor | Leaf _ | Variable_ | Splat | Empty => []
  | Add l r | Subtract l r | Multiply l r | Comparison l r => [l; r]
  | FloorDiv a | Power a | ResultAt a _ => [a]
  | LeftRotate a s => [a; s]
  | LeftRotateBulk a ss => a :: ss
  | Extract a i => [a; i]
  | Insert s d i => [s; d; i]
  | IfElse c t e => [c; t; e]
  | ForLoop inits _ body _ _ _ =>
      inits ++ match body with Some b => [b] | None => [] end
  | Yield es => es
  end.

(** Operands come before the nodes that use them: the graph has no cycles. *)
Definition acyclic (d : dag) : Prop :=
  forall i n, nth_error d i = Some n -> forall c, In c (operands n) -> (c < i)%nat.

Inductive reach (d : dag) : nat -> nat -> Prop :=
  | reach_self i : (i < length d)%nat -> reach d i i
  | reach_step i n c j : nth_error d i = Some n -> In c (operands n) -> reach d c j -> reach d i j.

(** A value is secret if it is computed from an encrypted leaf, possibly
    through the values that a loop carries from one iteration to the next. *)
Inductive secret (d : dag) : nat -> Prop :=
  | secret_leaf i : nth_error d i = Some (Leaf true) -> secret d i
  | secret_operand i n c : nth_error d i = Some n -> In c (operands n) -> secret d c -> secret d i
  | secret_init a i inits args body lo up st k x :
      nth_error d i = Some (ForLoop inits args body lo up st) ->
      nth_error args k = Some a -> nth_error inits k = Some x -> secret d x -> secret d a
  | secret_next a i inits args b lo up st k x es :
      nth_error d i = Some (ForLoop inits args (Some b) lo up st) ->
      nth_error args k = Some a -> nth_error d b = Some (Yield es) ->
      nth_error es k = Some x -> secret d x -> secret d a.

(** ... and not only through values that loops carry. *)
Definition directly_secret (d : dag) (i : nat) : Prop :=
  exists j, reach d i j /\ nth_error d j = Some (Leaf true).

(** The operand and the number of the rotations of a node. *)
Definition rotates (n : node) : option (nat * nat) :=
  match n with
  | LeftRotate a _ => Some (a, 1%nat)
  | LeftRotateBulk a ss => Some (a, length ss)
  | _ => None
  end.

(** Rotation number [k] of node [i] is one of encrypted data, in the kernel
    with result [root]. *)
Definition secret_rotation (d : dag) (root : nat) (p : nat * nat) : Prop :=
  let (i, k) := p in
  reach d root i /\
  exists n a m, nth_error d i = Some n /\ rotates n = Some (a, m) /\ (k < m)%nat /\ secret d a.

(** Positions and shifts are public. *)
Definition public_positions (n : node) : list nat :=
  match n with
  | LeftRotate _ s => [s]
  | LeftRotateBulk _ ss => ss
  | Extract _ i => [i]
  | Insert _ _ i => [i]
  | _ => []
  end.

Definition positions_public (d : dag) (root : nat) : Prop :=
  forall i n s, reach d root i -> nth_error d i = Some n ->
    In s (public_positions n) -> ~ secret d s.

(** A loop from [lo] below [up] by [st] runs [t] times. *)
Definition iterates (lo up st t : Z) : Prop :=
  0 <= t /\ forall k, 0 <= k -> (k < t <-> lo + k * st < up).

(** [w i] is how often node [i] is evaluated: as often as what uses it, and the
    body of a loop as often as the loop runs. That there is such a [w] means
    that no node that encrypted data is rotated for is used in two places that
    are evaluated differently often. *)
Definition evaluated (d : dag) (root : nat) (w : nat -> Z) : Prop :=
  w root = 1 /\
  forall i n c, reach d root i -> nth_error d i = Some n -> In c (operands n) ->
    (exists p, secret_rotation d c p) ->
    match n with
    | ForLoop inits _ body lo up st =>
        (In c inits -> w c = w i) /\
        (body = Some c -> exists t, iterates lo up st t /\ w c = w i * t)
    | _ => w c = w i
    end.

Fixpoint sum (l : list Z) : Z := match l with [] => 0 | x :: r => x + sum r end.

(** Paths of operands down the graph. *)
Fixpoint follow (d : dag) (i : nat) (path : list nat) : option node :=
  match nth_error d i with
  | None => None
  | Some n =>
      match path with
      | [] => Some n
      | k :: r => match nth_error (operands n) k with Some c => follow d c r | None => None end
      end
  end.

(** The path [p] leads from node [i] to a rotation. *)
Definition to_rotation (d : dag) (i : nat) (p : list nat) : Prop :=
  exists a s, follow d i p = Some (LeftRotate a s).

(** The graphs of conversions between layouts: sums and products of rotations by
    constants, of inputs. *)
Definition convertible (d : dag) : Prop :=
  forall i n, nth_error d i = Some n ->
    match n with
    | ConstantScalar | ConstantTensor | Leaf _ | Add _ _ | Subtract _ _ | Multiply _ _ => True
    | LeftRotate _ s => nth_error d s = Some ConstantScalar
    | _ => False
    end.

