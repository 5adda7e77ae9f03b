(** Programs of tensor operations on rational numbers and what they may compute. *)
From Coq Require Import List Bool ZArith QArith Qabs.
Import ListNotations.
Local Open Scope Q_scope.

(** A tensor or scalar by its elements. *)
Definition value := list Q.
Definition bounded (b : Q) (v : value) : Prop := forall q, In q v -> Qabs q <= b.

Inductive constant :=
| CFloat (q : Q) | CInt (z : Z)              (* scalars *)
| CFloats (l : list Q) | CInts (width : Z) (l : list Z)   (* dense elements; integers of a bit width, as signed numbers *)
| CResource (l : list Q).                     (* elements that the compiler does not see *)
Definition constant_value (c : constant) : value :=
  match c with
  | CFloat q => [q] | CInt z => [inject_Z z] | CFloats l => l | CInts _ l => map inject_Z l | CResource l => l
  end.

(** The operation at position v of a program defines the value v; operands are positions. *)
Inductive op :=
| Argument
| Add (a b : nat) | Mul (a b : nat)
| Const (c : constant)
| Init (a : nat)
| Insert (scalar dest : nat)
| Other (operands : list nat)     (* all other operations *)
| Merge (incoming : list nat).    (* a block argument: one of the incoming values *)

Fixpoint zip_with (f : Q -> Q -> Q) (a b : value) : value :=
  match a, b with x :: a, y :: b => f x y :: zip_with f a b | _, _ => [] end.

(** Dense integers that are not negative (signed numbers of that width) *)
Definition harmless (c : constant) : Prop := match c with CInts w l => forall z, In z l -> (0 <= z < 2 ^ (w - 1))%Z | _ => True end.
Definition operands (o : op) : list nat :=
  match o with Argument | Const _ => [] | Add a b | Mul a b | Insert a b => [a; b] | Init a => [a] | Other l | Merge l => l end.
(** No value is used before its definition. *)
Definition in_order (program : list op) : Prop := forall v o, nth_error program v = Some o -> forall w, In w (operands o) -> (w < v)%nat.

Section Runs.
  Variable program : list op.
  Variable input : Q.
  (** The possible results of other operations on the values of their operands. *)
  Variable other : nat -> list value -> value -> Prop.

  Definition env := nat -> option value.
  Definition store (e : env) (v : nat) (x : value) : env := fun w => if Nat.eqb w v then Some x else e w.
  Fixpoint values (e : env) (l : list nat) : option (list value) :=
    match l with
    | [] => Some []
    | v :: l => match e v, values e l with Some x, Some m => Some (x :: m) | _, _ => None end
    end.

  Inductive gives (e : env) (v : nat) : op -> value -> Prop :=
  | gives_argument x : bounded input x -> gives e v Argument x
  | gives_add a b x y : e a = Some x -> e b = Some y -> gives e v (Add a b) (zip_with Qplus x y)
  | gives_mul a b x y : e a = Some x -> e b = Some y -> gives e v (Mul a b) (zip_with Qmult x y)
  | gives_const c : gives e v (Const c) (constant_value c)
  | gives_init a x : e a = Some x -> gives e v (Init a) x
  | gives_insert s d x y z : e s = Some x -> e d = Some y -> (forall q, In q z -> In q x \/ In q y) -> gives e v (Insert s d) z
  | gives_other l xs z : values e l = Some xs -> other v xs z -> gives e v (Other l) z
  | gives_merge l a x : In a l -> e a = Some x -> gives e v (Merge l) x.

  (** Operations run in any order and any number of times, whatever the control flow is. *)
  Inductive reached : env -> Prop :=
  | reached_start : reached (fun _ => None)
  | reached_step e v o x : reached e -> nth_error program v = Some o -> gives e v o x -> reached (store e v x).
End Runs.
