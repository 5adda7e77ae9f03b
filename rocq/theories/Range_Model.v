(** Model of lib/Analysis/RangeAnalysis/RangeAnalysis.{h,cpp}.

    Simplified: bounds are rational numbers instead of logarithms as doubles (Log2Arithmetic), so its rounding is left out;
    integer operations do not wrap; visits of external calls are left out; a value is identified with the operation that
    defines it, so operations have one result. The order of visits is left to the data flow solver: any order. *)
From Coq Require Import List Bool ZArith QArith Qabs.
From Verif Require Import Range_Spec.
Import ListNotations.
Local Open Scope Q_scope.

(** RangeAnalysis.h:20-67 RangeState: nothing when uninitialized *)
Definition state := option Q.
(** std::max: the first unless it is less than the second *)
Definition max (a b : Q) : Q := if Qle_bool b a then a else b.
(** RangeAnalysis.h:41-46 RangeState::join *)
Definition join (l r : state) : state :=
  match l, r with
  | None, _ => r
  | _, None => l
  | Some a, Some b => Some (max a b)
  end.

(** What a visit propagates: a range, nothing, or a failure of the compiler *)
Inductive outcome := Crash | Nothing | Range (q : Q).
Definition of_state (s : state) : outcome := match s with Some q => Range q | None => Nothing end.

(** RangeAnalysis.cpp:93-104: the largest absolute value of dense floats *)
Fixpoint max_float (acc : option Q) (l : list Q) : option Q :=
  match l with
  | [] => acc
  | q :: l =>
      let q := Qabs q in
      max_float (match acc with None => Some q | Some m => if Qle_bool q m then Some m else Some q end) l
  end.
(** RangeAnalysis.cpp:106-113: the largest of dense integers with the sign bit cleared *)
Definition clear_sign_bit (width z : Z) : Z := (z mod 2 ^ (width - 1))%Z.
Fixpoint max_int (width : Z) (acc : option Z) (l : list Z) : option Z :=
  match l with
  | [] => acc
  | z :: l =>
      let z := clear_sign_bit width z in
      max_int width (match acc with None => Some z | Some m => if (m <=? z)%Z then Some z else Some m end) l
  end.
(** RangeAnalysis.cpp:78-124, the case of arith::ConstantOp. std::abs of the least 64 bit number is undefined, as is
    maxValue.value() for no elements (114). *)
Definition constant_range (c : constant) : outcome :=
  match c with
  | CFloat q => Range (Qabs q)
  | CInt z => if (z =? - 2 ^ 63)%Z then Crash else Range (inject_Z (Z.abs z))
  | CFloats l => of_state (max_float None l)
  | CInts width l => match max_int width None l with Some z => Range (inject_Z z) | None => Crash end
  | CResource _ => Nothing
  end.

Section Analysis.
  Variable input : Q.
  Definition states := nat -> state.

  (** RangeAnalysis.cpp:150-157: the first operand with a range *)
  Fixpoint first_initialized (st : states) (l : list nat) : state :=
    match l with
    | [] => None
    | v :: l => match st v with Some q => Some q | None => first_initialized st l end
    end.
  (** RangeAnalysis.cpp:36-164 visitOperation; RangeAnalysis.h:83-86 setToEntryState for arguments; block arguments get the join
      of the incoming states from the data flow framework *)
  Definition transfer (st : states) (o : op) : outcome :=
    match o with
    | Argument => Range input
    | Add a b => match st a, st b with Some p, Some q => Range (0 + p + q) | _, _ => Nothing end
    | Mul a b => match st a, st b with Some p, Some q => Range (1 * p * q) | _, _ => Nothing end
    | Const c => constant_range c
    | Init a => of_state (st a)
    | Insert s d => match st s, st d with Some p, Some q => of_state (join (Some p) (Some q)) | _, _ => Nothing end
    | Other l => of_state (first_initialized st l)
    | Merge l => of_state (fold_left (fun s v => join s (st v)) l None)
    end.
  (** RangeAnalysis.cpp:39-45 propagate: join with what is known; None is a failure of the compiler *)
  Definition visit (st : states) (v : nat) (o : op) : option states :=
    match transfer st o with
    | Crash => None
    | Nothing => Some st
    | Range q => Some (fun w => if Nat.eqb w v then join (st v) (Some q) else st w)
    end.
  (** The states after visits, in any order *)
  Inductive visited (program : list op) : states -> Prop :=
  | visited_start : visited program (fun _ => None)
  | visited_step st st' v o : visited program st -> nth_error program v = Some o -> visit st v o = Some st' -> visited program st'.
  (** The solver stops when no visit changes a state *)
  Definition same (s t : state) : Prop := match s, t with None, None => True | Some p, Some q => p == q | _, _ => False end.
  Definition stable (program : list op) (st : states) : Prop :=
    forall v o, nth_error program v = Some o -> exists st', visit st v o = Some st' /\ forall w, same (st' w) (st w).

  (** A single pass over the operations, in order *)
  Fixpoint pass (st : states) (v : nat) (l : list op) : option states :=
    match l with
    | [] => Some st
    | o :: l => match visit st v o with Some st => pass st (S v) l | None => None end
    end.
End Analysis.
