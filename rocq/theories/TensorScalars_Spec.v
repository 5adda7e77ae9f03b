(** Programs on tensors of static shape: the meaning of the operations that convert-tensor-to-scalars sees, on tensors that
    are stored in row-major order as MLIR defines it for attributes and tensor.from_elements. *)
From Coq Require Import List Bool ZArith Arith.
From Verif Require Import Bits_Spec.
Import ListNotations.

Inductive sexpr :=
  | SVar (n : nat)                                  (* a scalar argument *)
  | SPart (n i : nat)                               (* after the pass: scalar number i of tensor argument n *)
  | SConst (z : Z)
  | SBin (f : Z -> Z -> Z) (a b : sexpr)            (* any operation on scalars *)
  | SExtract (t : texpr) (idx : list nat)           (* tensor.extract with constant indices *)
with texpr :=
  | TVar (n : nat) (shape : list nat)               (* a tensor argument *)
  | TElements (shape : list nat) (l : list sexpr)   (* tensor.from_elements *)
  | TConst (shape : list nat) (l : list Z)          (* arith.constant dense<...> *)
  | TInsert (s : sexpr) (t : texpr) (idx : list nat)(* tensor.insert with constant indices *)
  | TOther (f : list Z -> list Z) (shape : list nat) (t : texpr). (* any other operation from a tensor to a tensor *)

Fixpoint shape_of (t : texpr) : list nat :=
  match t with TVar _ s | TElements s _ | TConst s _ | TOther _ s _ => s | TInsert _ t _ => shape_of t end.

Record env := { scalars : nat -> Z; tensors : nat -> list Z; parts : nat -> list Z }.

Fixpoint all_some {A} (l : list (option A)) : option (list A) :=
  match l with
  | [] => Some []
  | Some x :: l => option_map (cons x) (all_some l)
  | None :: _ => None
  end.
Fixpoint replace {A} (i : nat) (x : A) (l : list A) : list A :=
  match l, i with [], _ => [] | _ :: l, 0 => x :: l | y :: l, S i => y :: replace i x l end.
Definition checked (shape : list nat) (l : list Z) : option (list Z) := if length l =? elements shape then Some l else None.

Fixpoint eval_s (e : env) (s : sexpr) : option Z :=
  match s with
  | SVar n => Some (scalars e n)
  | SPart n i => nth_error (parts e n) i
  | SConst z => Some z
  | SBin f a b => match eval_s e a, eval_s e b with Some x, Some y => Some (f x y) | _, _ => None end
  | SExtract t idx => match eval_t e t, position (shape_of t) idx with Some l, Some p => nth_error l p | _, _ => None end
  end
with eval_t (e : env) (t : texpr) : option (list Z) :=
  match t with
  | TVar n shape => checked shape (tensors e n)
  | TElements shape l => match all_some (map (eval_s e) l) with Some d => checked shape d | None => None end
  | TConst shape l => checked shape l
  | TInsert s t idx =>
      match eval_s e s, eval_t e t, position (shape_of t) idx with
      | Some x, Some l, Some p => Some (replace p x l)
      | _, _, _ => None
      end
  | TOther f shape t => match eval_t e t with Some l => checked shape (f l) | None => None end
  end.

(** The position in column-major order: the first index runs fastest. *)
Fixpoint column_position (shape idx : list nat) : nat :=
  match shape, idx with d :: shape, i :: idx => i + d * column_position shape idx | _, _ => 0 end.
(** A list of scalars holds the tensor in column-major order. *)
Definition column_major (shape : list nat) (tensor scalars : list Z) : Prop :=
  length scalars = elements shape /\
  forall idx p, position shape idx = Some p -> nth_error scalars (column_position shape idx) = nth_error tensor p.

(** At most one dimension is not 1: both orders are the same. *)
Definition thin (shape : list nat) : bool := length (filter (fun d => negb (d =? 1)) shape) <=? 1.

(** The programs before the pass on arguments of the given shapes, in which every from_elements, constant and operand of
    another operation that the pass converts is thin. *)
Section Supported.
  Variable max : nat.
  Variable shapes : nat -> list nat.
  Definition small (shape : list nat) : bool := elements shape <=? max.
  Fixpoint supported_s (s : sexpr) : Prop :=
    match s with
    | SVar _ | SConst _ => True
    | SPart _ _ => False
    | SBin _ a b => supported_s a /\ supported_s b
    | SExtract t _ => supported_t t
    end
  with supported_t (t : texpr) : Prop :=
    match t with
    | TVar n shape => shape = shapes n
    | TElements shape l => (small shape = true -> thin shape = true) /\ fold_right (fun s r => supported_s s /\ r) True l
    | TConst shape _ => small shape = true -> thin shape = true
    | TInsert s t _ => supported_s s /\ supported_t t
    | TOther _ shape t =>
        (small (shape_of t) = true -> thin (shape_of t) = true)
        /\ (small shape = true -> shape <> [] /\ forall d, In d shape -> 0 < d) /\ supported_t t
    end.
End Supported.
