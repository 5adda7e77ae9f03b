(** What a block of operations computes, for the claims about the vectorizers. *)
From Coq Require Import Arith Bool List NArith Permutation Relations.
From Verif Require Import Lut_Spec.
Import ListNotations.

(** Operations on single values: the boolean gates, the negation and the three-input lookup tables of CGGI, and any
    other operation, with its name and the attributes that belong to it *)
Inductive scalar_op := Gate (g : gate) | Not | Lut3 (table : N) | Other (name attrs : nat).
(** and the operations on vectors: building a vector from elements, extracting an element, and applying one operation
    in each lane *)
Inductive op_kind := Scalar (k : scalar_op) | FromElements | Extract (i : nat) | Lanes (ks : list scalar_op).
(** an operation defines one value; [typ] stands for its result type, [disc] for its discardable attributes, which
    have no meaning *)
Record op := { rid : nat; kind : op_kind; args : list nat; typ : nat; disc : nat }.

(** values: anything a scalar operation works on, or a vector *)
Inductive value (X : Type) := Single (x : X) | Vector (l : list (value X)).
Arguments Single {X} x.
Arguments Vector {X} l.

Fixpoint all_some {A} (l : list (option A)) : option (list A) :=
  match l with
  | [] => Some []
  | x :: r => match x, all_some r with Some a, Some s => Some (a :: s) | _, _ => None end
  end.

Section Meaning.
Context {X : Type}.
(** [sem] gives the meaning of the scalar operations *)
Variable sem : scalar_op -> list (value X) -> option (value X).

Definition elements (v : value X) : option (list (value X)) := match v with Vector l => Some l | Single _ => None end.
(** lane i applies the i-th operation to the i-th elements of the operands *)
Definition lane (ks : list scalar_op) (vs : list (list (value X))) (i : nat) : option (value X) :=
  match nth_error ks i, all_some (map (fun l => nth_error l i) vs) with
  | Some k, Some a => sem k a
  | _, _ => None
  end.
Definition apply_kind (k : op_kind) (vs : list (value X)) : option (value X) :=
  match k with
  | Scalar k => sem k vs
  | FromElements => Some (Vector vs)
  | Extract i => match vs with [Vector l] => nth_error l i | _ => None end
  | Lanes ks =>
    match all_some (map elements vs) with
    | Some ls => if forallb (fun l => length l =? length ks) ls
                 then option_map Vector (all_some (map (lane ks ls) (seq 0 (length ks)))) else None
    | None => None
    end
  end.
Definition env := nat -> option (value X).
Definition set (e : env) (i : nat) (v : value X) : env := fun j => if j =? i then Some v else e j.
(** executing the operations one after the other; [None] if a value is missing or an operation fails *)
Fixpoint run (ops : list op) (e : env) : option env :=
  match ops with
  | [] => Some e
  | o :: rest =>
    match all_some (map e (args o)) with
    | Some vs => match apply_kind (kind o) vs with Some v => run rest (set e (rid o) v) | None => None end
    | None => None
    end
  end.
End Meaning.

(** SSA order: every operand is an argument of the block or defined by an earlier operation, and no value is defined
    twice *)
Fixpoint ssa (known : list nat) (ops : list op) : Prop :=
  match ops with
  | [] => True
  | o :: rest => incl (args o) known /\ ~ In (rid o) known /\ ssa (rid o :: known) rest
  end.
(** value [a] is computed from value [b], directly or through other operations *)
Definition depends (ops : list op) : nat -> nat -> Prop :=
  clos_trans nat (fun a b => exists o, In o ops /\ rid o = a /\ In b (args o)).
(** number of operands of the operations that the boolean vectorizer knows *)
Definition arity (k : scalar_op) : option nat :=
  match k with Gate _ => Some 2 | Not => Some 1 | Lut3 _ => Some 3 | Other _ _ => None end.
