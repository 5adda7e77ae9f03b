(** What the external calls of the enumeration of points provide, and the shape of nested vectors. *)
From Coq Require Import ZArith List.
From Verif Require Import Rel_Model Points_Model Layout_Spec.
Import ListNotations.
Open Scope Z_scope.

(** every row of the constraint matrices has one entry for each variable and the constant *)
Definition well_formed (r : rel) : Prop := forall e, In e (eqs r) \/ In e (ineqs r) -> length e = cols r.
(** getConstantBound64: a bound that is found holds for the points of the relation *)
Definition bounds_hold (r : rel) (lower upper : nat -> option Z) : Prop :=
  forall d g i b, relates r d g -> (lower i = Some b -> b <= nth i (d ++ g) 0) /\ (upper i = Some b -> nth i (d ++ g) 0 <= b).
(** isl lists every point once *)
Definition lists_images (r : rel) (image : list Z -> list (list Z)) : Prop :=
  forall d, length d = nd r -> NoDup (image d) /\ forall g, In g (image d) <-> relates r d g.
Definition lists_points (r : rel) (wrapped : list (list Z)) : Prop :=
  NoDup wrapped /\ forall p, In p wrapped <-> exists d g, p = d ++ g /\ relates r d g.

(** a nested vector of the given shape *)
Fixpoint shaped {T : Type} (shape : list Z) (t : tensor T) : Prop :=
  match shape with
  | [] => exists x, t = Elem x
  | n :: shape => exists l, t = Vector l /\ Z.of_nat (length l) = n /\ Forall (shaped shape) l
  end.
