(** What the operations of a block read. *)
From Coq Require Import List Bool.
From Verif Require Import Generic_Spec.
Import ListNotations.

(** dominance: no operation reads a result of its own or of a later operation *)
Fixpoint in_order (l : list op) : Prop :=
  match l with
  | [] => True
  | o :: l' => (forall v, In v (uses o) -> ~ In v (flat_map results l)) /\ in_order l'
  end.
(** the operations compute clear values *)
Definition clear_results (l : list op) : Prop := forall o, In o l -> forallb public (results o) = true.
