(** What the packing of a value by a layout is to give, and what isl and the Presburger library answer. *)
From Coq Require Import ZArith List Sorting.
From Verif Require Import Rel_Model Points_Model Points_Spec Layout_Spec Assign_Model.
From Verif Require Import Codegen_Spec.
Import ListNotations.
Open Scope Z_scope.

(** lexicographic order of points *)
Fixpoint before (p q : list Z) : Prop :=
  match p, q with
  | a :: p, b :: q => a < b \/ (a = b /\ before p q)
  | [], _ :: _ => True
  | _, _ => False
  end.
(** The tree runs the points of the relation, ordered by the domain variables of the schedule and then by the range. *)
Definition walks (r : rel) (schedule : list nat) (t : node) : Prop :=
  isl_tree [] t /\ exists tr, runs [] t tr /\ (forall p, In p tr <-> exists d g, p = d ++ g /\ relates r d g) /\
    StronglySorted before (map (fun p => map (fun i => nth i p 0) schedule ++ skipn (nd r) p) tr).
(** Answers about a relation: bounds are found and hold, points are listed, equality of relations, of the range with a box and a
    point of the range are not claimed wrongly. *)
Definition answers (ex : externals) (r : rel) : Prop :=
  bounds_hold r (lower ex r) (upper ex r) /\
  (forall i, (i < nd r)%nat -> lower ex r i <> None /\ upper ex r i <> None) /\
  lists_images r (image ex r) /\ lists_points r (wrapped ex r) /\
  (forall r', equal ex r r' = true -> forall d g, relates r d g <-> relates r' d g) /\
  (forall box, range_is ex r box = true -> forall g, in_box box g <-> exists d, relates r d g) /\
  (exists d, relates r d (sample ex r)).

(** an element and its bytes: all have the same number, and zero has only zero bytes *)
Definition encoding {T : Type} (zero : T) (width : option Z) (encode : T -> list Z) (decode : list Z -> T) : Prop :=
  forall w, width = Some w -> 0 < w /\ encode zero = repeat 0 (Z.to_nat w) /\ forall x, Z.of_nat (length (encode x)) = w /\ decode (encode x) = x.

(** a value of the type it has, with elements that are as known *)
Definition proper {T : Type} (v : value T) : Prop :=
  shaped (shape v) (content v) /\ (scalar v = true -> shape v = []) /\
  (known v = Constant true -> forall d e, in_box (shape v) d -> in_box (shape v) e -> get (content v) d = get (content v) e) /\
  known v <> Nothing_stored.

(** The slots hold the elements the relation puts there, and zero elsewhere. *)
Definition packed {T} (zero : T) (R : list Z -> list Z -> Prop) (element : list Z -> option T) (target : list Z) (m : tensor T) : Prop :=
  shaped target m /\ (forall d g, R d g -> get m g = element d) /\ (forall g, in_box target g -> (forall d, ~ R d g) -> get m g = Some zero).

(** the slots the relation gives an element of the value; a scalar takes the slots of all points *)
Definition placed {T} (v : value T) (r : rel) (d g : list Z) : Prop := relates r d g /\ (scalar v = true \/ in_box (shape v) d).
(** The relation is one from the elements of the value to slots of the target, no ciphertext is left over at the end, and the numbers
    are far from overflow. *)
Definition suits {T} (v : value T) (r : rel) (target : list Z) : Prop :=
  well_formed r /\ (scalar v = false -> nd r = length (shape v)) /\ nr r = length target /\ Forall (fun s => 0 < s) (shape v) /\
  (forall d g, placed v r d g -> in_box target g) /\ (exists d g, placed v r d g /\ hd 0 g = hd 0 target - 1) /\
  size (shape v) <= 2 ^ 24 /\ 0 < last target 0 <= 2 ^ 24.
(** isl and the Presburger library answer questions about relations with the points [R], and isl makes a loop nest of them *)
Definition consulted (ex : externals) (R : list Z -> list Z -> Prop) : Prop :=
  forall r, well_formed r -> (forall d g, relates r d g <-> R d g) ->
    answers ex r /\ forall schedule, Forall (fun i => (i < nd r)%nat) schedule -> incl (seq 0 (nd r)) schedule ->
      exists t, tree ex r schedule = Some t /\ walks r schedule t /\ is_loop t.
(** the nest for the domain in order has no block of two *)
Definition plain (ex : externals) (R : list Z -> list Z -> Prop) : Prop :=
  forall r t, well_formed r -> (forall d g, relates r d g <-> R d g) -> tree ex r (seq 0 (nd r)) = Some t -> unblocked t.

(** Relations one after the other, each from the slots of the one before. *)
Fixpoint chained (rs : list rel) (d h : list Z) : Prop :=
  match rs with
  | [] => d = h
  | r :: rs => exists g, relates r d g /\ chained rs g h
  end.
(** The shapes between: each relation goes from a tensor of one shape to one of the next; different elements get different slots. *)
Fixpoint layered (ex : externals) (s : list Z) (rs : list rel) (targets : list (list Z)) : Prop :=
  match rs, targets with
  | [], [] => True
  | r :: rs, target :: targets =>
      well_formed r /\ nd r = length s /\ nr r = length target /\ Forall (fun n => 0 < n) s /\ target <> [] /\
      (forall d g, relates r d g -> in_box s d /\ in_box target g) /\ (forall d e g, relates r d g -> relates r e g -> d = e) /\
      (exists d g, relates r d g /\ hd 0 g = hd 0 target - 1) /\ size s <= 2 ^ 24 /\ 0 < last target 0 <= 2 ^ 24 /\
      consulted ex (relates r) /\ layered ex target rs targets
  | _, _ => False
  end.
(** no slot in between is without a slot in the end *)
Fixpoint carried (rs : list rel) : Prop :=
  match rs with
  | [] => True
  | r :: rs => (forall d g, relates r d g -> exists h, chained rs g h) /\ carried rs
  end.
(** The shapes are those the code finds: from the bounds of the range, and at the end from the greatest values and the number of slots;
    on the way back from the bounds of the domains. *)
Fixpoint finds (ex : externals) (most : rel -> nat -> Z) (slots : Z) (rs : list rel) (targets : list (list Z)) : Prop :=
  match rs, targets with
  | [], [] => True
  | r :: rs, target :: targets =>
      (match rs with
       | [] => forall i, (i < nr r - 1)%nat -> most r i = nth i target 0 - 1
       | _ => forall j, (j < nr r)%nat -> upper ex r (nd r + j) = Some (nth j target 0 - 1)
       end) /\ (rs = [] -> last target 0 = slots) /\ finds ex most slots rs targets
  | _, _ => False
  end.
Fixpoint finds_back (ex : externals) (rs : list rel) (targets : list (list Z)) : Prop :=
  match rs, targets with
  | r :: rs, target :: targets => (forall j, (j < nd r)%nat -> upper ex r j = Some (nth j target 0 - 1)) /\ finds_back ex rs targets
  | _, _ => True
  end.
