(** Model of integer relations (mlir::presburger::IntegerRelation) as far as they are used for layouts, and of the layouts
    built in lib/Utils/Layout/Utils.cpp.
    Variables stand in the order domain, range, locals, constant; there are never symbols.
    Trusted, because part of LLVM: the meaning of the constraint matrices and of insertVar, addBound, addLocalFloorDiv,
    compose, projectOut.  int64_t is taken as unbounded except where an unsigned of 32 bits or a float is used. *)
From Coq Require Import ZArith List Bool.
From Verif Require Import NumTheory_Model.
Import ListNotations.
Open Scope Z_scope.

(** * Relations *)
Record rel := Rel { nd : nat; nr : nat; nl : nat; eqs : list (list Z); ineqs : list (list Z) }.
Definition cols (r : rel) : nat := nd r + nr r + nl r + 1.
Definition range_at (r : rel) : nat := nd r.
Definition local_at (r : rel) : nat := nd r + nr r.
Definition local_end (r : rel) : nat := nd r + nr r + nl r.

(** the value of a row for values of the variables; the last column is the constant *)
Fixpoint dot (c x : list Z) : Z :=
  match c, x with
  | a :: c, b :: x => a * b + dot c x
  | _, _ => 0
  end.
Definition value (c x : list Z) : Z := dot c (x ++ [1]).
Definition sat (r : rel) (x : list Z) : Prop :=
  Forall (fun e => value e x = 0) (eqs r) /\ Forall (fun e => 0 <= value e x) (ineqs r).
(** Related are the points for which there are values of the local variables. *)
Definition relates (r : rel) (d g : list Z) : Prop :=
  length d = nd r /\ length g = nr r /\ exists l, length l = nl r /\ sat r (d ++ g ++ l).

Definition space (d g l : nat) : rel := Rel d g l [] [].
Definition add_eq (r : rel) (e : list Z) : rel := Rel (nd r) (nr r) (nl r) (eqs r ++ [e]) (ineqs r).
Definition add_ineq (r : rel) (e : list Z) : rel := Rel (nd r) (nr r) (nl r) (eqs r) (ineqs r ++ [e]).
(** new columns of zeros *)
Definition widen (k num : nat) (e : list Z) : list Z := firstn k e ++ repeat 0 num ++ skipn k e.
Definition widen_all (k num : nat) (r : rel) : list (list Z) * list (list Z) :=
  (map (widen k num) (eqs r), map (widen k num) (ineqs r)).
(** insertVar *)
Definition insert_domain (r : rel) (pos num : nat) : rel :=
  let '(e, i) := widen_all pos num r in Rel (nd r + num) (nr r) (nl r) e i.
Definition insert_range (r : rel) (pos num : nat) : rel :=
  let '(e, i) := widen_all (nd r + pos) num r in Rel (nd r) (nr r + num) (nl r) e i.
(** appendVar(VarKind::Local) *)
Definition append_local (r : rel) : rel :=
  let '(e, i) := widen_all (local_end r) 1 r in Rel (nd r) (nr r) (nl r + 1) e i.
(** a row of zeros with some entries set, as in SmallVector<int64_t> row(getNumCols(), 0); row[pos] = coeff; ... *)
Fixpoint set (l : list Z) (pos : nat) (c : Z) : list Z :=
  match l, pos with
  | [], _ => []
  | _ :: l, O => c :: l
  | a :: l, S p => a :: set l p c
  end.
Definition row (n : nat) (l : list (nat * Z)) : list Z := fold_left (fun e pc => set e (fst pc) (snd pc)) l (repeat 0 n).
(** addBound *)
Definition lower_bound (r : rel) (pos : nat) (v : Z) : rel := add_ineq r (row (cols r) [(pos, 1); ((cols r - 1)%nat, - v)]).
Definition upper_bound (r : rel) (pos : nat) (v : Z) : rel := add_ineq r (row (cols r) [(pos, -1); ((cols r - 1)%nat, v)]).
(** addLocalFloorDiv: a new local q with 0 <= dividend - divisor * q <= divisor - 1 *)
Definition add_floor_div (r : rel) (dividend : list Z) (divisor : Z) : rel :=
  let r1 := append_local r in
  let e := widen (length dividend - 1) 1 dividend in
  let p := (length e - 2)%nat in
  add_ineq (add_ineq r1 (set e p (- divisor)))
    (set (set (map Z.opp e) p divisor) (length e - 1) (divisor - 1 - last e 0)).

(** * Helpers of Utils.cpp *)
(** addConstraint, 47-61 *)
Definition add_constraint (r : rel) (l : list (nat * Z)) (equality : bool) : rel :=
  if equality then add_eq r (row (cols r) l) else add_ineq r (row (cols r) l).
(** addBounds, 65-71 *)
Definition add_bounds (r : rel) (pos : nat) (lower : Z) (upper : option Z) : rel :=
  let r1 := lower_bound r pos lower in
  match upper with Some u => upper_bound r1 pos u | None => r1 end.
(** addModConstraint, 75-96, with the position of the new variable *)
Definition add_mod (r : rel) (e : list Z) (m : Z) : rel * nat :=
  let r1 := append_local (add_floor_div r e m) in
  let c := firstn (local_at r1) e ++ repeat 0 (cols r1 - local_at r1) in
  let c := set c (cols r1 - 1) (last e 0) in
  let p := (local_end r1 - 1)%nat in
  let c := set (set c (p - 1) (- m)) p (-1) in
  (add_eq r1 c, p).
(** x % m = another variable, where x is given by a row: the pattern of the layouts below *)
Definition add_mod_eq (r : rel) (x : list (nat * Z)) (m : Z) (v : nat) : rel :=
  let '(r1, p) := add_mod r (row (cols r) x) m in
  add_eq r1 (row (cols r1) [(v, 1); (p, -1)]).

(** * Types *)
(** shape of a RankedTensorType, all dimensions static *)
Definition elements (shape : list Z) : Z := fold_right Z.mul 1 shape.
Definition dim (shape : list Z) (i : nat) : Z := nth i shape 0.
(** arithmetic of float on positive numbers, to nearest even; underflow and overflow do not occur here.  The quotient of
    a and b rounded to 24 bits, as a fraction *)
Definition to_even (a b : Z) : Z :=
  let q := a / b in
  match 2 * (a mod b) ?= b with Lt => q | Gt => q + 1 | Eq => if Z.even q then q else q + 1 end.
Definition round24 (a b : Z) : Z * Z :=
  let e := Z.log2 a - Z.log2 b - 23 in
  let e := if a * 2 ^ Z.max 0 (- e) <? 2 ^ 23 * (b * 2 ^ Z.max 0 e) then e - 1 else e in
  (to_even (a * 2 ^ Z.max 0 (- e)) (b * 2 ^ Z.max 0 e) * 2 ^ Z.max 0 e, 2 ^ Z.max 0 (- e)).
Definition to_float (n : Z) : Z :=
  let e := Z.log2 n - 23 in
  if e <=? 0 then n else to_even n (2 ^ e) * 2 ^ e.
(** std::ceil((float)n / s) *)
Definition ceil_float (n s : Z) : Z :=
  let '(p, q) := round24 (to_float n) (to_float s) in - ((- p) / q).
Definition padded (n : Z) : Z := if is_power_of_two n then n else next_power_of_two n.
Definition u32 (x : Z) : Z := x mod 2 ^ 32.

(** bounds 0 <= v < size for the variables from pos on *)
Fixpoint bound_all (r : rel) (pos : nat) (sizes : list Z) : rel :=
  match sizes with
  | [] => r
  | s :: l => bound_all (add_bounds r pos 0 (Some (s - 1))) (S pos) l
  end.

(** * Layouts *)
(** the coefficients of the flattened index, with a product of type unsigned, 139-145 *)
Fixpoint row_major_coeffs (shape : list Z) : list Z * Z :=
  match shape with
  | [] => ([], 1)
  | s :: l => let '(c, p) := row_major_coeffs l in (p :: c, u32 (p * s))
  end.
(** getRowMajorLayoutRelation, 116-185 *)
Definition row_major (shape : list Z) (slots : Z) : rel :=
  let r := bound_all (space (length shape) 2 0) 0 shape in
  let r := add_bounds r (range_at r) 0 (Some (ceil_float (elements shape) slots - 1)) in
  let r := add_bounds r (range_at r + 1) 0 (Some (slots - 1)) in
  let c := fst (row_major_coeffs shape) ++ repeat 0 3 in
  let r := add_floor_div r c slots in
  let r := add_constraint r [(range_at r, -1); ((local_end r - 1)%nat, 1)] true in
  let '(r, rhs) := add_mod r (c ++ repeat 0 (cols r - length c)) slots in
  let '(r, lhs) := add_mod r (row (cols r) [((range_at r + 1)%nat, 1)]) (padded (elements shape)) in
  add_eq r (row (cols r) [(rhs, 1); (lhs, -1)]).

(** getDiagonalLayoutRelation, 187-238; None: failed assertion *)
Definition diagonal (shape : list Z) (slots : Z) : option rel :=
  let rows := u32 (dim shape 0) in
  let columns := u32 (dim shape 1) in
  if slots <? Z.max rows columns then None else
  let pc := padded columns in
  let pr := padded rows in
  let r := bound_all (space (length shape) 2 0) 0 shape in
  let r := lower_bound (lower_bound r (range_at r) 0) (range_at r + 1) 0 in
  let r := upper_bound r (range_at r) (Z.min pr pc - 1) in
  let r := upper_bound r (range_at r + 1) (slots - 1) in
  let r := add_mod_eq r [((range_at r + 1)%nat, 1)] pr 0 in
  Some (add_mod_eq r [(range_at r, 1); ((range_at r + 1)%nat, 1)] pc 1).

(** getBicyclicLayoutRelation, 261-317 *)
Definition bicyclic (shape : list Z) (slots : Z) : option rel :=
  let rows := u32 (dim shape 0) in
  let columns := u32 (dim shape 1) in
  if negb (Z.gcd rows columns =? 1) then None else
  let r := space (length shape) 2 0 in
  let r := add_bounds r 0 0 (Some (rows - 1)) in
  let r := add_bounds r 1 0 (Some (columns - 1)) in
  let r := add_bounds r (range_at r) 0 (Some (ceil_float (elements shape) slots - 1)) in
  let r := add_bounds r (range_at r + 1) 0 (Some (slots - 1)) in
  let k := [(range_at r, slots); ((range_at r + 1)%nat, 1)] in
  Some (add_mod_eq (add_mod_eq r k rows 0) k columns 1).

(** getBicyclicDiagonalRelation, 319-391; [first]: contractionDim is 0 *)
Definition bicyclic_diagonal (shape : list Z) (first : bool) (stride slots : Z) : rel :=
  let n := dim shape (if first then 0 else 1) in
  let p := dim shape (if first then 1 else 0) in
  let r := space (length shape) 2 0 in
  let r := add_bounds r (range_at r) 0 (Some (n - 1)) in
  let r := add_bounds r (range_at r + 1) 0 (Some (slots - 1)) in
  let c := [((range_at r + 1)%nat, 1); (range_at r, stride)] in
  let f := [((range_at r + 1)%nat, 1)] in
  if first then
    let r := add_bounds (add_bounds r 0 0 (Some (n - 1))) 1 0 (Some (p - 1)) in
    add_mod_eq (add_mod_eq r c n 0) f p 1
  else
    let r := add_bounds (add_bounds r 0 0 (Some (p - 1))) 1 0 (Some (n - 1)) in
    add_mod_eq (add_mod_eq r c n 1) f p 0.

(** getTricyclicLayoutRelation, 400-470 *)
Definition tricyclic (shape : list Z) (slots : Z) : option rel :=
  if negb (length shape =? 3)%nat then None else
  let r := bound_all (space (length shape) 2 0) 0 shape in
  let r := add_bounds r (range_at r) 0 (Some (ceil_float (elements shape) slots - 1)) in
  let r := add_bounds r (range_at r + 1) 0 (Some (slots - 1)) in
  let k := [(range_at r, slots); ((range_at r + 1)%nat, 1)] in
  Some (add_mod_eq (add_mod_eq (add_mod_eq r k (dim shape 0) 0) k (dim shape 1) 1) k (dim shape 2) 2).

(** getPeriodicReplicationRelation, 472-508 *)
Definition periodic (cts slots period : Z) : option rel :=
  if negb (cts =? 1) || negb ((0 <? period) && (period <=? slots)) then None else
  let r := space 2 2 0 in
  let r := add_bounds r 0 0 (Some (cts - 1)) in
  let r := add_bounds r 1 0 (Some (period - 1)) in
  let r := add_bounds r (range_at r + 1) 0 (Some (slots - 1)) in
  let r := add_constraint r [(0%nat, 1); (range_at r, -1)] true in
  Some (add_mod_eq r [((range_at r + 1)%nat, 1)] period 1).

(** getPerRowLayoutRelation, 510-550 *)
Definition per_row (shape : list Z) (slots : Z) : option rel :=
  if negb (length shape =? 2)%nat || (slots <? dim shape 1) then None else
  let r := bound_all (space (length shape) 2 0) 0 shape in
  let r := add_bounds r (range_at r) 0 (Some (dim shape 0 - 1)) in
  let r := add_bounds r (range_at r + 1) 0 (Some (slots - 1)) in
  let r := add_constraint r [(0%nat, -1); (range_at r, 1)] true in
  let '(r, m) := add_mod r (row (cols r) [((range_at r + 1)%nat, 1)]) (next_power_of_two (dim shape 1)) in
  Some (add_constraint r [(m, 1); (1%nat, -1)] true).
