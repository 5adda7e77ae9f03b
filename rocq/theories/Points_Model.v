(** Model of the enumeration of the points of a relation (lib/Utils/Layout/Utils.cpp) and of the packing and unpacking of
    tensors by it (lib/Utils/Layout/Evaluate.h).
    The calls of isl and of getConstantBound64 are parameters: [image d] the points isl lists for the relation with the domain
    fixed to d, [wrapped] the points it lists for the whole relation, [bound] the constant bounds found by Fourier-Motzkin.
    Nested std::vectors are tensors; an access outside of a vector, an assertion and report_fatal_error are None.
    int64_t is unbounded except in the limits and the volume. *)
From Coq Require Import ZArith List Bool.
From Verif Require Import Rel_Model.
Import ListNotations.
Open Scope Z_scope.

Definition min64 : Z := - 2 ^ 63.
Definition max64 : Z := 2 ^ 63 - 1.

(** * getDomainBox, Utils.cpp 813-873 *)
(** the nonzero coefficients of a row with their position; [j]: position of the first *)
Fixpoint nonzeros (j : nat) (l : list Z) : list (nat * Z) :=
  match l with
  | [] => []
  | a :: l => if a =? 0 then nonzeros (S j) l else (j, a) :: nonzeros (S j) l
  end.
Definition single (r : rel) (e : list Z) : option (nat * Z) :=
  match nonzeros 0 (firstn (local_end r) e) with
  | [(v, a)] => if (v <? nd r)%nat then Some (v, a) else None
  | _ => None
  end.
Definition constant (r : rel) (e : list Z) : Z := nth (cols r - 1) e 0.
Definition scan_ineq (r : rel) (b : list Z * list Z) (e : list Z) : list Z * list Z :=
  let '(lb, ub) := b in
  match single r e with
  | None => b
  | Some (v, a) =>
    let c := constant r e in
    if 0 <? a then (set lb v (Z.max (nth v lb 0) (- (c / a))), ub)
    else (lb, set ub v (Z.min (nth v ub 0) (c / - a)))
  end.
Fixpoint scan_eqs (r : rel) (l : list (list Z)) (b : list Z * list Z) : option (list Z * list Z) :=
  match l with
  | [] => Some b
  | e :: l =>
    match single r e with
    | None => scan_eqs r l b
    | Some (v, a) =>
      let c := constant r e in
      if negb (Z.rem (- c) a =? 0) then None else
      let x := Z.quot (- c) a in
      scan_eqs r l (set (fst b) v (Z.max (nth v (fst b) 0) x), set (snd b) v (Z.min (nth v (snd b) 0) x))
    end
  end.
(** the lambda resolve, 860-867, for all variables from [i] on *)
Fixpoint resolve (bound : nat -> option Z) (sentinel : Z) (i : nat) (l : list Z) : option (list Z) :=
  match l with
  | [] => Some []
  | b :: l =>
    match (if b =? sentinel then bound i else Some b), resolve bound sentinel (S i) l with
    | Some b, Some l => Some (b :: l)
    | _, _ => None
    end
  end.
Definition domain_box (r : rel) (lower upper : nat -> option Z) : option (list Z * list Z) :=
  let b := fold_left (scan_ineq r) (ineqs r) (repeat min64 (nd r), repeat max64 (nd r)) in
  match scan_eqs r (eqs r) b with
  | None => None
  | Some (lb, ub) =>
    match resolve lower min64 0 lb, resolve upper max64 0 ub with
    | Some lb, Some ub => Some (lb, ub)
    | _, _ => None
    end
  end.

(** * forEachDomainImagePoint, 893-944 *)
(** nextGridPoint, 893-900: the loop from the last coordinate on *)
Fixpoint next_point (point lb ub : list Z) : list Z * bool :=
  match point, lb, ub with
  | p :: point, l :: lb, u :: ub =>
    let '(rest, more) := next_point point lb ub in
    if more then (p :: rest, true)
    else if p + 1 <=? u then (p + 1 :: rest, true) else (l :: rest, false)
  | _, _, _ => ([], false)
  end.
Fixpoint sizes (lb ub : list Z) : list Z :=
  match lb, ub with
  | l :: lb, u :: ub => (u - l + 1) :: sizes lb ub
  | _, _ => []
  end.
(** the do-while loop, with fuel; [s]: what the callback changes *)
Fixpoint grid {S : Type} (fuel : nat) (visit : S -> list Z -> S) (stop : S -> bool) (lb ub point : list Z) (s : S) : option S :=
  match fuel with
  | O => None
  | S fuel =>
    let s := visit s point in
    if stop s then Some s else
    let '(p, more) := next_point point lb ub in
    if more then grid fuel visit stop lb ub p s else Some s
  end.
Definition for_each {S : Type} (image : list Z -> list (list Z)) (lb ub : list Z) (on : list Z -> S -> list Z -> S) (stop : S -> bool) (s : S) : option S :=
  if existsb (fun n => n <=? 0) (sizes lb ub) then Some s
  else grid (Z.to_nat (elements (sizes lb ub))) (fun s d => fold_left (on d) (image d) s) stop lb ub lb s.

(** * enumeratePoints, 979-1030 *)
(** the volume of the box; None: overflow *)
Fixpoint volume (v : Z) (l : list Z) : option Z :=
  match l with
  | [] => Some v
  | n :: l => if n <=? 0 then Some 0 else if max64 / n <? v then None else volume (v * n) l
  end.
Definition box_loop (lb ub : list Z) : bool :=
  match volume 1 (sizes lb ub) with Some v => v <=? 200000 | None => false end.
(** enumeratePointsCallback, 953-977 *)
Definition split_point (r : rel) (p : list Z) : list Z * list Z := (firstn (nd r) p, firstn (nr r) (skipn (nd r) p)).
Definition enumerate (r : rel) (lower upper : nat -> option Z) (image : list Z -> list (list Z)) (wrapped : list (list Z)) : option (list (list Z * list Z)) :=
  match domain_box r lower upper with
  | None => None
  | Some (lb, ub) =>
    if box_loop lb ub
    then for_each image lb ub (fun d s g => s ++ [(d, firstn (nr r) g)]) (fun _ => false) []
    else Some (map (split_point r) wrapped)
  end.

(** * getCtComplementPoints, 1063-1108 *)
Fixpoint mark (seen : list bool) (i : nat) : list bool :=
  match seen, i with
  | [], _ => []
  | _ :: l, O => true :: l
  | b :: l, S i => b :: mark l i
  end.
Definition mark_ct (cts : Z) (s : list bool * Z) (g : list Z) : list bool * Z :=
  let ct := nth 0 g 0 in
  if (0 <=? ct) && (ct <? cts) && negb (nth (Z.to_nat ct) (fst s) false) then (mark (fst s) (Z.to_nat ct), snd s + 1) else s.
Fixpoint unseen (ct : Z) (seen : list bool) : list Z :=
  match seen with
  | [] => []
  | b :: l => if b then unseen (ct + 1) l else ct :: unseen (ct + 1) l
  end.
Definition complement (r : rel) (lower upper : nat -> option Z) (image : list Z -> list (list Z)) (cts : Z) : option (list Z) :=
  if negb (nr r =? 2)%nat then None else
  match domain_box r lower upper with
  | None => None
  | Some (lb, ub) =>
    match for_each image lb ub (fun _ => mark_ct cts) (fun s => snd s =? cts) (repeat false (Z.to_nat cts), 0) with
    | None => None
    | Some (seen, _) => Some (unseen 0 seen)
    end
  end.

(** * Tensors as nested vectors *)
Inductive tensor (T : Type) := Elem (x : T) | Vector (l : list (tensor T)).
Arguments Elem {T} x.
Arguments Vector {T} l.
Definition at_index {A : Type} (l : list A) (i : Z) : option A := if i <? 0 then None else nth_error l (Z.to_nat i).
Fixpoint get {T : Type} (t : tensor T) (d : list Z) : option T :=
  match d, t with
  | [], Elem x => Some x
  | i :: d, Vector l => match at_index l i with Some t => get t d | None => None end
  | _, _ => None
  end.
Fixpoint replace {A : Type} (l : list A) (i : nat) (x : A) : list A :=
  match l, i with
  | [], _ => []
  | _ :: l, O => x :: l
  | a :: l, S i => a :: replace l i x
  end.
Fixpoint put {T : Type} (t : tensor T) (d : list Z) (x : T) : option (tensor T) :=
  match d, t with
  | [], Elem _ => Some (Elem x)
  | i :: d, Vector l =>
    match at_index l i with
    | Some t => match put t d x with Some t => Some (Vector (replace l (Z.to_nat i) t)) | None => None end
    | None => None
    end
  | _, _ => None
  end.
Fixpoint filled {T : Type} (shape : list Z) (x : T) : tensor T :=
  match shape with
  | [] => Elem x
  | n :: shape => Vector (repeat (filled shape x) (Z.to_nat n))
  end.

(** * Evaluate.h *)
(** evaluateLayout, 33-65, for a tensor [input] read by getValueFn; evaluateLayoutOnVector, -Matrix, -Tensor, 76-111.
    The shape of the result is outputShape or comes from the bounds of the range, [upper] *)
Fixpoint write_points {T : Type} (input : tensor T) (pts : list (list Z * list Z)) (out : tensor T) : option (tensor T) :=
  match pts with
  | [] => Some out
  | (d, g) :: pts =>
    match get input d with
    | None => None
    | Some x => match put out [nth 0 g 0; nth 1 g 0] x with Some out => write_points input pts out | None => None end
    end
  end.
Definition evaluate_layout {T : Type} (zero : T) (r : rel) (upper : nat -> option Z) (pts : option (list (list Z * list Z))) (input : tensor T) (shape : option (Z * Z)) : option (tensor T) :=
  match (match shape with
         | Some s => Some s
         | None => match upper (range_at r), upper (range_at r + 1)%nat with Some c, Some s => Some (c + 1, s + 1) | _, _ => None end
         end), pts with
  | Some (cts, slots), Some pts => write_points input pts (filled [cts; slots] zero)
  | _, _ => None
  end.
(** unpackLayout, 117-131, and unpackLayoutToVector, -Matrix, -3DTensor, -4DTensor, 135-208 *)
Fixpoint read_points {T : Type} (packed : tensor T) (pts : list (list Z * list Z)) (out : tensor T) : option (tensor T) :=
  match pts with
  | [] => Some out
  | (d, g) :: pts =>
    match get packed [nth 0 g 0; nth 1 g 0] with
    | None => None
    | Some x => match put out d x with Some out => read_points packed pts out | None => None end
    end
  end.
Definition unpack_layout {T : Type} (zero : T) (pts : option (list (list Z * list Z))) (packed : tensor T) (shape : list Z) : option (tensor T) :=
  match pts with
  | Some pts => read_points packed pts (filled shape zero)
  | None => None
  end.
