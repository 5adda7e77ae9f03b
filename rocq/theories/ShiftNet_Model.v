(** Shift networks (Vos-Vos-Erkin) for tensor_ext.remap.

    Sources: lib/Dialect/TensorExt/Transforms/ShiftScheme.{h,cpp},
    ImplementShiftNetwork.cpp and RotationGroupKernel.h. Integers (int64_t) are
    unbounded. [None] is a failed assertion or a missing map entry. A DenseMap
    is a list in iteration order: theorems speak of every order. Sets of
    positions given as 0/1 masks are lists of booleans. The scheme and strategy
    caches and debug output are not modelled. Dag nodes are replaced by their
    values: one row of minSlotCount elements for each ciphertext. *)
From Coq Require Import ZArith List Bool.
From Verif Require Import Graph_Model.
Import ListNotations.
Open Scope Z_scope.

(** CtSlot.h: ciphertext and slot *)
Definition ctslot := (Z * Z)%type.
Definition slot_eqb (a b : ctslot) : bool := (fst a =? fst b) && (snd a =? snd b).

Fixpoint mapM {A B} (f : A -> option B) (l : list A) : option (list B) :=
  match l with
  | [] => Some []
  | a :: r => match f a, mapM f r with Some b, Some bs => Some (b :: bs) | _, _ => None end
  end.
Fixpoint set_nth {A} (n : nat) (x : A) (l : list A) : list A :=
  match l, n with
  | [], _ => []
  | _ :: r, O => x :: r
  | a :: r, S n' => a :: set_nth n' x r
  end.
Definition zip_with {A B C} (f : A -> B -> C) (l : list A) (m : list B) : list C :=
  map (fun p => f (fst p) (snd p)) (combine l m).

(** ** ShiftScheme.h:84-127 [Mapping]: (target, source) pairs *)
Definition mapping := list (ctslot * ctslot).
(** 123-126 *)
Definition virtual_distance (N : Z) (a b : ctslot) : Z := Z.abs (fst a - fst b) * N + Z.abs (snd a - snd b).
(** 91-105 *)
Fixpoint mapping_add (N : Z) (source target : ctslot) (m : mapping) : mapping :=
  match m with
  | [] => [(target, source)]
  | (t, s) :: r =>
      if slot_eqb t target
      then (if virtual_distance N target source <? virtual_distance N target s then (t, source) else (t, s)) :: r
      else (t, s) :: mapping_add N source target r
  end.
(** ImplementShiftNetwork.cpp:165-195: (source, target) pairs in the order they
    are enumerated *)
Definition populate_mapping (N : Z) (points : list (ctslot * ctslot)) : mapping :=
  fold_left (fun m p => mapping_add N (fst p) (snd p) m) points [].

(** ** ShiftScheme.cpp *)
(** lib/Utils/MathUtils.h:30 *)
Definition is_power_of_two (n : Z) : bool := (0 <? n) && (Z.land n (n - 1) =? 0).
(** 15-21; [1 << i] is computed in int: for i = 31 it is negative, beyond it is
    undefined *)
Definition shl1 (i : nat) : option Z :=
  if (i <? 31)%nat then Some (2 ^ Z.of_nat i) else if (i =? 31)%nat then Some (- 2 ^ 31) else None.
Definition default_shift_order (n : Z) : option (list Z) :=
  let active := if n =? 0 then 0 else Z.log2 n + 1 in
  mapM shl1 (seq 0 (Z.to_nat (if is_power_of_two n then active - 1 else active))).
(** 26-35; C++ remainder *)
Definition normalize_shift (input output size : Z) : Z :=
  let shift := - Z.rem (output - input) size in
  if shift <? 0 then shift + size else shift.
Definition vidx (N : Z) (p : ctslot) : Z := fst p * N + snd p.
(** 37-42 *)
Definition get_virtual_shift (N V : Z) (source target : ctslot) : Z :=
  normalize_shift (vidx N source) (vidx N target) V.

(** SourceShift: source and shift *)
Definition skey := (ctslot * Z)%type.
Definition skey_eqb (a b : skey) : bool := slot_eqb (fst a) (fst b) && (snd a =? snd b).
(** ShiftRound: the position of each source shift, and the rotation *)
Definition positions := list (skey * ctslot).
Definition round := (positions * Z)%type.
Definition lookup (ps : positions) (k : skey) : option ctslot :=
  option_map snd (find (fun e => skey_eqb (fst e) k) ps).
(** 46-51 *)
Definition source_shifts (N V : Z) (m : mapping) : list skey :=
  map (fun ts => (snd ts, get_virtual_shift N V (snd ts) (fst ts))) m.
(** 71-83 *)
Definition next_position (N V r : Z) (shift : Z) (p : ctslot) : ctslot :=
  if negb (Z.land r shift =? 0)
  then let v := Z.rem (vidx N p - r + V) V in (Z.quot v N, Z.rem v N)
  else p.
(** 65-96; two source shifts are never equal, so the insertions into the map
    are a map over the list *)
Fixpoint evaluate_rounds (N V : Z) (sss : list skey) (last : positions) (order : list Z) : option (list round) :=
  match order with
  | [] => Some []
  | r :: rest =>
      match mapM (fun k => match lookup last k with
                           | Some p => Some (k, next_position N V r (snd k) p)
                           | None => None
                           end) sss with
      | None => None
      | Some cur =>
          match evaluate_rounds N V sss cur rest with Some rs => Some ((cur, r) :: rs) | None => None end
      end
  end.
(** 44-97, with the constructor's assertion (ShiftScheme.h:175-176) *)
Definition evaluate (N K : Z) (order : list Z) (m : mapping) : option (list round) :=
  if negb (is_power_of_two N) then None
  else
    let V := K * N in
    let sss := source_shifts N V m in
    let init := map (fun k : skey => (k, fst k)) sss in
    match evaluate_rounds N V sss init order with Some rs => Some ((init, 0) :: rs) | None => None end.

(** ** ImplementShiftNetwork.cpp *)
(** vertices are numbered by their position in the virtual ciphertext: this is
    the order of CtSlot on slots below N *)
Definition vertex (N : Z) (p : ctslot) : nat := Z.to_nat (vidx N p).
Fixpoint pairs {A} (l : list A) : list (A * A) :=
  match l with [] => [] | a :: r => map (pair a) r ++ pairs r end.
(** 61-82 *)
Definition conflicts (rounds : list round) : list (ctslot * ctslot) :=
  flat_map (fun rd : round =>
    flat_map (fun pq : (skey * ctslot) * (skey * ctslot) =>
      let '((k1, p1), (k2, p2)) := pq in
      if negb (slot_eqb (fst k1) (fst k2)) && slot_eqb p1 p2 then [(fst k1, fst k2)] else [])
      (pairs (fst rd))) (tl rounds).
(** 55-82 *)
Definition conflict_graph (N : Z) (m : mapping) (rounds : list round) : ugraph :=
  fold_left (fun g e => snd (u_add_edge (vertex N (fst e)) (vertex N (snd e)) g)) (conflicts rounds)
    (fold_left (fun g ts => u_add_vertex (vertex N (snd ts)) g) m empty_ugraph).
(** 98-108: [coloring] lists the coloured vertices in iteration order *)
Definition add_to_group (gs : list (list nat)) (e : nat * nat) : list (list nat) :=
  let '(v, c) := e in
  let gs' := if (length gs <=? c)%nat then gs ++ repeat [] (c + 1 - length gs) else gs in
  set_nth c (v :: nth c gs' []) gs'.
Definition rotation_groups (coloring : list (nat * nat)) : list (list nat) := fold_left add_to_group coloring [].
Definition contains (N : Z) (group : list nat) (p : ctslot) : bool := existsb (Nat.eqb (vertex N p)) group.

(** ** RotationGroupKernel.h *)
Section Kernel.
Variable E : Type.
Variables (zero one : E) (add mul : E -> E -> E).
Notation row := (list E).

Definition splat0 (N : Z) : row := repeat zero (Z.to_nat N).
Definition all_zero (mask : list bool) : bool := forallb negb mask.
Definition all_one (mask : list bool) : bool := forallb (fun b => b) mask.
Definition mul_mask (ct : row) (mask : list bool) : row := zip_with (fun x b => mul x (if b : bool then one else zero)) ct mask.
Definition add_rows (a b : row) : row := zip_with add a b.
(** LeftRotateNode (EvalVisitor.cpp:158-175) *)
Definition left_rotate (ct : row) (r : Z) : row :=
  let n := Z.of_nat (length ct) in
  map (fun i => nth (Z.to_nat ((Z.of_nat i + r) mod n)) ct zero) (seq 0 (length ct)).
(** 86-114: the rotation is a multiple of the ciphertext size *)
Definition rotate_whole (N : Z) (input : list row) (rotation : Z) (masks : list (list bool)) : list (option row) :=
  let K := Z.of_nat (length input) in
  let masked := zip_with (fun ct mask => if all_zero mask then splat0 N
                                         else if all_one mask then ct else mul_mask ct mask) input masks in
  map (fun target => Some (nth (Z.to_nat (Z.rem (Z.of_nat target + Z.quot rotation N + K) K)) masked []))
      (seq 0 (length input)).
(** 222-236 *)
Definition add_result (t : nat) (r : option row) (results : list (option row)) : list (option row) :=
  match r with
  | None => results
  | Some x => set_nth t (Some (match nth t results None with Some y => add_rows y x | None => x end)) results
  end.
(** 136-237 *)
Definition rotate_one (N rotation : Z) (input : list row) (masks : list (list bool)) (c : nat)
    (results : list (option row)) : option (list (option row)) :=
  let K := Z.of_nat (length input) in
  let ct := nth c input [] in
  let mask := nth c masks [] in
  let V := K * N in
  let min_rotated := Z.rem (Z.of_nat c * N + 0 - rotation + V) V in
  let max_rotated := Z.rem (Z.of_nat c * N + (N - 1) - rotation + V) V in
  let target1 := Z.quot min_rotated N in
  let target2 := Z.quot max_rotated N in
  if negb (Z.rem (target1 + 1) K =? target2) then None
  else if target1 =? target2 then
    Some (set_nth (Z.to_nat target1)
      (Some (if all_zero mask then splat0 N
             else if all_one mask then left_rotate ct rotation
             else left_rotate (mul_mask ct mask) rotation)) results)
  else
    let indexed := combine (seq 0 (length mask)) mask in
    let mask1 := map (fun ib : nat * bool => if Z.of_nat (fst ib) <? rotation then snd ib else false) indexed in
    let mask2 := map (fun ib : nat * bool => if Z.of_nat (fst ib) <? rotation then false else snd ib) indexed in
    let rotated1 := if all_zero mask1 then None else Some (left_rotate (mul_mask ct mask1) rotation) in
    let rotated2 := if all_zero mask2 then None else Some (left_rotate (mul_mask ct mask2) rotation) in
    Some (add_result (Z.to_nat target2) rotated2 (add_result (Z.to_nat target1) rotated1 results)).
(** 67-240 *)
Definition apply_virtual_rotation (N : Z) (input : list row) (rotation : Z) (masks : list (list bool)) :
    option (list (option row)) :=
  if Z.rem rotation N =? 0 then Some (rotate_whole N input rotation masks)
  else fold_left (fun o c => match o with Some rs => rotate_one N rotation input masks c rs | None => None end)
         (seq 0 (length input)) (Some (repeat None (length input))).

(** 289-293, 314-320: the 0/1 masks of a list of positions *)
Definition masks_of (N : Z) (k : nat) (ps : list ctslot) : list (list bool) :=
  map (fun c => map (fun i => existsb (slot_eqb (Z.of_nat c, Z.of_nat i)) ps) (seq 0 (Z.to_nat N))) (seq 0 k).
(** 295-310 *)
Definition fixed_row (ct : row) (mask : list bool) : option row :=
  if all_zero mask then None else if all_one mask then Some ct else Some (mul_mask ct mask).
(** 333-346 *)
Definition combine_row (cur : row) (fr : option row * option row) : row :=
  match fr with
  | (None, None) => cur
  | (None, Some r) => r
  | (Some f, None) => f
  | (Some f, Some r) => add_rows f r
  end.
(** 258-347: one round; [prev] are the positions after the round before *)
Definition group_round (N : Z) (sss : list skey) (prev : positions) (r : Z) (current : list row) : option (list row) :=
  match mapM (fun k => match lookup prev k with Some p => Some (k, p) | None => None end) sss with
  | None => None
  | Some kps =>
      let rotate_positions := map snd (filter (fun kp : skey * ctslot => negb (Z.land (snd (fst kp)) r =? 0)) kps) in
      let fixed_positions := map snd (filter (fun kp : skey * ctslot => Z.land (snd (fst kp)) r =? 0) kps) in
      let k := length current in
      let fixed_current := zip_with fixed_row current (masks_of N k fixed_positions) in
      match (match rotate_positions with
             | [] => Some (repeat None k)
             | _ => apply_virtual_rotation N current r (masks_of N k rotate_positions)
             end) with
      | None => None
      | Some rotated_current => Some (zip_with combine_row current (combine fixed_current rotated_current))
      end
  end.
Fixpoint group_rounds (N : Z) (sss : list skey) (prev : positions) (rounds : list round) (current : list row) : option (list row) :=
  match rounds with
  | [] => Some current
  | (ps, r) :: rest =>
      match group_round N sss prev r current with
      | Some current' => group_rounds N sss ps rest current'
      | None => None
      end
  end.
(** 242-370 *)
Definition rotate_one_group (N : Z) (m : mapping) (initial : list row) (sss : list skey) (rounds : list round)
    (group : list nat) : option (list row) :=
  match rounds with
  | [] => Some initial
  | (ps0, _) :: rest =>
      match group_rounds N (filter (fun k => contains N group (fst k)) sss) ps0 rest initial with
      | None => None
      | Some current =>
          Some (zip_with (fun i ct =>
                  if existsb (fun ts => contains N group (snd ts) && (fst (fst ts) =? Z.of_nat i)) m
                  then ct else splat0 N) (seq 0 (length current)) current)
      end
  end.
(** 372-410 *)
Definition implement_rotation_groups (N : Z) (cts : list row) (m : mapping) (rounds : list round)
    (groups : list (list nat)) : option (list (list row)) :=
  let V := Z.of_nat (length cts) * N in
  mapM (fun group =>
          rotate_one_group N m cts (source_shifts N V (filter (fun ts => contains N group (snd ts)) m)) rounds group)
       groups.
(** 412-434; no group at all is an access out of range *)
Definition implement_shift_network (N : Z) (cts : list row) (m : mapping) (rounds : list round)
    (groups : list (list nat)) : option (list row) :=
  match implement_rotation_groups N cts m rounds groups with
  | Some (first :: rest) => Some (fold_left (fun acc g => zip_with add_rows acc g) rest first)
  | _ => None
  end.

(** ImplementShiftNetwork.cpp:44-122 and 197-290: from the mapping to the new
    rows; an empty order stands for the default one (ShiftScheme.h:168-170) *)
Definition remap (N : Z) (order : list Z) (m : mapping) (cts : list row) : option (list row) :=
  let K := Z.of_nat (length cts) in
  match (match order with [] => default_shift_order (K * N) | _ => Some order end) with
  | None => None
  | Some order =>
      match evaluate N K order m with
      | None => None
      | Some rounds =>
          let g := conflict_graph N m rounds in
          match color g with
          | None => None
          | Some cs =>
              let coloring := flat_map (fun v => match cs v with Some c => [(v, c)] | None => [] end) (uverts g) in
              implement_shift_network N cts m rounds (rotation_groups coloring)
          end
      end
  end.
End Kernel.
