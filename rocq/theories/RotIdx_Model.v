(** Model of lib/Utils/RotationUtils.h:18-89, the rotation indices announced
    for key generation, and of the rotations an arithmetic DAG performs. *)
From Coq Require Import ZArith List Bool.
From Verif Require Import Words NumTheory_Model Kernel_Model.
Import ListNotations.
Open Scope Z_scope.

(** llvm::DenseSet<int64_t> as a duplicate-free list *)
Definition zset := list Z.
Definition set_insert (x : Z) (s : zset) : zset := if existsb (Z.eqb x) s then s else x :: s.

(** 25-31: the giant and the baby part of a diagonal; r is not negative, so
    C++ division is Z.quot *)
Definition giant_of (n1 slots rot : Z) : Z :=
  normalize_rotation (Z.quot (normalize_rotation rot slots) n1 * n1) slots.
Definition baby_of (n1 slots rot : Z) : Z := Z.rem (normalize_rotation rot slots) n1.

(** 21-40 [findBestBSGSRatio]; the fuel covers the 63 doublings possible in
    int64_t, [None] would be a shift beyond that *)
Fixpoint best_ratio_loop (fuel : nat) (diags : list Z) (slots max_ratio n1 : Z) : option Z :=
  match fuel with
  | O => None
  | S f =>
      if n1 <? slots then
        let s1 := fold_left (fun s rot => set_insert (giant_of n1 slots rot) s) diags [] in
        let s2 := fold_left (fun s rot => set_insert (baby_of n1 slots rot) s) diags [] in
        let nb1 := Z.of_nat (length s1) - 1 in
        let nb2 := Z.of_nat (length s2) - 1 in
        if (0 <? nb1) && (nb2 =? max_ratio * nb1) then Some n1
        else if (0 <? nb1) && (max_ratio * nb1 <? nb2) then Some (Z.quot n1 2)
        else best_ratio_loop f diags slots max_ratio (n1 * 2)
      else Some 1
  end.
Definition find_best_ratio (diags : list Z) (slots log_max_ratio : Z) : option Z :=
  best_ratio_loop 64 diags slots (2 ^ log_max_ratio) 1.

(** 44-57 [lintransRotationIndices]; [None] also for a division by zero *)
Definition lintrans_indices (diags : list Z) (slots log_bsgs : Z) : option zset :=
  n1 <- (if log_bsgs <? 0 then Some slots else find_best_ratio diags slots log_bsgs) ;;
  if n1 =? 0 then None else
  Some (fold_left (fun s rot =>
          let giant := giant_of n1 slots rot in
          let baby := baby_of n1 slots rot in
          let s := if giant =? 0 then s else set_insert giant s in
          if baby =? 0 then s else set_insert baby s) diags []).

(** 62-89 [rotateAndReduceRotationIndices]; [None]: division by zero steps *)
Definition reduce_indices (period steps : Z) (has_plaintexts : bool) : option zset :=
  if negb has_plaintexts
  then Some (fold_left (fun s x => set_insert (x * period) s) (shift_sizes steps) [])
  else
    let baby := baby_steps steps in
    if baby =? 0 then None else
    let s := fold_left (fun s i => set_insert (period * i) s) (filter (fun i => 1 <=? i) (upto baby)) [] in
    Some (fold_left (fun s j => set_insert (period * j * baby) s)
            (filter (fun j => 1 <=? j) (upto (giant_steps steps))) s).

(** ** Rotations performed by a DAG *)
Section Rots.
Variable K : cring.

(** Built from plaintext matrices and constants only. Anything else, in
    particular every variable, is counted as a ciphertext. *)
Fixpoint plain (n : node K) : bool :=
  match n with
  | Leaf _ (VMat _ _) | Const _ _ | ConstTensor _ _ => true
  | Extract _ a _ => plain a
  | Rotate _ a _ => plain a
  | Add _ a b | Sub _ a b | Mul _ a b => plain a && plain b
  | _ => false
  end.

(** the amounts by which evaluating [n] rotates a ciphertext (EvalVisitor.cpp
    151-173, RotationEvalVisitor.cpp 37-53 before normalisation) *)
Fixpoint rots (e : env K) (n : node K) {struct n} : list Z :=
  match n with
  | Leaf _ _ | Const _ _ | ConstTensor _ _ | SplatZero _ _ | Empty _ _ _ | Var _ _ => []
  | Add _ a b | Sub _ a b | Mul _ a b | Extract _ a b | Compare _ _ a b => rots e a ++ rots e b
  | FloorDiv _ a _ | ResultAt _ a _ => rots e a
  | Rotate _ a s =>
      rots e a ++ rots e s ++
      (if plain a then [] else
       match single K (eval K e s) with Some (VInt _ k) => [k] | _ => [] end)
  | Insert _ a b c => rots e a ++ rots e b ++ rots e c
  | IfElse _ c t f =>
      rots e c ++
      match single K (eval K e c) with
      | Some (VInt _ z) => if z =? 0 then rots e f else rots e t
      | _ => []
      end
  | ForLoop _ iv args inits lower upper body =>
      flat_map (rots e) inits ++
      snd (fold_left
        (fun acc i =>
           match fst acc with
           | None => acc
           | Some vs =>
               match bind_vars K (bind_var K e iv (VInt K i)) args vs with
               | None => (None, snd acc)
               | Some e' => (eval K e' body, snd acc ++ rots e' body)
               end
           end)
        (map (fun k => lower + Z.of_nat k) (seq 0 (Z.to_nat (upper - lower))))
        (evals K e inits, []))
  | Yield _ l => flat_map (rots e) l
  end.
Definition performed (n : node K) : list Z := rots (no_vars K) n.
End Rots.
