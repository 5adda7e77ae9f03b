(** Model of lib/Transforms/OperationBalancer/OperationBalancer.cpp. *)

From Coq Require Import List Bool Arith Lia.
Import ListNotations.

(** ** The balanced tree *)

(** Nodes stand for the operations that are created, leaves for existing
    values. *)
Inductive tree := Leaf (v : nat) | Node (l r : tree).

(** recursiveProduceBalancedTree, lines 30-75. Fewer than two operands never
    reach the function (line 184); with one or no operand the recursion of the
    code would not end, which is [None] here. The fuel is the length of the
    list. *)
Fixpoint balanced_tree_aux (fuel : nat) (ops : list nat) : option tree :=
  match fuel with
  | O => None
  | S fuel' =>
      match ops with
      | [] | [_] => None
      | [a; b] => Some (Node (Leaf a) (Leaf b))
      | [a; b; c] =>
          match balanced_tree_aux fuel' [a; b] with
          | Some l => Some (Node l (Leaf c))
          | None => None
          end
      | _ =>
          let n := length ops / 2 in
          match balanced_tree_aux fuel' (firstn n ops), balanced_tree_aux fuel' (skipn n ops) with
          | Some l, Some r => Some (Node l r)
          | _, _ => None
          end
      end
  end.
Definition balanced_tree (ops : list nat) : option tree := balanced_tree_aux (length ops) ops.

(** ** Blocks *)

(** Value i of a block is the result of operation i; [Bin] is the operation
    type being balanced, anything else (including block arguments and values
    defined outside of the block) is [Other] with its operands. [outs] are the
    operands of the terminator. An operation with several results, or a tree
    that continues in an enclosing block, is not modelled. *)
Inductive bop := Bin (l r : nat) | Other (args : list nat).
Record block := { ops : list bop; outs : list nat }.

Definition args_of (o : bop) : list nat :=
  match o with Bin l r => [l; r] | Other args => args end.

Definition uses (b : block) : list nat := flat_map args_of (ops b) ++ outs b.
(** Operation::hasOneUse *)
Definition has_one_use (b : block) (v : nat) : bool :=
  count_occ Nat.eq_dec (uses b) v =? 1.

(** The test of lines 135-136. *)
Definition inner (b : block) (v : nat) : option (nat * nat) :=
  match nth_error (ops b) v with
  | Some (Bin l r) => if has_one_use b v then Some (l, r) else None
  | _ => None
  end.

(** The depth-first traversal of lines 107-162, returning the operands from
    left to right and the operations to delete. The explicit stack, which
    pushes the right operand first, is written as recursion. The fuel is the
    index of the value, since operands come earlier in the block. *)
Fixpoint collect (b : block) (fuel : nat) (v : nat) : list nat * list nat :=
  match fuel, inner b v with
  | S fuel', Some (l, r) =>
      let '(ol, dl) := collect b fuel' l in
      let '(or, dr) := collect b fuel' r in
      (ol ++ or, v :: dl ++ dr)
  | _, _ => ([v], [])
  end.

(** Lines 118-123: the root itself is always expanded. *)
Definition collect_root (b : block) (v l r : nat) : list nat * list nat :=
  let '(ol, dl) := collect b v l in
  let '(or, dr) := collect b v r in
  (ol ++ or, v :: dl ++ dr).

(** Lines 97-167: from the last operation to the first, skipping operations
    already visited. *)
Record found := { root : nat; operands : list nat; deleted : list nat }.
Fixpoint find_roots (b : block) (todo : list nat) (visited : list nat) : list found :=
  match todo with
  | [] => []
  | v :: todo' =>
      match nth_error (ops b) v with
      | Some (Bin l r) =>
          if existsb (Nat.eqb v) visited then find_roots b todo' visited
          else
            let '(os, ds) := collect_root b v l r in
            {| root := v; operands := os; deleted := ds |}
              :: find_roots b todo' (ds ++ visited)
      | _ => find_roots b todo' visited
      end
  end.
Definition roots (b : block) : list found := find_roots b (rev (seq 0 (length (ops b)))) [].

(** std::stable_partition with the public operands first, lines 189-191. *)
Definition group_public (public : nat -> bool) (l : list nat) : list nat :=
  filter public l ++ filter (fun v => negb (public v)) l.

(** The block after lines 169-205. An operation is kept, or is the root of a
    rebuilt tree, or is erased. Newly created operations are placed directly
    before the root, so they are part of its new definition. *)
Inductive new_def := Keep (o : bop) | Rebuilt (t : tree) | Erased.

Definition rebuilt (public : nat -> bool) (fs : list found) : list (nat * option tree) :=
  map (fun f => (root f, balanced_tree (group_public public (operands f))))
      (filter (fun f => 2 <? length (operands f)) fs).

Definition erased (fs : list found) : list nat :=
  flat_map (fun f => tl (deleted f)) (filter (fun f => 2 <? length (operands f)) fs).

Definition balance_def (b : block) (public : nat -> bool) (v : nat) (o : bop) : option new_def :=
  match find (fun p => Nat.eqb (fst p) v) (rebuilt public (roots b)) with
  | Some (_, Some t) => Some (Rebuilt t)
  | Some (_, None) => None
  | None =>
      if existsb (Nat.eqb v) (erased (roots b)) then Some Erased else Some (Keep o)
  end.

Definition balance (b : block) (public : nat -> bool) : list (option new_def) :=
  map (fun p => balance_def b public (fst p) (snd p))
      (combine (seq 0 (length (ops b))) (ops b)).
