(** * The rotation analysis

    Model of /repo/lib/Analysis/RotationAnalysis/RotationAnalysis.cpp,
    DagBuilder.cpp and RotationEvalVisitor.cpp, with the parts of
    /repo/lib/Kernel/EvalVisitor.cpp they use.

    Simplified: nodes are trees, not shared and cached nodes (the cache only
    avoids evaluating a node twice; it is cleared for the body before each
    iteration, ArithmeticDag.h:671-732); tensors are ciphertexts whose slot
    dimension is the slot count, and their contents are not modelled, so
    arithmetic, extraction and insertion on cleartext tensors are not;
    operand constants are written in place; a failed assertion, undefined
    behaviour, an analysis failure, and bounds or constants outside 32 bits
    are [None]. *)
From Coq Require Import ZArith List Bool.
From Verif Require Import RotKeys_Spec.
Import ListNotations.
Open Scope Z_scope.

(** Nodes of the arithmetic DAG that the builder makes. *)
Inductive node :=
| NVar (x : nat)
| NConst (z : Z)
| NBin (o : binop) (a b : node)
| NDiv (a : node) (d : Z)
| NRot (t : node) (shifts : nodes)
| NYield (l : nodes)
| NLoop (lb ub step : Z) (iv : nat) (args : list nat) (inits body : nodes)
| NIf (c : node) (th el : nodes)
| NAt (n : node) (k : nat)
with nodes := NNil | NCons (n : node) (l : nodes).

Fixpoint nodes_of (l : list node) : nodes :=
  match l with [] => NNil | n :: l => NCons n (nodes_of l) end.

(** [valueToNode] *)
Definition table := nat -> option node.

Definition put (t : table) (x : nat) (n : node) : table :=
  fun y => if Nat.eqb y x then Some n else t y.

(** DagBuilder.cpp:41-78, [findNodeOrMakeNewVariable]; a new variable is known
    by the value it was made for. *)
Definition find (t : table) (x : nat) : node :=
  match t x with Some n => n | None => NVar x end.

Definition find_operand (t : table) (o : operand) : node :=
  match o with K z => NConst z | X x => find t x end.

(** DagBuilder.cpp:133-135 and 156-158: results of loops and branches. *)
Fixpoint put_results (t : table) (n : node) (k : nat) (rs : list nat) : table :=
  match rs with
  | [] => t
  | r :: rs => put_results (put t r (NAt n k)) n (S k) rs
  end.

(** DagBuilder.cpp:119-125: region arguments are variables. *)
Definition put_vars (t : table) (xs : list nat) : table :=
  fold_left (fun t x => put t x (NVar x)) xs t.

(** DagBuilder.cpp:162-169 *)
Definition yield_nodes (t : table) (ys : list operand) : nodes :=
  nodes_of (map (find_operand t) ys).

(** DagBuilder.cpp:234-262: unsigned predicates are mapped to the signed ones. *)
Definition dag_pred (p : pred) : pred :=
  match p with
  | Slt | Ult => Slt
  | Sle | Ule => Sle
  | Sgt | Ugt => Sgt
  | Sge | Uge => Sge
  | Eq => Eq
  | Ne => Ne
  end.

Definition dag_bin (o : binop) : binop :=
  match o with Cmp p => Cmp (dag_pred p) | o => o end.

(** DagBuilder.cpp:393-437, [build], with the visit of each operation. *)
Fixpoint build_op (t : table) (o : op) : option table :=
  match o with
  | Bin r o a b => (* 210-267 *)
      Some (put t r (NBin (dag_bin o) (find_operand t a) (find_operand t b)))
  | Div r a b => (* 315-326; without a constant the attribute is null *)
      match b with
      | K z => Some (put t r (NDiv (find_operand t a) z))
      | X _ => None
      end
  | Rot r x shifts => (* 171-208 *)
      Some (put t r (NRot (find t x) (yield_nodes t shifts)))
  | OtherInt _ _ _ => Some t (* 403-427: no operand is a ciphertext *)
  | OtherCt r args => (* 403-436 *)
      match args with
      | [] => Some t
      | _ => Some (put t r (NAt (NYield (nodes_of (map (find t) args))) 0))
      end
  | For rs lb ub step iv args inits body ys => (* 98-137 *)
      match lb, ub, step with
      | K lb, K ub, K step =>
          match build (put_vars (put t iv (NVar iv)) args) body with
          | Some t' =>
              Some (put_results t'
                      (NLoop lb ub step iv args (yield_nodes t inits) (yield_nodes t' ys))
                      0 rs)
          | None => None
          end
      | _, _, _ => None
      end
  | If rs c th yt el ye => (* 139-160 *)
      match build t th with
      | Some t1 =>
          match build t1 el with
          | Some t2 =>
              Some (put_results t2
                      (NIf (find_operand t c) (yield_nodes t1 yt) (yield_nodes t2 ye)) 0 rs)
          | None => None
          end
      | None => None
      end
  | IfThen _ _ => None (* 140-144 *)
  end
(** DagBuilder.cpp:80-96, [visitBlockWithSingleTerminator] *)
with build (t : table) (b : block) : option table :=
  match b with
  | Nil => Some t
  | Cons o b => match build_op t o with Some t => build t b | None => None end
  end.

(** [int] of the C++ code has 32 bits. *)
Definition int32 (z : Z) : option Z :=
  if (- 2 ^ 31 <=? z) && (z <? 2 ^ 31) then Some z else None.

(** EvalVisitor.cpp, addition, subtraction and multiplication of scalars, and
    comparison, 230-261. *)
Definition eval_bin (o : binop) (a b : Z) : option Z :=
  match o with
  | Add => int32 (a + b)
  | Sub => int32 (a - b)
  | Mul => int32 (a * b)
  | Cmp p =>
      Some (if match p with
               | Slt | Ult => a <? b
               | Sle | Ule => a <=? b
               | Sgt | Ugt => b <? a
               | Sge | Uge => b <=? a
               | Eq => a =? b
               | Ne => negb (a =? b)
               end then 1 else 0)
  end.

(** EvalVisitor.cpp:135-155: the test [if ( *lScalar )] sends the value 0 to
    the vector case, which fails for a scalar. *)
Definition eval_div (a d : Z) : option Z :=
  if a =? 0 then None
  else
    match int32 d with
    | Some d => if d =? 0 then None else int32 (Z.quot a d)
    | None => None
    end.

(** /repo/lib/Utils/RotationUtils.h:14-16, [normalizeRotation] *)
Definition normalize (rot slots : Z) : Z := Z.rem (Z.rem rot slots + slots) slots.

(** Variables during evaluation. *)
Definition vars_env := nat -> option val.

Definition vput (e : vars_env) (x : nat) (v : val) : vars_env :=
  fun y => if Nat.eqb y x then Some v else e y.

(** EvalVisitor.cpp:362-367 *)
Fixpoint vputs (e : vars_env) (xs : list nat) (vs : list val) : option vars_env :=
  match xs, vs with
  | [], [] => Some e
  | x :: xs, v :: vs => vputs (vput e x v) xs vs
  | _, _ => None
  end.

(** The single result of a node. *)
Definition single (r : option (list val * list Z)) : option (val * list Z) :=
  match r with Some ([v], l) => Some (v, l) | _ => None end.

(** The single integer result of a node. *)
Definition scalar (r : option (list val * list Z)) : option (Z * list Z) :=
  match r with Some ([VInt z], l) => Some (z, l) | _ => None end.

(** EvalVisitor.cpp:351-379; [i += step] must not overflow. *)
Fixpoint eval_loop (f : Z -> list val -> option (list val * list Z))
    (step : Z) (k : nat) (i : Z) (vs : list val) : option (list val * list Z) :=
  match k with
  | O => Some (vs, [])
  | S k =>
      match f i vs with
      | Some (ws, l) =>
          if Nat.eqb (length ws) (length vs) then
            match int32 (i + step) with
            | Some i' =>
                match eval_loop f step k i' ws with
                | Some (us, l') => Some (us, l ++ l')
                | None => None
                end
            | None => None
            end
          else None
      | None => None
      end
  end.

(** RotationEvalVisitor.cpp:33-118 and EvalVisitor.cpp: the results of a node
    and the rotation amounts recorded while evaluating it. *)
Fixpoint eval (ty : nat -> bool) (slots : Z) (e : vars_env) (n : node) : option (list val * list Z) :=
  match n with
  | NVar x => (* RotationEvalVisitor.cpp:78-118 *)
      match e x with
      | Some v => Some ([v], [])
      | None => Some ([if ty x then VCt else VInt 0], [])
      end
  | NConst z => option_map (fun z => ([VInt z], [])) (int32 z)
  | NBin o a b =>
      match scalar (eval ty slots e a), scalar (eval ty slots e b) with
      | Some (x, l1), Some (y, l2) =>
          option_map (fun z => ([VInt z], l1 ++ l2)) (eval_bin o x y)
      | _, _ => None
      end
  | NDiv a d =>
      match scalar (eval ty slots e a) with
      | Some (x, l) => option_map (fun z => ([VInt z], l)) (eval_div x d)
      | None => None
      end
  | NRot t shifts => (* RotationEvalVisitor.cpp:33-68 *)
      match single (eval ty slots e t), evals ty slots e shifts with
      | Some (VCt, l1), Some (vs, l2) =>
          match all (fun v => match v with VInt z => Some z | VCt => None end) vs with
          | Some zs => Some ([VCt], l1 ++ l2 ++ map (fun z => normalize z slots) zs)
          | None => None
          end
      | _, _ => None
      end
  | NYield l => evals ty slots e l
  | NLoop lb ub step iv args inits body => (* EvalVisitor.cpp:340-382 *)
      match evals ty slots e inits, int32 lb, int32 ub, int32 step with
      | Some (vs, l1), Some _, Some _, Some _ =>
          if (step <=? 0) && (lb <? ub) then None
          else
            match
              eval_loop
                (fun i vs =>
                   match vputs (vput e iv (VInt i)) args vs with
                   | Some e' => evals ty slots e' body
                   | None => None
                   end) step (if lb <? ub then trips lb ub step else O) lb vs
            with
            | Some (ws, l2) => Some (ws, l1 ++ l2)
            | None => None
            end
      | _, _, _, _ => None
      end
  | NIf c th el => (* EvalVisitor.cpp:263-272 *)
      match scalar (eval ty slots e c) with
      | Some (z, l1) =>
          match (if z =? 0 then evals ty slots e el else evals ty slots e th) with
          | Some (vs, l2) => Some (vs, l1 ++ l2)
          | None => None
          end
      | None => None
      end
  | NAt n k => (* EvalVisitor.cpp:397-402 *)
      match eval ty slots e n with
      | Some (vs, l) => option_map (fun v => ([v], l)) (nth_error vs k)
      | None => None
      end
  end
(** EvalVisitor.cpp:384-395, yields *)
with evals (ty : nat -> bool) (slots : Z) (e : vars_env) (l : nodes) : option (list val * list Z) :=
  match l with
  | NNil => Some ([], [])
  | NCons n l =>
      match single (eval ty slots e n), evals ty slots e l with
      | Some (v, l1), Some (vs, l2) => Some (v :: vs, l1 ++ l2)
      | _, _ => None
      end
  end.

(** RotationAnalysis.cpp:41-76, [handleScfFor], from building the DAG on; the
    DAG of an outermost loop is evaluated with no variable set. *)
Definition loop_rotations (ty : nat -> bool) (slots : Z) (o : op) : option (list Z) :=
  match o with
  | For _ (K lb) (K ub) (K step) iv args inits body ys =>
      let t0 : table := fun _ => None in
      match build (put_vars (put t0 iv (NVar iv)) args) body with
      | Some t' =>
          option_map snd
            (eval ty slots (fun _ => None)
               (NLoop lb ub step iv args (yield_nodes t0 inits) (yield_nodes t' ys)))
      | None => None
      end
  | _ => None
  end.


(** The rotation operations, in the order of the walk. *)
Fixpoint rotations (o : op) : list (list operand) :=
  match o with
  | Rot _ _ shifts => [shifts]
  | For _ _ _ _ _ _ _ body _ => rotationsb body
  | If _ _ th _ el _ => rotationsb th ++ rotationsb el
  | IfThen _ th => rotationsb th
  | _ => []
  end
with rotationsb (b : block) : list (list operand) :=
  match b with Nil => [] | Cons o b => rotations o ++ rotationsb b end.

(** RotationAnalysis.cpp:87-115: the indices, if all are constant. *)
Definition constant_indices (shifts : list operand) : option (list Z) :=
  all (fun o => match o with K z => Some z | X _ => None end) shifts.

(** RotationAnalysis.cpp:141-147 inside one outermost loop: constant rotations
    are recorded until the first other one, which has the whole loop evaluated
    and all its rotations marked visited.
    The flag tells that no other one was met. *)
Fixpoint walk_loop (rots : list (list operand)) : list Z * bool :=
  match rots with
  | [] => ([], true)
  | shifts :: rots =>
      match constant_indices shifts with
      | Some l => let (l', c) := walk_loop rots in (l ++ l', c)
      | None => ([], false)
      end
  end.

(** RotationAnalysis.cpp:78-150, [run]; [slots] is the slot count attribute. *)
Fixpoint analyze_op (ty : nat -> bool) (slots : option Z) (o : op) : option (list Z) :=
  match o with
  | Rot _ _ shifts => constant_indices shifts
  | For _ _ _ _ _ _ _ body _ =>
      let (l, constant) := walk_loop (rotationsb body) in
      if constant then Some l
      else
        match slots with
        | Some n => option_map (fun l' => l ++ l') (loop_rotations ty n o)
        | None => None
        end
  | If _ _ th _ el _ =>
      match analyze ty slots th, analyze ty slots el with
      | Some l1, Some l2 => Some (l1 ++ l2)
      | _, _ => None
      end
  | IfThen _ th => analyze ty slots th
  | _ => Some []
  end
with analyze (ty : nat -> bool) (slots : option Z) (b : block) : option (list Z) :=
  match b with
  | Nil => Some []
  | Cons o b =>
      match analyze_op ty slots o, analyze ty slots b with
      | Some l1, Some l2 => Some (l1 ++ l2)
      | _, _ => None
      end
  end.
