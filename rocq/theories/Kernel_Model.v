(** Model of the arithmetic DAGs of lib/Kernel/ArithmeticDag.h, of their
    meaning (lib/Kernel/EvalVisitor.cpp) and of the kernels of
    lib/Kernel/KernelImplementation.h.

    Slots hold elements of an arbitrary commutative ring. Index computations
    are on mathematical integers; the fixed widths of the C++ types are not
    modelled except where a definition says so. *)

From Coq Require Import ZArith List Bool Ring_theory.
From Verif Require Import Words NumTheory_Model.
Import ListNotations.
Open Scope Z_scope.

Record cring := {
  car :> Type;
  r0 : car; r1 : car;
  radd : car -> car -> car; rmul : car -> car -> car;
  rsub : car -> car -> car; ropp : car -> car;
  r_ok : ring_theory r0 r1 radd rmul rsub ropp (@eq car)
}.

(** ** RotationUtils.h:14-16 *)
Definition normalize_rotation (rot slots : Z) : Z := Z.rem (Z.rem rot slots + slots) slots.

Section Dag.
Variable K : cring.
Notation R := (car K).

(** LiteralValue (AbstractValue.h): a scalar index, a vector of slots, a list
    of such vectors, or a constant vector of indices. *)
Inductive value := VInt (z : Z) | VVec (l : list R) | VMat (l : list (list R)) | VIVec (l : list Z).

Inductive predicate := CmpLT | CmpNE.

(** ArithmeticDag.h:100-240. Variables are numbered, where the code uses the
    identity of the VariableNode. PowerNode and LeftRotateBulkNode are not used
    by the kernels below; SplatNode is used with the value 0 only; every
    ForLoopNode has step 1. *)
Inductive node :=
  | Leaf (v : value)
  | Const (z : Z)                          (* ConstantScalarNode, index or 0.0 *)
  | ConstTensor (l : list Z)
  | SplatZero (n : nat)                    (* SplatNode 0 of type tensor<n> *)
  | Empty (rows cols : nat)
  | Var (x : nat)
  | Add (a b : node)
  | Sub (a b : node)
  | Mul (a b : node)
  | FloorDiv (a : node) (d : Z)
  | Rotate (a shift : node)
  | Extract (a index : node)
  | Insert (scalar dest index : node)
  | Compare (p : predicate) (a b : node)
  | IfElse (c t f : node)
  | ForLoop (iv : nat) (args : list nat) (inits : list node) (lower upper : Z) (body : node)
  | Yield (l : list node)
  | ResultAt (a : node) (k : nat).

(** Elementwise operations; [None] is the assertion "disagreeing shapes". *)
Fixpoint map2 (f : R -> R -> R) (a b : list R) : option (list R) :=
  match a, b with
  | [], [] => Some []
  | x :: a', y :: b' => r <- map2 f a' b' ;; Some (f x y :: r)
  | _, _ => None
  end.

(** EvalVisitor.cpp 151-173 *)
Definition rotate (v : list R) (shift : Z) : option (list R) :=
  let dim := Z.of_nat (length v) in
  if dim =? 0 then None else
  let amount := normalize_rotation shift dim in
  Some (map (fun i => nth (Z.to_nat ((Z.of_nat i + amount) mod dim)) v (r0 K)) (seq 0 (length v))).

Fixpoint list_set {A} (l : list A) (i : nat) (v : A) : option (list A) :=
  match l, i with
  | [], _ => None
  | _ :: l', O => Some (v :: l')
  | x :: l', S i' => r <- list_set l' i' v ;; Some (x :: r)
  end.

Definition nth_z {A} (l : list A) (i : Z) : option A :=
  if i <? 0 then None else nth_error l (Z.to_nat i).

(** 40-70, 101-130; combinations of types for which the code returns its left
    operand as a dummy are [None] here. *)
Definition arith (fz : Z -> Z -> Z) (fr : R -> R -> R) (a b : value) : option value :=
  match a, b with
  | VInt x, VInt y => Some (VInt (fz x y))
  | VVec x, VVec y => r <- map2 fr x y ;; Some (VVec r)
  | _, _ => None
  end.

(** 132-149: [if ( *lScalar )] tests the value instead of the pointer, so a
    zero scalar falls through to the vector case, which fails; a vector would
    be dereferenced as a null scalar pointer. *)
Definition floor_div (a : value) (d : Z) : option value :=
  match a with
  | VInt x => if x =? 0 then None else Some (VInt (Z.quot x d))
  | _ => None
  end.

(** 175-194 *)
Definition extract (t i : value) : option value :=
  match t, i with
  | VMat l, VInt k => r <- nth_z l k ;; Some (VVec r)
  | VIVec l, VInt k => r <- nth_z l k ;; Some (VInt r)
  | _, _ => None
  end.

(** 196-223, on two-dimensional tensors *)
Definition insert (s t i : value) : option value :=
  match s, t, i with
  | VVec v, VMat l, VInt k =>
      if k <? 0 then None else r <- list_set l (Z.to_nat k) v ;; Some (VMat r)
  | _, _, _ => None
  end.

(** 225-256 *)
Definition compare (p : predicate) (a b : value) : option value :=
  match a, b with
  | VInt x, VInt y =>
      let r := match p with CmpLT => x <? y | CmpNE => negb (x =? y) end in
      Some (VInt (if r then 1 else 0))
  | _, _ => None
  end.

Definition env := nat -> option value.
Definition bind_var (e : env) (x : nat) (v : value) : env :=
  fun y => if Nat.eqb y x then Some v else e y.
Fixpoint bind_vars (e : env) (xs : list nat) (vs : list value) : option env :=
  match xs, vs with
  | [], [] => Some e
  | x :: xs', v :: vs' => e' <- bind_vars e xs' vs' ;; Some (bind_var e' x v)
  | _, _ => None
  end.

Definition single (l : option (list value)) : option value :=
  match l with Some [v] => Some v | _ => None end.

(** EvalVisitor; the cache is left out (results are recomputed). *)
Fixpoint eval (e : env) (n : node) {struct n} : option (list value) :=
  match n with
  | Leaf v => Some [v]
  | Const z => Some [VInt z]
  | ConstTensor l => Some [VIVec l]
  | SplatZero k => Some [VVec (repeat (r0 K) k)]
  | Empty r c => Some [VMat (repeat (repeat (r0 K) c) r)]
  | Var x => v <- e x ;; Some [v]
  | Add a b =>
      x <- single (eval e a) ;; y <- single (eval e b) ;; r <- arith Z.add (radd K) x y ;; Some [r]
  | Sub a b =>
      x <- single (eval e a) ;; y <- single (eval e b) ;; r <- arith Z.sub (rsub K) x y ;; Some [r]
  | Mul a b =>
      x <- single (eval e a) ;; y <- single (eval e b) ;; r <- arith Z.mul (rmul K) x y ;; Some [r]
  | FloorDiv a d => x <- single (eval e a) ;; r <- floor_div x d ;; Some [r]
  | Rotate a s =>
      x <- single (eval e a) ;; y <- single (eval e s) ;;
      match x, y with
      | VVec v, VInt k => r <- rotate v k ;; Some [VVec r]
      | _, _ => None
      end
  | Extract a i => x <- single (eval e a) ;; y <- single (eval e i) ;; r <- extract x y ;; Some [r]
  | Insert s d i =>
      x <- single (eval e s) ;; y <- single (eval e d) ;; z <- single (eval e i) ;;
      r <- insert x y z ;; Some [r]
  | Compare p a b =>
      x <- single (eval e a) ;; y <- single (eval e b) ;; r <- compare p x y ;; Some [r]
  | IfElse c t f =>
      match single (eval e c) with
      | Some (VInt z) => if z =? 0 then eval e f else eval e t
      | _ => None
      end
  | ForLoop iv args inits lower upper body =>
      vs <- (fix evals (l : list node) : option (list value) :=
               match l with
               | [] => Some []
               | x :: l' => v <- single (eval e x) ;; r <- evals l' ;; Some (v :: r)
               end) inits ;;
      fold_left
        (fun acc i =>
           vs <- acc ;;
           e' <- bind_vars (bind_var e iv (VInt i)) args vs ;;
           eval e' body)
        (map (fun k => lower + Z.of_nat k) (seq 0 (Z.to_nat (upper - lower)))) (Some vs)
  | Yield l =>
      (fix evals (l : list node) : option (list value) :=
         match l with
         | [] => Some []
         | x :: l' => v <- single (eval e x) ;; r <- evals l' ;; Some (v :: r)
         end) l
  | ResultAt a k => vs <- eval e a ;; v <- nth_error vs k ;; Some [v]
  end.

(** [evals] of the two nested fixpoints above, for stating lemmas *)
Fixpoint evals (e : env) (l : list node) : option (list value) :=
  match l with
  | [] => Some []
  | x :: l' => v <- single (eval e x) ;; r <- evals e l' ;; Some (v :: r)
  end.

Definition no_vars : env := fun _ => None.

(** evalKernel, 407-411, for a kernel that yields one vector *)
Definition run (n : node) : option (list R) :=
  match eval no_vars n with Some [VVec v] => Some v | _ => None end.

(** ** The kernels *)

(** leftRotate with a constant shift, ArithmeticDag.h:342-349 *)
Definition rotate_by (a : node) (shift : Z) : node := Rotate a (Const shift).
(** extract with a constant index, ArithmeticDag.h:374-377 *)
Definition extract_at (a : node) (i : Z) : node := Extract a (Const i).

(** KernelImplementation.h:46-70 [implementMatvec]; [None] is the failed
    assertion numRows > 0 *)
Definition matvec (matrix : list (list R)) (vector : list R) : option node :=
  let m := Leaf (VMat matrix) in
  let v := Leaf (VVec vector) in
  let term i := Mul (rotate_by v (Z.of_nat i)) (extract_at m (Z.of_nat i)) in
  if Nat.eqb (length matrix) 0 then None
  else Some (fold_left (fun acc i => Add acc (term i)) (seq 1 (length matrix - 1)) (term 0%nat)).

(** The values of shiftSize in the loop of 83-88. The type is int64_t, so 64
    halvings are enough. *)
Fixpoint halvings (fuel : nat) (shift : Z) : list Z :=
  match fuel with
  | O => []
  | S f => if 0 <? shift then shift :: halvings f (Z.quot shift 2) else []
  end.
Definition shift_sizes (steps : Z) : list Z := halvings 64 (Z.quot steps 2).

(** 77-89 [implementRotateAndReduceAccumulation] *)
Definition accumulate (v : node) (period steps : Z) (reduce : node -> node -> node) : node :=
  fold_left (fun acc s => reduce acc (rotate_by acc (s * period))) (shift_sizes steps) v.

(** 102-132, the rolled version; variables 0 (induction), 1 and 2. The
    conversion of log2(steps) to an integer is taken to be exact, which holds
    for steps below 2^48; [None]: log2 of a non-positive number. *)
Definition accumulate_rolled (v : node) (period steps : Z) (reduce : node -> node -> node)
  : option node :=
  if steps <=? 0 then None else
  let iterations := Z.log2 steps in
  if iterations <=? 0 then Some v else
  Some (ResultAt
    (ForLoop 0 [1%nat; 2%nat] [v; Const (Z.quot steps 2)] 0 iterations
       (Yield [reduce (Var 1) (Rotate (Var 1) (Mul (Var 2) (Const period)));
               FloorDiv (Var 2) 2]))
    0).

(** 221-224: number of baby steps, ceil(sqrt(steps)), exact for steps below
    2^52; number of giant steps *)
Definition baby_steps (steps : Z) : Z := Z.sqrt_up steps.
Definition giant_steps (steps : Z) : Z := Z.quot (steps + baby_steps steps - 1) (baby_steps steps).

(** 155-163 *)
Definition default_rotation (size j i period : Z) : Z := - size * j * period.

(** A sum that may still be empty (nullptr). *)
Definition add_opt (a : option node) (b : node) : option node :=
  match a with None => Some b | Some x => Some (Add x b) end.

(** Integers 0 .. n-1. *)
Definition upto (n : Z) : list Z := map Z.of_nat (seq 0 (Z.to_nat n)).

(** 203-275 [implementBabyStepGiantStep]. [extractf] is the extraction
    callback, [zero] the keys of zeroDiagonals, [rotf] the rotation callback,
    [slots] the length in the result type. [None]: division by zero (steps =
    0). For negative steps sqrt gives a NaN, which is not modelled. *)
Definition inner_sum (v b : node) (period steps size : Z) (extractf : node -> Z -> node)
    (zero : Z -> bool) (rotf : Z -> Z -> Z -> Z -> Z) (j : Z) : option node :=
  fold_left (fun acc i =>
      if steps <=? j * size + i then acc       (* break *)
      else if zero (i + j * size) then acc     (* continue *)
      else add_opt acc (Mul (rotate_by (extractf b (i + j * size)) (rotf size j i period))
                            (if i =? 0 then v else rotate_by v (period * i))))
    (upto size) None.
Definition bsgs (v b : node) (period steps : Z) (slots : nat) (extractf : node -> Z -> node)
    (zero : Z -> bool) (rotf : Z -> Z -> Z -> Z -> Z) : option node :=
  let size := baby_steps steps in
  if size =? 0 then None else
  let result :=
    fold_left (fun acc j =>
        match inner_sum v b period steps size extractf zero rotf j with
        | None => acc
        | Some s => add_opt acc (rotate_by s (period * j * size))
        end)
      (upto (giant_steps steps)) None in
  Some (match result with None => SplatZero slots | Some r => r end).

(** 284-417 [implementBabyStepGiantStepRolled] with the default callbacks.
    [diag] is the map zeroDiagonals as a list. Variables: 0, 1 precomputation
    loop; 2, 3, 4 outer loop; 5, 6 inner loop. *)
Definition diag_mask (diag : list (Z * bool)) (steps : Z) : list Z :=
  map (fun idx => if existsb (fun p => (fst p =? idx) && snd p) diag then 0 else 1) (upto steps).
Definition bsgs_rolled (v b : node) (period steps : Z) (slots : nat) (diag : list (Z * bool))
  : option node :=
  let size := baby_steps steps in
  if size =? 0 then None else
  let precompute :=
    ForLoop 0 [1%nat] [Empty (Z.to_nat size) slots] 0 size
      (Yield [Insert (Rotate v (Mul (Var 0) (Const period))) (Var 1) (Var 0)]) in
  let idx := Add (Var 5) (Mul (Var 2) (Const size)) in
  let rot := Mul (Mul (Mul (Var 2) (Const size)) (Const period)) (Const (-1)) in
  let in_bounds := Compare CmpLT idx (Const steps) in
  let multiply :=
    Yield [Add (Var 6) (Mul (Rotate (Extract b idx) rot) (Extract (Var 4) (Var 5)))] in
  let keep := Yield [Var 6] in
  let term :=
    match diag with
    | [] => IfElse in_bounds multiply keep
    | _ => IfElse in_bounds
             (Yield [ResultAt (IfElse (Compare CmpNE (Extract (ConstTensor (diag_mask diag steps)) idx)
                                         (Const 0)) multiply keep) 0])
             keep
    end in
  let inner :=
    ForLoop 5 [6%nat] [SplatZero slots] 0 size (Yield [ResultAt term 0]) in
  let outer :=
    ForLoop 2 [3%nat; 4%nat] [SplatZero slots; ResultAt precompute 0] 0 (giant_steps steps)
      (Yield [Add (Var 3) (Rotate (ResultAt inner 0)
                             (Mul (Mul (Var 2) (Const size)) (Const period)));
              Var 4]) in
  Some (ResultAt outer 0).

(** 444-507 [implementRotateAndReduce]; [mul] tells whether reduceOp is a
    multiplication. With plaintexts, only addition passes the assertion. *)
Definition rotate_and_reduce (vector : list R) (plaintexts : option (list (list R)))
    (period steps : Z) (diag : list (Z * bool)) (mul unroll : bool) : option node :=
  let v := Leaf (VVec vector) in
  let reduce := if mul then Mul else Add in
  match plaintexts with
  | None =>
      if unroll then Some (accumulate v period steps reduce)
      else accumulate_rolled v period steps reduce
  | Some p =>
      if mul then None
      else if unroll
      then bsgs v (Leaf (VMat p)) period steps (length vector) extract_at
             (fun k => existsb (fun d => fst d =? k) diag) default_rotation
      else bsgs_rolled v (Leaf (VMat p)) period steps (length vector) diag
  end.

(** 510-519 [implementDot] *)
Definition dot (lhs rhs : list R) (steps : Z) : node :=
  accumulate (Mul (Leaf (VVec lhs)) (Leaf (VVec rhs))) 1 steps Add.

(** 522-577 [implementBroadcastedReduce], unrolled *)
Fixpoint doublings (fuel : nat) (s steps : Z) : list Z :=
  match fuel with
  | O => []
  | S f => if s <? steps then s :: doublings f (s * 2) steps else []
  end.
Definition broadcasted_reduce (v : node) (mask : option node) (period steps slots : Z) (mul : bool)
  : node :=
  let reduce := if mul then Mul else Add in
  let reduced := accumulate v period steps reduce in
  if steps * period =? slots then reduced
  else
    let shifted := rotate_by reduced (slots - (steps - 1) * period) in
    let current := match mask with Some m => Mul shifted m | None => shifted end in
    fold_left (fun acc s => reduce acc (rotate_by acc (s * period))) (doublings 64 1 steps) current.

(** 613-670 [implementHaleviShoup]; log2 of a power of two is exact *)
Definition shift_loop (count : nat) (shift : Z) : list Z :=
  map (fun i => Z.quot shift (2 ^ Z.of_nat i)) (seq 0 count).
Definition halevi_shoup (vector : list R) (matrix : list (list R)) (rows cols : Z)
    (diag : list (Z * bool)) (unroll : bool) : option node :=
  base <- rotate_and_reduce vector (Some matrix) 1 (Z.of_nat (length matrix)) diag false unroll ;;
  let pr := next_power_of_two rows in
  let pc := next_power_of_two cols in
  if pr =? pc then Some base else
  let shifts := Z.log2 pc - Z.log2 pr in
  if unroll
  then Some (fold_left (fun acc s => Add acc (rotate_by acc s))
               (shift_loop (Z.to_nat shifts) (Z.quot pc 2)) base)
  else Some (ResultAt
    (ForLoop 7 [8%nat; 9%nat] [base; Const (Z.quot pc 2)] 0 shifts
       (Yield [Add (Var 8) (Rotate (Var 8) (Var 9)); FloorDiv (Var 9) 2])) 0).

(** 585-602 and 691-723 [implementBicyclicMatmul]: the rotation callback, with
    64-bit APInt arithmetic *)
Definition bicyclic_rotation (m n p : Z) (pinv : Z) (size j i period : Z) : Z :=
  let c := wrap 64 (j * size + i) in
  let inner := wrap 64 (wrap 64 (c * m) * pinv) mod n in
  let roty := wrap 64 (inner * p) mod wrap 64 (n * p) in
  let r := sgn 64 (wrap 64 (roty - wrap 64 (wrap 64 (period * size) * j))) in
  let r' := Z.rem r (sgn 64 (wrap 64 (n * p))) in
  if r' <? 0 then r' + n * p else r'.
Definition bicyclic_matmul (a b : list R) (m n p : Z) : option node :=
  pinv <- multiplicative_inverse 64 (p mod n) n ;;
  bsgs (Leaf (VVec a)) (Leaf (VVec b)) m n (length a) (fun b _ => b) (fun _ => false)
    (bicyclic_rotation m n p pinv).

(** 741-781 [implementTricyclicBatchMatmul] *)
Definition tricyclic_rotation (h m n p : Z) (pinv : Z) (size j i period : Z) : Z :=
  let modulus := wrap 64 (wrap 64 (h * n) * p) in
  let c := wrap 64 (j * size + i) in
  let inner := wrap 64 (wrap 64 (c * m) * pinv) mod n in
  let roty := wrap 64 (wrap 64 (inner * h) * p) mod modulus in
  let r := sgn 64 (wrap 64 (roty - wrap 64 (wrap 64 (period * size) * j))) in
  let r' := Z.rem r (sgn 64 modulus) in
  if r' <? 0 then r' + modulus else r'.
Definition tricyclic_matmul (a b : list R) (h m n p : Z) : option node :=
  pinv <- multiplicative_inverse 64 (p mod n) n ;;
  bsgs (Leaf (VVec a)) (Leaf (VVec b)) (h * m) n (length a) (fun b _ => b) (fun _ => false)
    (tricyclic_rotation h m n p pinv).

(** ConvertToCiphertextSemantics.cpp:161-177 [replicateValidPrefixOfResult]
    with lib/Utils/Layout/Utils.cpp:472-505: target slot t is filled from slot
    t mod period' of the kernel's result, for one ciphertext. [None]: the
    assertion on the period fails. *)
Definition replicate_prefix (out : list R) (period prefix : Z) : option (list R) :=
  let actual := if 0 <? prefix then Z.quot prefix period * period else 0 in
  if (0 <? actual) && (actual <=? Z.of_nat (length out))
  then Some (map (fun t => nth (Z.to_nat (Z.of_nat t mod actual)) out (r0 K)) (seq 0 (length out)))
  else None.

(** ConvertToCiphertextSemantics.cpp:2871-2931 (ct-ct), 2782-2863 (ct-pt) and
    2969-3030 (tricyclic), from the evaluated kernel on; the addition of the
    initial accumulator is left out. *)
Definition bicyclic_kernel (a b : list R) (m n p : Z) : option (list R) :=
  d <- bicyclic_matmul a b m n p ;; out <- run d ;;
  replicate_prefix out (m * p) (Z.of_nat (length out) - (n * p - 1 + m * (n - 1))).
Definition bicyclic_diagonal_kernel (ct : list R) (pt : list (list R)) (period steps size : Z)
  : option (list R) :=
  d <- rotate_and_reduce ct (Some pt) period steps [] false true ;; out <- run d ;;
  replicate_prefix out size (Z.of_nat (length out) - period * (steps - 1)).
Definition tricyclic_kernel (a b : list R) (h m n p : Z) : option (list R) :=
  d <- tricyclic_matmul a b h m n p ;; out <- run d ;;
  replicate_prefix out (h * m * p) (Z.of_nat (length out) - (h * n * p - 1 + h * m * (n - 1))).
End Dag.
