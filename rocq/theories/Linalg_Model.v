(** Model of the lowering of linalg.matvec, linalg.matmul, linalg.batch_matmul and linalg.dot on secrets:
    - lib/Transforms/LayoutPropagation/LayoutPropagation.cpp chooses the layouts of the operands and the kernel,
    - lib/Transforms/ConvertToCiphertextSemantics/ConvertToCiphertextSemantics.cpp replaces the operation by the kernel.
    A value with a layout is a list of ciphertexts, each a list of slots; slots hold elements of a commutative ring.
    Conversions of layouts (convert_layout, assign_layout) are taken as done: the model says which layout an operand has when
    the kernel reads it.  materializeKernel emits the operations of the arithmetic DAG; its meaning is [run]. *)
From Coq Require Import ZArith List Bool.
From Verif Require Import Words NumTheory_Model Rel_Model Points_Model Kernel_Model.
Import ListNotations.
Open Scope Z_scope.

(** * Layouts *)
Section Propagation.
(** isRelationEqual (lib/Utils/Layout/Utils.cpp), decided by LLVM and isl *)
Variable same : rel -> rel -> bool.

(** the layout of an operand when an operation is visited: 398-445 with assignDefaultLayoutForOpOperand 373-396 and
    defaultLayoutForType 2234-2263; an operand that has no layout yet gets the row-major one *)
Definition operand_layout (assigned : option rel) (shape : list Z) (slots : Z) : rel :=
  match assigned with Some r => r | None => row_major shape slots end.

(** isRelationBicyclic, Utils.cpp 638-651, and isRelationTricyclic, 653-670; the layout is built after the checks *)
Definition is_bicyclic (shape : list Z) (slots : Z) (r : rel) : bool :=
  if negb (length shape =? 2)%nat then false else
  if (u32 (dim shape 0) =? 1) || (u32 (dim shape 1) =? 1) then false else
  match bicyclic shape slots with Some b => same r b | None => false end.
Definition is_tricyclic (shape : list Z) (slots : Z) (r : rel) : bool :=
  if negb (length shape =? 3)%nat then false else
  let h := dim shape 0 in let m := dim shape 1 in let n := dim shape 2 in
  if (h =? 1) || (m =? 1) || (n =? 1) then false else
  if negb (Z.gcd h m =? 1) || negb (Z.gcd m n =? 1) || negb (Z.gcd h n =? 1) then false else
  match tricyclic shape slots with Some b => same r b | None => false end.
(** convertToLayout, 123-141: the operand has the new layout *)
Definition converted (keep : bool) (old new : rel) : rel := if keep then old else new.

(** visitOperation(MatvecOp), 721-786: layouts of the matrix, the vector and the result.  None: a failed assertion *)
Definition propagate_matvec (matrix vector : rel) (shape : list Z) (slots : Z) : option (rel * rel * rel) :=
  match diagonal shape slots with
  | None => None
  | Some d =>
    let v := row_major [dim shape 1] slots in
    Some (converted (same matrix d) matrix d, converted (same vector v) vector v, row_major [dim shape 0] slots)
  end.

Inductive matmul_kernel := MatmulBicyclic | MatmulBicyclicDiagonal | MatmulDiagonal.
(** visitOperation(MatmulOp), 1357-1522: the kernel and the layouts of the operands and the result.  The layout of the init
    operand is left as it is *)
Definition propagate_matmul (lhs_secret rhs_secret : bool) (lhs rhs : rel) (sl sr : list Z) (slots : Z)
  : option (matmul_kernel * rel * rel * rel) :=
  let m := dim sl 0 in let n := dim sl 1 in let p := dim sr 1 in
  let lhs_coprime := Z.gcd m n =? 1 in
  let rhs_coprime := Z.gcd n p =? 1 in
  let output_coprime := Z.gcd m p =? 1 in
  if lhs_secret && rhs_secret && lhs_coprime && rhs_coprime && output_coprime then
    match bicyclic sl slots, bicyclic sr slots, bicyclic [m; p] slots with
    | Some l, Some r, Some o =>
      Some (MatmulBicyclic, converted (is_bicyclic sl slots lhs) lhs l, converted (is_bicyclic sr slots rhs) rhs r, o)
    | _, _, _ => None
    end
  else if output_coprime && ((lhs_secret && negb rhs_secret && lhs_coprime) || (negb lhs_secret && rhs_secret && rhs_coprime)) then
    match bicyclic [m; p] slots with
    | None => None
    | Some o =>
      if lhs_secret then
        match bicyclic sl slots with
        | Some l => Some (MatmulBicyclicDiagonal, converted (is_bicyclic sl slots lhs) lhs l, bicyclic_diagonal sr true m slots, o)
        | None => None
        end
      else
        match bicyclic sr slots with
        | Some r => Some (MatmulBicyclicDiagonal, bicyclic_diagonal sl false p slots, converted (is_bicyclic sr slots rhs) rhs r, o)
        | None => None
        end
    end
  else
    (* the comparison of the second operand swaps its dimensions, the conversion does not, 1486-1503 *)
    match per_row sl slots, diagonal [p; dim sr 0] slots, per_row [m; p] slots with
    | Some l, Some d, Some o =>
      Some (MatmulDiagonal, converted (same lhs l) lhs l,
            converted (same (Rel (nd rhs) (nr rhs) (nl rhs)
                               (map (fun e => nth 1 e 0 :: nth 0 e 0 :: skipn 2 e) (eqs rhs))
                               (map (fun e => nth 1 e 0 :: nth 0 e 0 :: skipn 2 e) (ineqs rhs))) d) rhs d, o)
    | _, _, _ => None
    end.

(** the default of rectifyIncompatibleOperandLayouts, 2042-2075, which also applies to batch_matmul: every operand gets the
    layout of the first one *)
Definition rectified (layouts : list rel) : list rel :=
  match layouts with [] => [] | l :: _ => map (fun _ => l) layouts end.
(** visitOperation(BatchMatmulOp), 1274-1355, on two secrets; None: the operation is not supported *)
Definition propagate_batch (lhs rhs : rel) (sl sr : list Z) (slots : Z) : option (rel * rel * rel) :=
  let h := dim sl 0 in let m := dim sl 1 in let n := dim sl 2 in let p := dim sr 2 in
  let coprime a b := Z.gcd a b =? 1 in
  if (h =? dim sr 0) && (coprime h m && coprime h n && coprime m n) && (coprime (dim sr 0) n && coprime (dim sr 0) p && coprime n p)
     && (coprime h m && coprime h p && coprime m p)
  then
    match tricyclic sl slots, tricyclic sr slots, tricyclic [h; m; p] slots with
    | Some l, Some r, Some o => Some (converted (is_tricyclic sl slots lhs) lhs l, converted (is_tricyclic sr slots rhs) rhs r, o)
    | _, _, _ => None
    end
  else None.
End Propagation.

(** * Kernels *)
Section Lowering.
Variable K : cring.
Notation ciphertexts := (list (list (car K))).

(** makeAppropriatelyTypedAddOp on tensors of one ciphertext, in addBiasAndReplace, 687-697; None: types disagree *)
Definition add_init (out : list K) (init : ciphertexts) : option (list K) :=
  match init with [a] => map2 K (radd K) out a | _ => None end.

(** ConvertLinalgMatvecLayout::haleviShoupKernel, 850-894, for the layout [r] of the matrix.
    [lower], [upper], [image]: the external calls of getCtComplementPoints.  None: more than one ciphertext for the vector or
    the accumulator, or a failing kernel *)
Definition lower_matvec (r : rel) (lower upper : nat -> option Z) (image : list Z -> list (list Z)) (shape : list Z)
    (matrix vector init : ciphertexts) (unroll : bool) : option ciphertexts :=
  match vector, complement r lower upper image (Z.of_nat (length matrix)) with
  | [v], Some zeros =>
    d <- halevi_shoup K v matrix (dim shape 0) (dim shape 1) (map (fun c => (c, true)) zeros) unroll ;;
    out <- run K d ;;
    out <- add_init out init ;;
    Some [out]
  | _, _ => None
  end.

(** ConvertLinalgMatmul::bicyclicKernel, 2871-2931 *)
Definition lower_bicyclic (sl sr : list Z) (lhs rhs init : ciphertexts) : option ciphertexts :=
  let m := dim sl 0 in let n := dim sl 1 in let p := dim sr 1 in
  match lhs, rhs with
  | [a], [b] =>
    d <- bicyclic_matmul K a b m n p ;;
    out <- run K d ;;
    out <- add_init out init ;;
    out <- replicate_prefix K out (m * p) (Z.of_nat (length out) - (n * p - 1 + m * (n - 1))) ;;
    Some [out]
  | _, _ => None
  end.
(** bicyclicDiagonalKernel, 2782-2863.  [argument]: the left operand is a block argument of the secret.generic that stands for
    a secret, which is how the code decides which operand is the ciphertext, 2793-2804 *)
Definition lower_bicyclic_diagonal (argument : bool) (sl sr : list Z) (lhs rhs init : ciphertexts) : option ciphertexts :=
  let period := if argument then dim sl 0 else dim sr 1 in
  let steps := if argument then dim sl 1 else dim sr 0 in
  match (if argument then lhs else rhs) with
  | [ct] =>
    d <- rotate_and_reduce K ct (Some (if argument then rhs else lhs)) period steps [] false true ;;
    out <- run K d ;;
    out <- add_init out init ;;
    out <- replicate_prefix K out (dim sl 0 * dim sr 1) (Z.of_nat (length out) - period * (steps - 1)) ;;
    Some [out]
  | _ => None
  end.
(** ConvertLinalgMatmul::matchAndRewrite, 2933-2945: no pattern for MatmulDiagonal *)
Definition lower_matmul (k : matmul_kernel) (argument : bool) (sl sr : list Z) (lhs rhs init : ciphertexts) : option ciphertexts :=
  match k with
  | MatmulBicyclicDiagonal => lower_bicyclic_diagonal argument sl sr lhs rhs init
  | MatmulBicyclic => lower_bicyclic sl sr lhs rhs init
  | MatmulDiagonal => None
  end.
(** ConvertLinalgBatchMatmul::tricyclicKernel, 2969-3030 *)
Definition lower_batch (sl sr : list Z) (lhs rhs init : ciphertexts) : option ciphertexts :=
  let h := dim sl 0 in let m := dim sl 1 in let n := dim sl 2 in let p := dim sr 2 in
  match lhs, rhs with
  | [a], [b] =>
    d <- tricyclic_matmul K a b h m n p ;;
    out <- run K d ;;
    out <- add_init out init ;;
    out <- replicate_prefix K out (h * m * p) (Z.of_nat (length out) - (h * n * p - 1 + h * m * (n - 1))) ;;
    Some [out]
  | _, _ => None
  end.
(** ConvertLinalgDot, 779-828: the number of steps is the length of the vectors *)
Definition lower_dot (shape : list Z) (lhs rhs init : ciphertexts) : option ciphertexts :=
  match lhs, rhs with
  | [a], [b] =>
    out <- run K (Kernel_Model.dot K a b (dim shape 0)) ;;
    out <- add_init out init ;;
    Some [out]
  | _, _ => None
  end.
End Lowering.

(** defaultLayoutForScalarType, LayoutPropagation.cpp 2218-2232: a scalar is in every slot of one ciphertext *)
Definition scalar_layout (slots : Z) : rel :=
  let r := space 0 2 0 in
  add_bounds (add_eq r (row 3 [(0%nat, 1)])) 1 0 (Some (slots - 1)).
