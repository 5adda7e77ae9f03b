(** Model of the passes that replace secret-dependent loops and tensor
    accesses by static ones:
    lib/Transforms/ConvertSecretForToStaticFor/ConvertSecretForToStaticFor.cpp,
    lib/Transforms/ConvertSecretWhileToStaticFor/ConvertSecretWhileToStaticFor.cpp,
    lib/Transforms/ConvertSecretExtractToStaticExtract/ConvertSecretExtractToStaticExtract.cpp,
    lib/Transforms/ConvertSecretInsertToStaticInsert/ConvertSecretInsertToStaticInsert.cpp.

    A loop body is an arbitrary function on the state, which stands for the
    loop-carried values together with anything the body may read or write
    through memory. Index values are mathematical integers: the increment of
    the induction variable is assumed not to overflow the index type, as MLIR
    itself assumes for scf.for and affine.for. *)

From Coq Require Import ZArith List Bool Lia.
Import ListNotations.
Open Scope Z_scope.

(** * for loops *)

(** An scf.for with a constant step (ConvertSecretForToStaticFor.cpp 40-61).
    [lower_secret]/[upper_secret] are the answers of the secretness analysis,
    [attr_lower]/[attr_upper] the optional "lower"/"upper" attributes. Loops
    whose induction variable is not of index type are not modelled: the code
    gives the cloned body an index value in place of the integer (lines 183-188),
    which is ill-typed. *)
Record for_op (S : Type) := {
  f_lower : Z;
  f_upper : Z;
  f_step : Z;
  f_body : Z -> S -> S;
  f_lower_secret : bool;
  f_upper_secret : bool;
  f_attr_lower : option Z;
  f_attr_upper : option Z
}.
Arguments f_lower {S}. Arguments f_upper {S}. Arguments f_step {S}.
Arguments f_body {S}. Arguments f_lower_secret {S}.
Arguments f_upper_secret {S}. Arguments f_attr_lower {S}.
Arguments f_attr_upper {S}.

(** The affine.for that is built. *)
Record affine_for (S : Type) := {
  a_lower : Z;
  a_upper : Z;
  a_step : Z;
  a_body : Z -> S -> S
}.
Arguments a_lower {S}. Arguments a_upper {S}. Arguments a_step {S}.
Arguments a_body {S}.

(** Lines 87-114: the bound of the new loop; [None] is the emitted error for
    a missing attribute. *)
Definition static_bound (secret : bool) (attr : option Z) (bound : Z) : option Z :=
  if secret then attr else Some bound.

(** Lines 153-178: the guard. *)
Definition for_guard {S} (f : for_op S) (iv : Z) : bool :=
  let ge := Z.leb (f_lower f) iv in
  let lt := Z.ltb iv (f_upper f) in
  if f_lower_secret f
  then if f_upper_secret f then andb ge lt else ge
  else lt.

(** matchAndRewrite, lines 40-205. *)
Definition convert_for {S} (convert_all : bool) (f : for_op S) : option (affine_for S) :=
  let ls := f_lower_secret f in
  let us := f_upper_secret f in
  if negb convert_all && negb ls && negb us then None
  else
    match static_bound ls (f_attr_lower f) (f_lower f),
          static_bound us (f_attr_upper f) (f_upper f) with
    | Some l, Some u =>
        Some {| a_lower := l;
                a_upper := u;
                a_step := f_step f;
                a_body :=
                  if negb ls && negb us then f_body f
                  else fun iv s => if for_guard f iv then f_body f iv s else s |}
    | _, _ => None
    end.

(** * while loops *)

(** Where a value forwarded by scf.condition comes from: an argument of the
    before region, an argument of another enclosing block (whose value is
    fixed while the loop runs), or the result of an operation in the before
    region. *)
Inductive fwd_src (V : Type) :=
  | FwdArg (k : nat)
  | FwdOuterArg (v : V)
  | FwdResult (f : list V -> V).
Arguments FwdArg {V}. Arguments FwdOuterArg {V}. Arguments FwdResult {V}.

Record while_op (V : Type) := {
  w_cond : list V -> bool;           (* before region, the i1 operand of scf.condition *)
  w_fwd : list (fwd_src V);          (* the other operands of scf.condition *)
  w_body : list V -> list V;         (* after region *)
  w_cond_secret : bool;
  w_max_iter : option Z              (* the max_iter attribute *)
}.
Arguments w_cond {V}. Arguments w_fwd {V}. Arguments w_body {V}.
Arguments w_cond_secret {V}. Arguments w_max_iter {V}.

(** ConvertSecretWhileToStaticFor.cpp 48-64: the test compares the defining
    operations of the forwarded value and of the block argument. Every block
    argument has the null defining operation, so the test accepts any block
    argument, not only the one at the same position. *)
Definition same_defining_op {V} (f : fwd_src V) : bool :=
  match f with
  | FwdArg _ => true
  | FwdOuterArg _ => true
  | FwdResult _ => false
  end.

(** C++ conversion of the 64-bit attribute value to int, line 98. *)
Definition to_int32 (z : Z) : Z := (z + 2147483648) mod 4294967296 - 2147483648.

(** The loop that is built, lines 100-147: trip count and the function applied
    to the loop-carried values in each iteration. The before region is pure. *)
Definition convert_while {V} (w : while_op V) : option (Z * (list V -> list V)) :=
  if forallb same_defining_op (w_fwd w) then
    if w_cond_secret w then
      match w_max_iter w with
      | Some m =>
          Some (to_int32 m, fun s => if w_cond w s then w_body w s else s)
      | None => None
      end
    else None
  else None.

(** An affine.for from 0 to [n] with step 1 whose body ignores the induction
    variable. *)
Definition static_loop {S} (n : Z) (body : S -> S) (s : S) : S :=
  Nat.iter (Z.to_nat n) body s.

(** * Tensor accesses at a secret index *)

(** tensor.insert; [None] is out of bounds. *)
Fixpoint insert_at {V} (t : list V) (i : nat) (v : V) : option (list V) :=
  match t, i with
  | [], _ => None
  | _ :: t', O => Some (v :: t')
  | x :: t', S i' =>
      match insert_at t' i' v with
      | Some r => Some (x :: r)
      | None => None
      end
  end.

(** ConvertSecretExtractToStaticExtract.cpp 73-135: start from element 0, then
    scan the tensor. The secret index is any value of the index type. *)
Definition scan_extract {V} (t : list V) (index : Z) : option V :=
  match nth_error t 0 with
  | None => None
  | Some init =>
      fold_left
        (fun acc i =>
           match acc, nth_error t i with
           | Some prev, Some cur =>
               Some (if Z.eqb (Z.of_nat i) index then cur else prev)
           | _, _ => None
           end)
        (seq 0 (length t)) (Some init)
  end.

(** ConvertSecretInsertToStaticInsert.cpp 73-129. *)
Definition scan_insert {V} (t : list V) (index : Z) (v : V) : option (list V) :=
  fold_left
    (fun acc i =>
       match acc with
       | None => None
       | Some prev =>
           match insert_at prev i v with
           | None => None
           | Some new => Some (if Z.eqb (Z.of_nat i) index then new else prev)
           end
       end)
    (seq 0 (length t)) (Some t).
