(** Model of
    lib/Transforms/ConvertIfToSelect/ConvertIfToSelect.cpp,
    lib/Transforms/SelectRewrite/SelectRewrite.{td,cpp} and
    lib/Transforms/CompareToSignRewrite/CompareToSignRewrite.cpp. *)

From Coq Require Import ZArith List Bool Lia QArith Qround Reals.
From Flocq Require Import Core IEEE754.BinarySingleNaN.
From Verif Require Import Words.
Import ListNotations.
Open Scope Z_scope.

(** * Straight-line code in SSA form *)

(** A value: a machine word, or poison. *)
Definition val := option Z.

(** One operation with a single result. [o_pure] is the answer of MLIR's
    isPure: no memory effects and safe to speculate, hence a total function of
    its operands (which may still return poison). *)
Record op := {
  o_dst : nat;
  o_args : list nat;
  o_fn : list val -> val;
  o_pure : bool
}.

Definition env := nat -> val.

Definition set_env (e : env) (x : nat) (v : val) : env :=
  fun y => if Nat.eqb y x then v else e y.

Definition run_op (e : env) (o : op) : env :=
  set_env e (o_dst o) (o_fn o (map e (o_args o))).

Definition run_ops (ops : list op) (e : env) : env := fold_left run_op ops e.

(** scf.if with results. *)
Record if_op := {
  i_cond : nat;
  i_then : list op;
  i_then_yield : list nat;
  i_else : list op;
  i_else_yield : list nat
}.

(** ConvertIfToSelect.cpp 39-91: hoist the operations of both regions in front
    of the scf.if (then first), and build one arith.select per result from the
    zipped yield operands. [None]: an operation is not pure (lines 54-67). The
    condition is secret or unknown. If there is no result the code leaves the
    emptied scf.if in place, which has no effect. *)
Definition convert_if (i : if_op) : option (list op * list (nat * nat)) :=
  if forallb o_pure (i_then i ++ i_else i)
  then Some (i_then i ++ i_else i, combine (i_then_yield i) (i_else_yield i))
  else None.

(** arith.select: poison in the operand that is not selected is ignored. *)
Definition select (c t f : val) : val :=
  match c with
  | Some b => if Z.eqb b 1 then t else f
  | None => None
  end.

(** * select to arithmetic on words *)

Definition lift2 (g : Z -> Z -> Z) (a b : val) : val :=
  match a, b with
  | Some x, Some y => Some (g x y)
  | _, _ => None
  end.

(** SelectRewrite.td, SelectRewritePatternInt: on i1 [not_cond = 1 - cond],
    both conditions zero-extended to w bits, then
    cond * t + not_cond * f modulo 2^w. For w = 1 the emitted arith.extui
    would be i1 to i1, which is invalid; w > 1 is assumed. Shaped selects are
    elementwise, and a scalar condition is broadcast by matchShapedType. *)
Definition select_int (w : Z) (c t f : val) : val :=
  let not_cond := lift2 (fun one x => wrap 1 (one - x)) (Some 1) c in
  let mul := lift2 (fun x y => wrap w (x * y)) in
  lift2 (fun x y => wrap w (x + y)) (mul c t) (mul not_cond f).

(** * select to arithmetic on floats *)

(** SelectRewritePatternFloat: the same in a floating-point format; uitofp
    maps 0 and 1 to the floats 0 and 1. *)
Section Floats.
Variables prec emax : Z.
Context (Hp : Prec_gt_0 prec) (He : Prec_lt_emax prec emax).

Definition fp := binary_float prec emax.

Definition uitofp (b : bool) : fp :=
  if b then Bone else B754_zero false.

Definition select_float (c : bool) (t f : fp) : fp :=
  Bplus mode_NE (Bmult mode_NE (uitofp c) t) (Bmult mode_NE (uitofp (negb c)) f).
End Floats.
Arguments fp : clear implicits.
Arguments uitofp {prec emax Hp He}.
Arguments select_float {prec emax Hp He}.

(** * Comparisons to sign *)

Inductive predicate := Plt | Pgt | Pother.

(** The sign of an exact number: -1, 0 or 1. *)
Definition q_sign (x : Q) : Q :=
  match Qcompare x 0 with Lt => (-1)%Q | Eq => 0%Q | Gt => 1%Q end.

(** math_ext.sign on a float, as an exact number; [None] for NaN. *)
Definition fp_sign {prec emax} (x : fp prec emax) : option Q :=
  match x with
  | B754_zero _ => Some 0%Q
  | B754_infinity s => Some (if s then (-1)%Q else 1%Q)
  | B754_finite s _ _ _ => Some (if s then (-1)%Q else 1%Q)
  | B754_nan => None
  end.

(** arith.fptosi to a w-bit integer: truncation, poison when the value does
    not fit in a signed w-bit integer. The result is given as the unsigned
    value of the bits. *)
Definition q_trunc (x : Q) : Z := Z.quot (Qnum x) (Zpos (Qden x)).
Definition fptosi (w : Z) (x : Q) : val :=
  let z := q_trunc x in
  if Z.leb (- 2 ^ (w - 1)) z && Z.ltb z (2 ^ (w - 1)) then Some (z mod 2 ^ w) else None.

(** The common tail 0.5 * (sign + 1) converted to i1, lines 49-60 and 109-120.
    The only values are 0, 0.5 and 1, which every float format represents
    exactly, so the arithmetic is done on exact numbers. *)
Definition sign_tail (sign : Q) : val := fptosi 1 ((sign + 1) * (1 # 2))%Q.

(** CmpFOpRewritePattern, lines 32-64; the ordered and the unordered variant
    of each predicate are treated alike. [None]: the pattern does not apply. *)
Definition cmpf_to_sign {prec emax} {Hp : Prec_gt_0 prec} {He : Prec_lt_emax prec emax}
    (p : predicate) (a b : fp prec emax) : option val :=
  let result sub :=
    match fp_sign sub with Some sign => sign_tail sign | None => None end in
  match p with
  | Plt => Some (result (Bminus mode_NE a b))
  | Pgt => Some (result (Bminus mode_NE b a))
  | Pother => None
  end.

(** CmpIOpRewritePattern, lines 78-124, on 64-bit integers or narrower. The
    conversion to f32 is taken to be exact, so this is only faithful for
    operands below 2^24 in magnitude. [CmpInull]: the predicate passes the
    filter of lines 84-88 but no subtraction is built (lines 102-107), so
    math_ext.sign is created on a null value. *)
Inductive ipredicate := Islt | Iult | Isgt | Iugt | Iuge | Iother.
Inductive cmpi_result := CmpInomatch | CmpInull | CmpIvalue (v : val).

Definition cmpi_to_sign (p : ipredicate) (a b : Z) : cmpi_result :=
  let fa := inject_Z a in
  let fb := inject_Z b in
  let result sub := CmpIvalue (sign_tail (q_sign sub)) in
  match p with
  | Islt | Iult => result (fa - fb)%Q
  | Isgt => result (fb - fa)%Q
  | Iugt => CmpInull
  | Iuge | Iother => CmpInomatch
  end.
