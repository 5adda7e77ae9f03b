(** Convolutions and sum poolings as linalg defines them, with strides and dilations and an initial value that the sums
    are added to, and the operations that may use the result of a pooling. All over a commutative ring. *)
From Coq Require Import List Bool ZArith.
From Verif Require Import Kernel_Model Conv_Spec.
Import ListNotations.
Local Open Scope Z_scope.

Section Pool.
  Variable K : cring.
  Notation "x +r y" := (radd K x y) (at level 50, left associativity).
  Notation "x *r y" := (rmul K x y) (at level 40, left associativity).

  (** linalg.conv_1d_ncw_fcw and linalg.pooling_ncw_sum, one element of the batch. *)
  Definition conv1 (C kw s d : Z) (w : Z -> Z -> Z -> K) (x init : Z -> Z -> K) (f o : Z) : K :=
    init f o +r ksum K (upto C) (fun c => ksum K (upto kw) (fun i => x c (o * s + i * d) *r w f c i)).
  Definition pool1 (pw s d : Z) (x init : Z -> Z -> K) (c o : Z) : K :=
    init c o +r ksum K (upto pw) (fun i => x c (o * s + i * d)).

  (** linalg.conv_2d_nchw_fchw and linalg.pooling_nchw_sum, one element of the batch. *)
  Definition tensor3 := Z -> Z -> Z -> K.
  Definition conv2 (C kh kw sh sw dh dw : Z) (w : Z -> Z -> Z -> Z -> K) (x init : tensor3) (f oh ow : Z) : K :=
    init f oh ow +r
    ksum K (upto C) (fun c => ksum K (upto kh) (fun i => ksum K (upto kw) (fun j =>
      x c (oh * sh + i * dh) (ow * sw + j * dw) *r w f c i j))).
  Definition pool2 (ph pw sh sw dh dw : Z) (x init : tensor3) (c oh ow : Z) : K :=
    init c oh ow +r ksum K (upto ph) (fun i => ksum K (upto pw) (fun j => x c (oh * sh + i * dh) (ow * sw + j * dw))).

  (** The elements of a constant of shape F x C x kw, or F x C x kh x kw, are stored in row-major order. *)
  Definition entry3 (C kw : Z) (l : list K) (f c i : Z) : K := nth (Z.to_nat ((f * C + c) * kw + i)) l (r0 K).
  Definition entry4 (C kh kw : Z) (l : list K) (f c i j : Z) : K :=
    nth (Z.to_nat (((f * C + c) * kh + i) * kw + j)) l (r0 K).

  (** What may use the result of a pooling: arith.mulf and arith.divf of tensors, and a linalg.generic with one input and
      one output whose body is one of these operations and the yield. *)
  Variable divide : K -> K -> K.
  Inductive operand := Pooled | Splat (c : K) | Other (t : tensor3).
  Inductive ref := Arg0 | Arg1 | First | Cst (c : K).
  Inductive use :=
  | Arith (division : bool) (a b : operand)
  | Generic (ins outs : operand) (read : Z * Z * Z -> Z * Z * Z) (division : bool) (a b yielded : ref)
  | Unrelated.

  Definition value_of (p : tensor3) (o : operand) : tensor3 :=
    match o with Pooled => p | Splat c => fun _ _ _ => c | Other t => t end.
  Definition operate (division : bool) (a b : K) : K := if division then divide a b else a *r b.
  Definition ref_value (arg0 arg1 first : K) (r : ref) : K :=
    match r with Arg0 => arg0 | Arg1 => arg1 | First => first | Cst c => c end.
  (** The result of the use when the pooling gave p. *)
  Definition use_value (u : use) (p : tensor3) : tensor3 := fun f oh ow =>
    match u with
    | Arith division a b => operate division (value_of p a f oh ow) (value_of p b f oh ow)
    | Generic ins outs read division a b yielded =>
        let '(f', oh', ow') := read (f, oh, ow) in
        let arg0 := value_of p ins f' oh' ow' in
        let arg1 := value_of p outs f oh ow in
        let first := operate division (ref_value arg0 arg1 (r0 K) a) (ref_value arg0 arg1 (r0 K) b) in
        ref_value arg0 arg1 first yielded
    | Unrelated => p f oh ow
    end.
End Pool.
Arguments Pooled {K}.
Arguments Splat {K} c.
Arguments Other {K} t.
Arguments Arg0 {K}.
Arguments Arg1 {K}.
Arguments First {K}.
Arguments Cst {K} c.
Arguments Arith {K} division a b.
Arguments Generic {K} ins outs read division a b yielded.
Arguments Unrelated {K}.
