(** Model of the rewrite patterns for tensor_ext.rotate.

    Source: lib/Dialect/TensorExt/IR/TensorExtCanonicalization.td,
    lib/Dialect/TensorExt/IR/TensorExtOps.cpp,
    lib/Dialect/TensorExt/Transforms/InsertRotate.td. A pattern is a function
    on the matched expression. Conditions on the number of uses do not affect
    values and are left out. Fast-math and overflow flags are carried along by
    the patterns and are not represented. *)
From Coq Require Import ZArith List Bool.
From Verif Require Import Words Rotate_Spec.
Import ListNotations.
Open Scope Z_scope.

Section Patterns.
Variable E : Type.
Notation texp := (texp E).
Notation xexp := (xexp E).
Variable ttyp : nat -> ttype.
Notation typeof := (typeof E ttyp).

Fixpoint sexp_eqb (a b : sexp) : bool :=
  match a, b with
  | SVar x, SVar y => Nat.eqb x y
  | SConst t v, SConst u w => sty_eqb t u && (v =? w)
  | SAdd a b, SAdd c d | SSub a b, SSub c d | SRemU a b, SRemU c d => sexp_eqb a c && sexp_eqb b d
  | SCast t a, SCast u b => sty_eqb t u && sexp_eqb a b
  | _, _ => false
  end.

(** TensorExtOps.cpp:40-49 [rotateAttrValues]: i and shift are signed, the
    size is a size_t, so the sum and the remainder are unsigned 64-bit *)
Definition rotate_attr_values (elts : list E) (shift : Z) : list E :=
  match elts with
  | [] => []
  | d :: _ =>
      let size := Z.of_nat (length elts) in
      map (fun i => nth (Z.to_nat (wrap 64 (Z.of_nat i + shift + size) mod size)) elts d) (seq 0 (length elts))
  end.
(** getValues expands splats *)
Definition elements (ty : ttype) (d : data E) : list E :=
  match d with Splat e => repeat e (rows_of (fst ty) * Z.to_nat (snd ty)) | Dense l => l end.
(** TensorExtOps.cpp:52-104 [FoldRotateOfConst] *)
Definition fold_rotate_of_const (t : texp) : option texp :=
  match t with
  | TRot (TConst ty d) (SConst st v) => Some (TConst ty (Dense (rotate_attr_values (elements ty d) (sgn (width st) v))))
  | _ => None
  end.
(** TensorExtCanonicalization.td:32-37 *)
Definition rotate_dense_constant (t : texp) : option texp :=
  match t with TRot (TConst ty (Splat e)) _ => Some (TConst ty (Splat e)) | _ => None end.
(** 39-44 *)
Definition drop_zero_rotation (t : texp) : option texp :=
  match t with TRot a (SConst _ v) => if v =? 0 then Some a else None | _ => None end.
(** 10-22 and 46-63 *)
Definition normalize_rotation_index (t : texp) : option texp :=
  match t with
  | TRot a (SConst st v) =>
      match typeof a with
      | Some ([], n) =>
          if (sgn (width st) v <? 0) || (sgn (width st) v >? n)
          then Some (TRot a (SRemU (SConst st v) (SCast st (SConst Index n)))) else None
      | _ => None
      end
  | _ => None
  end.
(** 65-74 *)
Definition combine_sequential_rotates (t : texp) : option texp :=
  match t with
  | TRot (TRot a (SConst t1 x)) (SConst t2 y) => Some (TRot a (SAdd (SConst t1 x) (SConst t2 y)))
  | _ => None
  end.
(** 76-85 *)
Definition rotate_plus_extract (x : xexp) : option xexp :=
  match x with XExtract (TRot t s) i => Some (XExtract t (SAdd s i)) | _ => None end.
(** 92-99 and 183-190; the same value is required twice *)
Definition factor_parallel_rotations (t : texp) : option texp :=
  match t with
  | TOp o (TRot a i) (TRot b j) => if sexp_eqb i j then Some (TRot (TOp o a b) i) else None
  | _ => None
  end.
(** 109-122 and 192-204 *)
Definition merge_rotations_sandwiching (t : texp) : option texp :=
  match t with
  | TRot (TOp o (TRot a s1) (TRot b s2)) s3 => Some (TOp o (TRot a (SAdd s3 s1)) (TRot b (SAdd s3 s2)))
  | _ => None
  end.
(** 134-164 and 206-218 *)
Definition merge_earlier_lhs (t : texp) : option texp :=
  match t with
  | TRot (TOp o (TRot a s1) b) s2 => Some (TOp o (TRot a (SAdd s2 s1)) (TRot b s2))
  | _ => None
  end.
(** 165-178 and 220-232 *)
Definition merge_earlier_rhs (t : texp) : option texp :=
  match t with
  | TRot (TOp o a (TRot b s1)) s2 => Some (TOp o (TRot a s2) (TRot b (SAdd s2 s1)))
  | _ => None
  end.

(** InsertRotate.td:30-47 and 85-101 with the target slot [c] (13-19) *)
Definition insert_rotations_two (c : Z) (x : xexp) : option xexp :=
  match x with
  | XOp o (XExtract t1 i1) (XExtract t2 i2) =>
      let slot := SConst Index (wrap 64 c) in
      Some (XExtract (TOp o (TRot t1 (SSub i1 slot)) (TRot t2 (SSub i2 slot))) slot)
  | _ => None
  end.
(** 52-65 and 103-116; tensor.splat has the type of t1 *)
Definition insert_rotations_splat_rhs (c : Z) (x : xexp) : option xexp :=
  match x with
  | XOp o (XExtract t1 i1) (XConst e) =>
      ty <- typeof t1 ;;
      let slot := SConst Index (wrap 64 c) in
      Some (XExtract (TOp o (TRot t1 (SSub i1 slot)) (TConst ty (Splat e))) slot)
  | _ => None
  end.
(** 67-80 and 118-131 *)
Definition insert_rotations_splat_lhs (c : Z) (x : xexp) : option xexp :=
  match x with
  | XOp o (XConst e) (XExtract t1 i1) =>
      ty <- typeof t1 ;;
      let slot := SConst Index (wrap 64 c) in
      Some (XExtract (TOp o (TConst ty (Splat e)) (TRot t1 (SSub i1 slot))) slot)
  | _ => None
  end.
(** 146-161 and 180-190, 210-240 *)
Definition align_left (t : texp) : option texp :=
  match t with
  | TOp outer (TOp inner (TRot t1 i1) (TRot t2 i2)) (TRot t3 i3) =>
      Some (TRot (TOp outer (TOp inner (TRot t1 (SSub i1 i3)) (TRot t2 (SSub i2 i3))) t3) i3)
  | _ => None
  end.
(** 163-177 and the corresponding float versions *)
Definition align_right (t : texp) : option texp :=
  match t with
  | TOp outer (TRot t3 i3) (TOp inner (TRot t1 i1) (TRot t2 i2)) =>
      Some (TRot (TOp outer t3 (TOp inner (TRot t1 (SSub i1 i3)) (TRot t2 (SSub i2 i3)))) i3)
  | _ => None
  end.

(** Rewriting anywhere in a tensor expression, with the tensor patterns of
    canonicalisation and of alignment. *)
Inductive tstep : texp -> texp -> Prop :=
| t_fold t t' : fold_rotate_of_const t = Some t' -> tstep t t'
| t_dense t t' : rotate_dense_constant t = Some t' -> tstep t t'
| t_zero t t' : drop_zero_rotation t = Some t' -> tstep t t'
| t_normal t t' : normalize_rotation_index t = Some t' -> tstep t t'
| t_combine t t' : combine_sequential_rotates t = Some t' -> tstep t t'
| t_factor t t' : factor_parallel_rotations t = Some t' -> tstep t t'
| t_sandwich t t' : merge_rotations_sandwiching t = Some t' -> tstep t t'
| t_lhs t t' : merge_earlier_lhs t = Some t' -> tstep t t'
| t_rhs t t' : merge_earlier_rhs t = Some t' -> tstep t t'
| t_align_l t t' : align_left t = Some t' -> tstep t t'
| t_align_r t t' : align_right t = Some t' -> tstep t t'
| t_rot t t' s : tstep t t' -> tstep (TRot t s) (TRot t' s)
| t_op_l o a a' b : tstep a a' -> tstep (TOp o a b) (TOp o a' b)
| t_op_r o a b b' : tstep b b' -> tstep (TOp o a b) (TOp o a b').
Inductive tsteps : texp -> texp -> Prop :=
| ts_refl t : tsteps t t
| ts_step t t' t'' : tstep t t' -> tsteps t' t'' -> tsteps t t''.

(** Rewriting anywhere in a scalar expression: the above inside extractions,
    and the insertion of rotations with any target slot in [slots]. *)
Variable slots : Z -> Prop.
Inductive xstep : xexp -> xexp -> Prop :=
| x_two c x x' : slots c -> insert_rotations_two c x = Some x' -> xstep x x'
| x_rhs c x x' : slots c -> insert_rotations_splat_rhs c x = Some x' -> xstep x x'
| x_lhs c x x' : slots c -> insert_rotations_splat_lhs c x = Some x' -> xstep x x'
| x_in t t' i : tstep t t' -> xstep (XExtract t i) (XExtract t' i)
| x_op_l o a a' b : xstep a a' -> xstep (XOp o a b) (XOp o a' b)
| x_op_r o a b b' : xstep b b' -> xstep (XOp o a b) (XOp o a b').
Inductive xsteps : xexp -> xexp -> Prop :=
| xs_refl x : xsteps x x
| xs_step x x' x'' : xstep x x' -> xsteps x' x'' -> xsteps x x''.
End Patterns.
