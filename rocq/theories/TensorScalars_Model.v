(** convert-tensor-to-scalars, lib/Transforms/TensorToScalars/TensorToScalars.cpp: tensors with at most [max] elements
    become lists of scalars.  Values are trees here; sharing of results does not matter for pure operations.  Loops and
    conditionals, whose types MLIR converts structurally, are not modelled. *)
From Coq Require Import List Bool ZArith Arith.
From Verif Require Import Bits_Spec TensorScalars_Spec.
Import ListNotations.

(** getAllIndices, TensorToScalars.cpp 40-60. *)
Definition add_dimension (d : nat) (old : list (list nat)) : list (list nat) :=
  flat_map (fun i => (match old with [] => [[i]] | _ => [] end) ++ map (fun res => res ++ [i]) old) (seq 0 d).
Fixpoint all_indices_from (shape : list nat) (old : list (list nat)) : list (list nat) :=
  match shape with [] => old | d :: shape => all_indices_from shape (add_dimension d old) end.
Definition all_indices (shape : list nat) : list (list nat) := all_indices_from shape [].

(** The loop for the offset in ConvertInsertOp, 138-151, and ConvertExtractOp, 177-192. *)
Fixpoint offset_loop (shape idx : list nat) (multiplier offset : nat) : nat :=
  match shape, idx with
  | d :: shape, i :: idx => offset_loop shape idx (multiplier * d) (offset + i * multiplier)
  | _, _ => offset
  end.
Definition offset (shape idx : list nat) : nat := offset_loop shape idx 1 0.

(** What a tensor is converted to: scalars, or a tensor as before if its type is legal. *)
Inductive converted := Parts (l : list sexpr) | Whole (t : texpr).

(** buildFromElementsOp, 64-68: the tensor for an operation that is not converted. *)
Definition as_tensor (shape : list nat) (c : converted) : texpr :=
  match c with Parts l => TElements shape l | Whole t => t end.

(** buildExtractOps, 70-96: the scalars of a result of an operation that is not converted. max_element of an empty shape is
    dereferenced; another number of scalars than elements is an error of the conversion. *)
Definition extracts (t : texpr) : option (list sexpr) :=
  match shape_of t with
  | [] => None
  | shape => let l := map (SExtract t) (all_indices shape) in
             if length l =? elements shape then Some l else None
  end.

Section Convert.
  Variable max : nat.
  (** The type converter, 257-269. *)
  Definition converts (shape : list nat) : bool := elements shape <=? max.

  Fixpoint convert_s (s : sexpr) : option sexpr :=
    match s with
    | SVar _ | SPart _ _ | SConst _ => Some s
    | SBin f a b => match convert_s a, convert_s b with Some a, Some b => Some (SBin f a b) | _, _ => None end
    (* ConvertExtractOp, 161-199 *)
    | SExtract t idx =>
        match convert_t t with
        | Some (Parts l) => nth_error l (offset (shape_of t) idx)
        | Some (Whole t') => Some (SExtract t' idx)
        | None => None
        end
    end
  with convert_t (t : texpr) : option converted :=
    match t with
    (* populateAnyFunctionOpInterfaceTypeConversionPattern: a scalar argument for every element *)
    | TVar n shape => Some (if converts shape then Parts (map (SPart n) (seq 0 (elements shape))) else Whole t)
    (* ConvertFromElementsOp, 100-118 *)
    | TElements shape l =>
        match all_some (map convert_s l) with
        | Some l => Some (if converts shape then Parts l else Whole (TElements shape l))
        | None => None
        end
    (* ConvertConstantOp, 201-239 *)
    | TConst shape l => Some (if converts shape then Parts (map SConst l) else Whole t)
    (* ConvertInsertOp, 120-159 *)
    | TInsert s t idx =>
        match convert_s s, convert_t t with
        | Some s, Some (Parts l) =>
            let o := offset (shape_of t) idx in
            if o <? length l then Some (Parts (replace o s l)) else None
        | Some s, Some (Whole t) => Some (Whole (TInsert s t idx))
        | _, _ => None
        end
    (* an operation without pattern *)
    | TOther f shape t =>
        match convert_t t with
        | Some c =>
            let o := TOther f shape (as_tensor (shape_of t) c) in
            if converts shape then option_map Parts (extracts o) else Some (Whole o)
        | None => None
        end
    end.
End Convert.
