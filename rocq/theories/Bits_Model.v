(** Integers and their bits: convertIntegerValueToTensorOfBits and convertTensorOfBitsToInteger (lib/Utils/TransformUtils.cpp),
    secret.conceal, secret.cast and the access to tensors in secret-to-cggi, and unflattenIndex (lib/Transforms/MemrefToArith).
    Ciphertexts are represented by the bit they hold. *)
From Coq Require Import List Bool ZArith Arith.
From Verif Require Import Bits_Spec.
Import ListNotations.
Local Open Scope Z_scope.

(** *** arith on integers of w bits, 0 <= x < 2^w *)
Definition trunc (w : nat) (x : Z) : Z := x mod 2 ^ Z.of_nat w.
Definition signed (w : nat) (x : Z) : Z := if Z.testbit x (Z.of_nat w - 1) then x - 2 ^ Z.of_nat w else x.
Definition andi (x y : Z) : Z := Z.land x y.
Definition ori (x y : Z) : Z := Z.lor x y.
(** A shift by w or more is poison. *)
Definition shrsi (w : nat) (x k : Z) : option Z := if k <? Z.of_nat w then Some (trunc w (Z.shiftr (signed w x) k)) else None.
Definition shli (w : nat) (x k : Z) : option Z := if k <? Z.of_nat w then Some (trunc w (Z.shiftl x k)) else None.
Definition trunci1 (x : Z) : bool := Z.odd x.
Definition extsi1 (w : nat) (b : bool) : Z := trunc w (if b then -1 else 0).
(** An attribute of w bits from a C++ integer; it is truncated. *)
Definition attr (w : nat) (x : Z) : Z := trunc w x.
Definition bind {A B} (x : option A) (f : A -> option B) : option B := match x with Some a => f a | None => None end.
Fixpoint sequence {A} (l : list (option A)) : option (list A) :=
  match l with [] => Some [] | x :: l => bind x (fun a => bind (sequence l) (fun r => Some (a :: r))) end.

(** *** lib/Utils/TransformUtils.cpp *)

(** The C++ expression 1 << i on int: undefined from 32 on. *)
Definition c_shift (i : nat) : option Z :=
  if Nat.ltb i 32 then Some (if Nat.eqb i 31 then - 2 ^ 31 else 2 ^ Z.of_nat i) else None.

(** convertIntegerValueToTensorOfBits, TransformUtils.cpp 67-91; an i1 is returned as it is. *)
Definition convert_integer (w : nat) (v : Z) : option (list bool) :=
  if Nat.eqb w 1 then Some [trunci1 v]
  else sequence (map (fun i => bind (c_shift i) (fun mask =>
         bind (shrsi w (andi v (attr w mask)) (attr w (Z.of_nat i))) (fun x => Some (trunci1 x)))) (seq 0 w)).

(** convertTensorOfBitsToInteger, TransformUtils.cpp 93-114. *)
Definition convert_tensor (w : nat) (l : list bool) : option Z :=
  fold_left (fun acc (ib : nat * bool) => bind acc (fun result =>
      bind (shli w (extsi1 w (snd ib)) (attr w (Z.of_nat (fst ib)))) (fun shifted => Some (ori result shifted))))
    (combine (seq 0 (length l)) l) (Some 0).

(** *** secret-to-cggi *)

(** encodeElement in ConvertSecretConcealOp, SecretToCGGI.cpp 577-610. *)
Definition encode_element (w : nat) (v : Z) : option (list bool) :=
  if Nat.eqb w 1 then Some [trunci1 v]
  else sequence (map (fun i =>
         bind (shli w (attr w 1) (attr w (Z.of_nat i))) (fun mask =>
         bind (shrsi w (andi v mask) (attr w (Z.of_nat i))) (fun x => Some (trunci1 x)))) (seq 0 w)).

(** unflattenIndex and flattenIndex, MemrefToArith/Utils.cpp 55-75, on numbers that are not negative; a stride of 0 is no
    result. *)
Fixpoint unflatten (ndx : nat) (strides : list nat) : option (list nat) :=
  match strides with
  | [] => Some []
  | O :: _ => None
  | stride :: strides => option_map (cons (Nat.div ndx stride)) (unflatten (Nat.modulo ndx stride) strides)
  end.
Definition unflatten_index (index : nat) (strides : list nat) (offset : nat) : option (list nat) :=
  if Nat.ltb index offset then None else unflatten (index - offset) strides.
Definition flatten_index (indices strides : list nat) (offset : nat) : nat :=
  fold_left (fun acc (p : nat * nat) => acc + fst p * snd p)%nat (combine indices strides) offset.

(** tensor.extract *)
Definition extract {A} (shape : list nat) (data : list A) (idx : list nat) : option A :=
  bind (position shape idx) (fun p => nth_error data p).

(** ConvertSecretConcealOp on a tensor, SecretToCGGI.cpp 619-638: the indices are found with unflattenIndex, given the shape;
    they refer to a list with as many entries as the largest dimension. *)
Definition conceal_tensor (shape : list nat) (w : nat) (data : list Z) : option (list bool) :=
  let max_dimension := fold_right Nat.max O shape in
  option_map (@concat bool) (sequence (map (fun i =>
    bind (unflatten_index i shape 0) (fun raw =>
    if forallb (fun k => Nat.ltb k max_dimension) raw
    then bind (extract shape data raw) (encode_element w) else None)) (seq 0 (elements shape)))).

(** getLWECiphertextForInt, SecretToCGGI.cpp 238-262: the shape of the tensor of ciphertexts, None for a single one. *)
Inductive type := Int (w : nat) | Shaped (shape : list nat) (w : nat).
Definition converted_shape (t : type) : option (list nat) :=
  match t with
  | Int w => if Nat.eqb w 1 then None else Some [w]
  | Shaped shape w => Some (if Nat.eqb w 1 then shape else shape ++ [w])
  end.

(** ConvertSecretCastOp, SecretToCGGI.cpp 459-552: folding, collapse_shape, expand_shape and reshape keep the elements in
    row-major order. An expand_shape from or a collapse_shape to rank 1 needs matching sizes, which was checked. *)
Definition shape_eqb (s t : list nat) : bool := if list_eq_dec Nat.eq_dec s t then true else false.
Definition is_shaped (t : type) : bool := match t with Shaped _ _ => true | Int _ => false end.
Definition cast (from to : type) (data : list bool) : option (list nat * list bool) :=
  match converted_shape from, converted_shape to with
  | Some lhs, Some rhs =>
      if negb (Nat.eqb (elements lhs) (elements rhs)) then None
      else if shape_eqb lhs rhs then if negb (Bool.eqb (is_shaped from) (is_shaped to)) then Some (lhs, data) else None
      else if Nat.ltb (length rhs) (length lhs) && Nat.eqb (length rhs) 1 then Some ([elements lhs], data)
      else Some (rhs, data)
  | _, _ => None
  end.

(** convertReadOpInterface, SecretToCGGI.cpp 161-190: the slice at [indices, 0] of sizes [1, ..., 1, w]. *)
Definition read (shape : list nat) (w : nat) (data : list bool) (idx : list nat) : option (list bool) :=
  sequence (map (fun b => extract (shape ++ [w]) data (idx ++ [b])) (seq 0 w)).

(** convertWriteOpInterface for a multi-bit secret, SecretToCGGI.cpp 142-161: insert_slice at [indices, 0]. *)
Fixpoint replace_at {A} (i : nat) (a : A) (l : list A) : list A :=
  match l, i with [], _ => [] | _ :: l, O => a :: l | b :: l, S i => b :: replace_at i a l end.
Definition write (shape : list nat) (w : nat) (data : list bool) (idx : list nat) (v : list bool) : option (list bool) :=
  fold_left (fun acc (ib : nat * bool) => bind acc (fun data =>
      bind (position (shape ++ [w]) (idx ++ [fst ib])) (fun p => Some (replace_at p (snd ib) data))))
    (combine (seq 0 w) v) (Some data).
