(** Programs over tensors with tensor_ext.rotate: syntax, types and meaning.

    Source: lib/Dialect/TensorExt/IR/TensorExtOps.td:22-57 (rotate), MLIR arith
    and tensor dialects. A tensor type is the list of leading dimensions and
    the last dimension; the rotation acts on the last axis, to the left, and
    reads its shift as a signed integer. A tensor value is the list of its
    rows. Elements are arbitrary and so are the elementwise operations. *)
From Coq Require Import ZArith List Bool.
From Verif Require Import Words.
Import ListNotations.
Open Scope Z_scope.

(** types of shifts and indices *)
Inductive sty := Index | Int (w : Z).
Definition width (t : sty) : Z := match t with Index => 64 | Int w => w end.
Definition sty_eqb (a b : sty) : bool :=
  match a, b with Index, Index => true | Int v, Int w => v =? w | _, _ => false end.
(** integer values: variables, constants (as words), addi, subi, remui and
    index_cast *)
Inductive sexp :=
| SVar (x : nat) | SConst (t : sty) (v : Z)
| SAdd (a b : sexp) | SSub (a b : sexp) | SRemU (a b : sexp) | SCast (t : sty) (a : sexp).

Inductive arith := AddI | SubI | MulI | AddF | SubF | MulF.
Notation ttype := (list Z * Z)%type.

Section Meaning.
Variable E : Type.
Variable sem : arith -> E -> E -> E.

Inductive data := Splat (e : E) | Dense (l : list E).
Inductive texp :=
| TVar (x : nat) | TConst (ty : ttype) (d : data)
| TRot (t : texp) (s : sexp) | TOp (o : arith) (a b : texp).
Inductive xexp :=
| XVar (x : nat) | XConst (e : E)
| XExtract (t : texp) (i : sexp) | XOp (o : arith) (a b : xexp).

(** left rotation of one row *)
Definition rot (s : Z) (l : list E) : list E :=
  match l with
  | [] => []
  | d :: _ => map (fun j => nth (Z.to_nat ((Z.of_nat j + s) mod Z.of_nat (length l))) l d) (seq 0 (length l))
  end.
Fixpoint map2 {A B C} (f : A -> B -> C) (l : list A) (m : list B) : list C :=
  match l, m with a :: l', b :: m' => f a b :: map2 f l' m' | _, _ => [] end.
Fixpoint chunks (k : nat) (n : nat) (l : list E) : list (list E) :=
  match k with O => [] | S k' => firstn n l :: chunks k' n (skipn n l) end.
Definition rows_of (lead : list Z) : nat := Z.to_nat (fold_right Z.mul 1 lead).

(** types and values of the variables *)
Variable styp : nat -> sty.
Variable sval : nat -> Z.
Variable ttyp : nat -> ttype.
Variable tval : nat -> list (list E).
Variable xval : nat -> E.

(** [None] for operands of different types or a zero divisor *)
Fixpoint seval (s : sexp) : option (sty * Z) :=
  match s with
  | SVar x => Some (styp x, sval x)
  | SConst t v => Some (t, v)
  | SAdd a b => x <- seval a ;; y <- seval b ;; if sty_eqb (fst x) (fst y) then Some (fst x, addi (width (fst x)) (snd x) (snd y)) else None
  | SSub a b => x <- seval a ;; y <- seval b ;; if sty_eqb (fst x) (fst y) then Some (fst x, subi (width (fst x)) (snd x) (snd y)) else None
  | SRemU a b => x <- seval a ;; y <- seval b ;; if sty_eqb (fst x) (fst y) then r <- remui (width (fst x)) (snd x) (snd y) ;; Some (fst x, r) else None
  | SCast t a => x <- seval a ;; Some (t, wrap (width t) (sgn (width (fst x)) (snd x)))
  end.
Definition ttype_eqb (a b : ttype) : bool := (if list_eq_dec Z.eq_dec (fst a) (fst b) then true else false) && (snd a =? snd b).
Fixpoint typeof (t : texp) : option ttype :=
  match t with
  | TVar x => Some (ttyp x)
  | TConst ty _ => Some ty
  | TRot a _ => typeof a
  | TOp _ a b => x <- typeof a ;; y <- typeof b ;; if ttype_eqb x y then Some x else None
  end.
Fixpoint teval (t : texp) : option (list (list E)) :=
  match t with
  | TVar x => Some (tval x)
  | TConst (lead, n) (Splat e) => Some (repeat (repeat e (Z.to_nat n)) (rows_of lead))
  | TConst (lead, n) (Dense l) =>
      if Nat.eqb (length l) (rows_of lead * Z.to_nat n) then Some (chunks (rows_of lead) (Z.to_nat n) l) else None
  | TRot a s => v <- teval a ;; x <- seval s ;; Some (map (rot (sgn (width (fst x)) (snd x))) v)
  | TOp o a b =>
      x <- typeof a ;; y <- typeof b ;;
      if ttype_eqb x y then u <- teval a ;; v <- teval b ;; Some (map2 (map2 (sem o)) u v) else None
  end.
(** extraction from a tensor of rank one with an index of type index; [None]
    out of bounds *)
Fixpoint xeval (x : xexp) : option E :=
  match x with
  | XVar x => Some (xval x)
  | XConst e => Some e
  | XExtract t i =>
      v <- teval t ;; k <- seval i ;;
      match v, fst k with
      | [r], Index => if sgn 64 (snd k) <? 0 then None else nth_error r (Z.to_nat (sgn 64 (snd k)))
      | _, _ => None
      end
  | XOp o a b => u <- xeval a ;; v <- xeval b ;; Some (sem o u v)
  end.

(** ** Conditions on programs *)
(** the tensor arguments have their types *)
Definition tensors_ok : Prop :=
  forall x, length (tval x) = rows_of (fst (ttyp x)) /\ Forall (fun r => length r = Z.to_nat (snd (ttyp x))) (tval x).
(** a shift of type T: its constants and variables are words of that type *)
Fixpoint sok (T : sty) (s : sexp) : Prop :=
  match s with
  | SVar x => styp x = T /\ is_word (width T) (sval x)
  | SConst t v => t = T /\ is_word (width T) v
  | SAdd a b | SSub a b | SRemU a b => sok T a /\ sok T b
  | SCast t a => t = T /\ exists T', sok T' a
  end.
(** every shift of a tensor expression has type T *)
Fixpoint shifts_ok (T : sty) (t : texp) : Prop :=
  match t with
  | TVar _ | TConst _ _ => True
  | TRot a s => shifts_ok T a /\ sok T s
  | TOp _ a b => shifts_ok T a /\ shifts_ok T b
  end.
(** no constant tensors *)
Fixpoint const_free (t : texp) : Prop :=
  match t with
  | TVar _ => True
  | TConst _ _ => False
  | TRot a s => const_free a
  | TOp _ a b => const_free a /\ const_free b
  end.
(** every extraction is from a tensor of rank one and length n, with shifts and indices of type index *)
Fixpoint xok (n : Z) (x : xexp) : Prop :=
  match x with
  | XVar _ | XConst _ => True
  | XExtract t i => typeof t = Some ([], n) /\ shifts_ok Index t /\ sok Index i
  | XOp _ a b => xok n a /\ xok n b
  end.
End Meaning.
Arguments Splat {E}. Arguments Dense {E}. Arguments TVar {E}. Arguments TConst {E}. Arguments TRot {E}. Arguments TOp {E}.
Arguments XVar {E}. Arguments XConst {E}. Arguments XExtract {E}. Arguments XOp {E}.
