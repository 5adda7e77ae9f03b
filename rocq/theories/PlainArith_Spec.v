(** Integer programs with additions, subtractions, multiplications and extensions, and what they compute. *)
From Coq Require Import ZArith List Bool.
From Verif Require Import Words.
Open Scope Z_scope.

(** Arguments and constants are words; a constant is either a scalar or an element of a dense tensor. An extension carries the
    width from which it extends. *)
Inductive aexpr :=
| AVar (v : nat)
| AConst (dense : bool) (c : Z)
| AAdd (a b : aexpr) | ASub (a b : aexpr) | AMul (a b : aexpr)
| AExt (is_signed : bool) (from : Z) (a : aexpr).

(** The word of w bits that the program computes on machine integers. *)
Fixpoint machine (w : Z) (env : nat -> Z) (e : aexpr) : Z :=
  match e with
  | AVar v => env v
  | AConst _ c => c
  | AAdd a b => (machine w env a + machine w env b) mod 2 ^ w
  | ASub a b => (machine w env a - machine w env b) mod 2 ^ w
  | AMul a b => (machine w env a * machine w env b) mod 2 ^ w
  | AExt s from a => if s then sgn from (machine from env a) mod 2 ^ w else machine from env a
  end.

(** What it computes on integers without bounds, when words stand for numbers that are not negative. *)
Fixpoint exact (env : nat -> Z) (e : aexpr) : Z :=
  match e with
  | AVar v => env v
  | AConst _ c => c
  | AAdd a b => exact env a + exact env b
  | ASub a b => exact env a - exact env b
  | AMul a b => exact env a * exact env b
  | AExt _ _ a => exact env a
  end.

(** Programs on secret and plaintext values of one type. *)
Inductive sexpr := Secret (v : nat) | Plain (v : nat) | SAdd (a b : sexpr) | SSub (a b : sexpr) | SMul (a b : sexpr).
Fixpoint secret_value (secret plain : nat -> Z) (e : sexpr) : Z :=
  match e with
  | Secret v => secret v
  | Plain v => plain v
  | SAdd a b => secret_value secret plain a + secret_value secret plain b
  | SSub a b => secret_value secret plain a - secret_value secret plain b
  | SMul a b => secret_value secret plain a * secret_value secret plain b
  end.

(** Constants fit their width, extensions extend. *)
Fixpoint fits (w : Z) (e : aexpr) : Prop :=
  match e with
  | AVar _ => True
  | AConst _ c => 0 <= c < 2 ^ w
  | AAdd a b | ASub a b | AMul a b => fits w a /\ fits w b
  | AExt _ from a => 1 <= from < w /\ fits from a
  end.
Fixpoint no_extension (e : aexpr) : Prop :=
  match e with
  | AVar _ | AConst _ _ => True
  | AAdd a b | ASub a b | AMul a b => no_extension a /\ no_extension b
  | AExt _ _ _ => False
  end.
(** No element of a constant tensor is negative. *)
Fixpoint dense_nonneg (w : Z) (e : aexpr) : Prop :=
  match e with
  | AVar _ => True
  | AConst dense c => dense = true -> c < 2 ^ (w - 1)
  | AAdd a b | ASub a b | AMul a b => dense_nonneg w a /\ dense_nonneg w b
  | AExt _ from a => dense_nonneg from a
  end.
Definition is_plain (e : sexpr) : Prop := match e with Plain _ => True | _ => False end.
(** Every operation has an operand that is not a plaintext. *)
Fixpoint on_secrets (e : sexpr) : Prop :=
  match e with
  | Secret _ | Plain _ => True
  | SAdd a b | SSub a b | SMul a b => ~ (is_plain a /\ is_plain b) /\ on_secrets a /\ on_secrets b
  end.
