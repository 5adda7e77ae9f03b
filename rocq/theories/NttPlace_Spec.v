(** Specification used by NttPlace_Props: values of polynomial programs and their two forms. *)
From Coq Require Import ZArith List Bool Arith.
From Verif Require Import Words NTT_Model NTT_Proofs NTT_Props NttPlace_Model.
Import ListNotations.
Open Scope Z_scope.

Section Spec.
Variable root : Z -> nat -> Z.
(** A limb is (modulus, coefficients): odd word-size modulus, a power of two of coefficients, and the
    attached root really is a root of x^n+1. *)
Definition limb_ok (l : Z * list Z) : Prop :=
  let '(q, a) := l in
  1 < q < 2 ^ 64 /\ Z.odd q = true /\
  exists k, Z.of_nat (2 ^ k) < q /\ root_of q (2 ^ k) (root q (2 ^ k)) /\ poly q (2 ^ k) a.
Definition value_ok (x : val) : Prop :=
  match x with VP _ d => Forall (fun p : rnspoly => Forall limb_ok p) d | VO _ => True end.
(** Evaluation form of a limb: the values at the odd powers of the root, in bit-reversed order. *)
Definition evaluations (l l' : Z * list Z) : Prop :=
  let '(q, a) := l in let '(q', b) := l' in
  q' = q /\ exists k, length a = (2 ^ k)%nat /\ poly q (2 ^ k) b /\
  forall i, (i < 2 ^ k)%nat -> nth (bitrev k i) b 0 = value q a (root q (2 ^ k) ^ Z.of_nat (2 * i + 1)).
(** [y] is [x] (a value given by coefficients) stored in form [f]; other values are stored as they are. *)
Definition in_form (f : form) (x y : val) : Prop :=
  match x with
  | VO _ => y = x
  | VP _ d => match f with
              | COEFF => y = VP COEFF d
              | EVAL => exists e, y = VP EVAL e /\
                  Forall2 (fun p p' : rnspoly => Forall2 evaluations p p') d e
              end
  end.
End Spec.

(** A straight-line function in coefficient form, in SSA form (every value below [N] is defined once), without
    dead polynomial results, with at most one polynomial result per operation. *)
Definition source_function (N : nat) (p : prog) : Prop :=
  (forall v, In v (p_args p ++ flat_map o_results (p_ops p)) -> (v < N)%nat) /\
  NoDup (p_args p ++ flat_map o_results (p_ops p)) /\
  (forall v, In v (p_args p) -> p_argform p v = COEFF) /\
  (forall o, In o (p_ops p) -> o_form o = COEFF) /\
  (forall o, In o (p_ops p) -> (length (filter (p_poly p) (o_results o)) <= 1)%nat) /\
  (forall pre o post v, p_ops p = pre ++ o :: post -> In v (o_results o) -> p_poly p v = true ->
     In v (p_ret p) \/ exists o', In o' post /\ In v (o_args o')).
(** The answer of the solver satisfies all constraints given to it. *)
Definition feasible (p : prog) (s : assignment) : Prop :=
  forall cs, constraints p = Some cs -> Forall (fun c => holds s c = true) cs.
(** The values of the arguments, each in the form that the type of the argument tells. *)
Definition arguments_for (root : Z -> nat -> Z) (p : prog) (args args' : list val) : Prop :=
  length args' = length args /\
  forall i v x y, nth_error (p_args p) i = Some v -> nth_error args i = Some x -> nth_error args' i = Some y ->
    in_form root (p_argform p v) x y.
(** The operations outside the pass: those of the polynomial dialect that only know coefficients return
    reduced polynomials, those outside the dialect return no polynomials. *)
Definition outside_ok (root : Z -> nat -> Z) (csem : coeff_op -> list val -> option (list val))
    (osem : nat -> list val -> option (list val)) : Prop :=
  (forall c l ys, Forall (value_ok root) l -> csem c l = Some ys -> Forall (value_ok root) ys) /\
  (forall nm l ys, osem nm l = Some ys -> Forall (fun x => exists z, x = VO z) ys).
