(** C33: the canonicalisations of tensor_ext.rotate preserve the tensor and
    the extracted elements.
    C37: inserting rotations for scalar operations on extracted elements and
    re-aligning rotations preserve the scalars. *)
From Coq Require Import ZArith List Bool Lia.
From Verif Require Import Words Rotate_Spec Rotate_Model Rotate_Proofs.
Import ListNotations.
Open Scope Z_scope.

(** ** C33 *)
(** Any number of rewrites, anywhere in the expression, with the patterns on
    tensors (canonicalisation and alignment).  Lengths are powers of two below
    the range of the shifts' type; all shifts have one type; constant tensors
    have rank one. *)
Theorem C33_canonicalise_partial (E : Type) (sem : arith -> E -> E -> E) styp sval ttyp tval (T : sty) lead k t t' v :
  tensors_ok E ttyp tval ->
  0 <= k < width T -> k <= 62 ->
  typeof E ttyp t = Some (lead, 2 ^ k) ->
  shifts_ok E styp sval T t ->
  lead = [] \/ const_free E t ->
  tsteps E ttyp t t' ->
  teval E sem styp sval ttyp tval t = Some v ->
  teval E sem styp sval ttyp tval t' = Some v.
Proof.
  intros Hv Hk Hk62 Ht Hs Hc H Hev. refine (proj2 (steps_ok E sem styp sval ttyp tval Hv T lead k Hk Hk62 t t' H _) v Hev). split; auto.
Qed.
Print Assumptions C33_canonicalise_partial.

(** Extracting from a rotated tensor: the sum of shift and index is used as it
    is, so it has to be an index of the tensor. *)
Theorem C33_extract_partial (E : Type) (sem : arith -> E -> E -> E) styp sval ttyp tval xval n t s i x' e :
  tensors_ok E ttyp tval ->
  0 < n <= 2 ^ 62 ->
  typeof E ttyp t = Some ([], n) ->
  sok styp sval Index s -> sok styp sval Index i ->
  (forall y z, seval styp sval s = Some (Index, y) -> seval styp sval i = Some (Index, z) -> 0 <= sgn 64 y + sgn 64 z < n) ->
  rotate_plus_extract E (XExtract (TRot t s) i) = Some x' ->
  xeval E sem styp sval ttyp tval xval (XExtract (TRot t s) i) = Some e ->
  xeval E sem styp sval ttyp tval xval x' = Some e.
Proof.
  intros Hv Hn Ht Hs Hi B H He. exact (plus_extract E sem styp sval ttyp tval xval Hv n t s i x' e Hn Ht Hs Hi H B He).
Qed.
Print Assumptions C33_extract_partial.

(** an environment for the examples: all scalar variables are zero of type
    index, all tensors are the rows 0, 1, ..., n - 1 *)
Definition ex_sem (o : arith) (x y : Z) : Z :=
  match o with AddI | AddF => x + y | SubI | SubF => x - y | MulI | MulF => x * y end.
Definition ex_row (n : nat) : list Z := map Z.of_nat (seq 0 n).
Definition ex_teval (n : nat) := teval Z ex_sem (fun _ => Index) (fun _ => 0) (fun _ => ([], Z.of_nat n)) (fun _ => [ex_row n]).
Definition ex_xeval (n : nat) := xeval Z ex_sem (fun _ => Index) (fun _ => 0) (fun _ => ([], Z.of_nat n)) (fun _ => [ex_row n]) (fun _ => 0).
Lemma ex_ok n : tensors_ok Z (fun _ => ([], Z.of_nat n)) (fun _ => [ex_row n]).
Proof. intros x. split; [reflexivity|]. constructor; [|constructor]. unfold ex_row. rewrite map_length, seq_length. cbn. lia. Qed.

(** rotate(rotate(x, -3) + rotate(x, 2), 5), with the shifts merged *)
Definition ex_t : texp Z := TRot (TOp AddI (TRot (TVar 0) (SConst Index (2 ^ 64 - 3))) (TRot (TVar 0) (SConst Index 2))) (SConst Index 5).
Definition ex_t' : texp Z :=
  TOp AddI (TRot (TVar 0) (SAdd (SConst Index 5) (SConst Index (2 ^ 64 - 3)))) (TRot (TVar 0) (SAdd (SConst Index 5) (SConst Index 2))).
Example C33_nonvacuous :
  tensors_ok Z (fun _ => ([], Z.of_nat 8)) (fun _ => [ex_row 8]) /\
  typeof Z (fun _ => ([], Z.of_nat 8)) ex_t = Some ([], 2 ^ 3) /\ shifts_ok Z (fun _ => Index) (fun _ => 0) Index ex_t /\
  tsteps Z (fun _ => ([], Z.of_nat 8)) ex_t ex_t' /\
  ex_teval 8 ex_t = Some [[9; 3; 5; 7; 9; 11; 5; 7]] /\ ex_teval 8 ex_t' = Some [[9; 3; 5; 7; 9; 11; 5; 7]].
Proof.
  split; [apply ex_ok|]. split; [reflexivity|]. split; [vm_compute; intuition discriminate|]. split; [|split; reflexivity].
  eapply ts_step; [apply t_sandwich; reflexivity|]. apply ts_refl.
Qed.
(** a negative shift is normalised, an extraction is moved *)
Example C33_nonvacuous_extract :
  tsteps Z (fun _ => ([], Z.of_nat 8)) (TRot (TVar 0) (SConst Index (2 ^ 64 - 3)))
    (TRot (TVar 0) (SRemU (SConst Index (2 ^ 64 - 3)) (SCast Index (SConst Index 8)))) /\
  ex_xeval 8 (XExtract (TRot (TVar 0) (SConst Index 2)) (SConst Index 3)) = Some 5 /\
  rotate_plus_extract Z (XExtract (TRot (TVar 0) (SConst Index 2)) (SConst Index 3)) = Some (XExtract (TVar 0) (SAdd (SConst Index 2) (SConst Index 3))).
Proof. split; [eapply ts_step; [apply t_normal; reflexivity|apply ts_refl]|]. split; reflexivity. Qed.

(** The claim for all lengths is false: the unsigned remainder of a negative
    shift is not its residue for a length that is not a power of two. *)
Theorem C33_normalize_refuted :
  exists n t t', tensors_ok Z (fun _ => ([], Z.of_nat n)) (fun _ => [ex_row n]) /\ shifts_ok Z (fun _ => Index) (fun _ => 0) Index t /\
    normalize_rotation_index Z (fun _ => ([], Z.of_nat n)) t = Some t' /\
    ex_teval n t <> None /\ ex_teval n t' <> None /\ ex_teval n t' <> ex_teval n t.
Proof.
  exists 3%nat, (TRot (TVar 0) (SConst Index (2 ^ 64 - 1))), (TRot (TVar 0) (SRemU (SConst Index (2 ^ 64 - 1)) (SCast Index (SConst Index 3)))).
  split; [apply ex_ok|]. split; [vm_compute; intuition discriminate|]. split; [reflexivity|]. repeat split; intro H; vm_compute in H; discriminate.
Qed.
Print Assumptions C33_normalize_refuted.
(** With 256 slots and shifts of type i8, the length does not fit the type of
    the shift and the inserted remainder divides by zero. *)
Theorem C33_normalize_width_refuted :
  exists t t', shifts_ok Z (fun _ => Index) (fun _ => 0) (Int 8) t /\
    normalize_rotation_index Z (fun _ => ([], Z.of_nat 256)) t = Some t' /\ ex_teval 256 t <> None /\ ex_teval 256 t' = None.
Proof.
  exists (TRot (TVar 0) (SConst (Int 8) 255)), (TRot (TVar 0) (SRemU (SConst (Int 8) 255) (SCast (Int 8) (SConst Index 256)))).
  split; [vm_compute; intuition discriminate|]. split; [reflexivity|]. split; [intro H; vm_compute in H; discriminate|vm_compute; reflexivity].
Qed.
Print Assumptions C33_normalize_width_refuted.
(** The sum of two shifts wraps around: wrong for other lengths. *)
Theorem C33_combine_refuted :
  exists n t t', shifts_ok Z (fun _ => Index) (fun _ => 0) (Int 8) t /\
    combine_sequential_rotates Z t = Some t' /\ ex_teval n t <> None /\ ex_teval n t' <> None /\ ex_teval n t' <> ex_teval n t.
Proof.
  exists 3%nat, (TRot (TRot (TVar 0) (SConst (Int 8) 100)) (SConst (Int 8) 100)), (TRot (TVar 0) (SAdd (SConst (Int 8) 100) (SConst (Int 8) 100))).
  split; [vm_compute; intuition discriminate|]. split; [reflexivity|]. repeat split; intro H; vm_compute in H; discriminate.
Qed.
Print Assumptions C33_combine_refuted.
(** The sum of shifts of different types is not an operation. *)
Theorem C33_combine_types_refuted :
  exists n t t', combine_sequential_rotates Z t = Some t' /\ ex_teval n t <> None /\ ex_teval n t' = None.
Proof.
  exists 4%nat, (TRot (TRot (TVar 0) (SConst (Int 32) 1)) (SConst Index 1)), (TRot (TVar 0) (SAdd (SConst (Int 32) 1) (SConst Index 1))).
  split; [reflexivity|]. split; [intro H; vm_compute in H; discriminate|vm_compute; reflexivity].
Qed.
Print Assumptions C33_combine_types_refuted.
(** A constant of rank two is rotated as a whole by the folder, while rotate
    works on the last dimension. *)
Theorem C33_fold_rank_refuted :
  exists t t', shifts_ok Z (fun _ => Index) (fun _ => 0) Index t /\ fold_rotate_of_const Z t = Some t' /\
    ex_teval 2 t = Some [[2; 1]; [4; 3]] /\ ex_teval 2 t' = Some [[2; 3]; [4; 1]].
Proof.
  exists (TRot (TConst ([2], 2) (Dense [1; 2; 3; 4])) (SConst Index 1)), (TConst ([2], 2) (Dense [2; 3; 4; 1])).
  split; [vm_compute; intuition discriminate|]. repeat split.
Qed.
Print Assumptions C33_fold_rank_refuted.
(** The folder adds the size once before an unsigned remainder. *)
Theorem C33_fold_negative_refuted :
  exists t t', shifts_ok Z (fun _ => Index) (fun _ => 0) Index t /\ fold_rotate_of_const Z t = Some t' /\
    ex_teval 3 t = Some [[3; 1; 2]] /\ ex_teval 3 t' <> None /\ ex_teval 3 t' <> ex_teval 3 t.
Proof.
  exists (TRot (TConst ([], 3) (Dense [1; 2; 3])) (SConst Index (2 ^ 64 - 4))).
  eexists. split; [vm_compute; intuition discriminate|]. split; [reflexivity|]. split; [vm_compute; reflexivity|]. split; intro H; vm_compute in H; discriminate.
Qed.
Print Assumptions C33_fold_negative_refuted.
(** An extraction in bounds becomes one out of bounds. *)
Theorem C33_extract_refuted :
  exists n x x', xok Z (fun _ => Index) (fun _ => 0) (fun _ => ([], Z.of_nat n)) (Z.of_nat n) x /\
    rotate_plus_extract Z x = Some x' /\ ex_xeval n x = Some 1 /\ ex_xeval n x' = None.
Proof.
  exists 4%nat, (XExtract (TRot (TVar 0) (SConst Index 2)) (SConst Index 3)), (XExtract (TVar 0) (SAdd (SConst Index 2) (SConst Index 3))).
  split; [vm_compute; intuition discriminate|]. split; [reflexivity|]. split; vm_compute; reflexivity.
Qed.
Print Assumptions C33_extract_refuted.

(** ** C37 *)
(** One insertion of rotations, tensors of any length.  The three patterns:
    both operands extracted, or one of them a constant. *)
Theorem C37_insert_partial (E : Type) (sem : arith -> E -> E -> E) styp sval ttyp tval xval n c x x' e :
  tensors_ok E ttyp tval ->
  n <= 2 ^ 62 -> 0 <= c < n ->
  xok E styp sval ttyp n x ->
  insert_rotations_two E c x = Some x' \/ insert_rotations_splat_rhs E ttyp c x = Some x' \/ insert_rotations_splat_lhs E ttyp c x = Some x' ->
  xeval E sem styp sval ttyp tval xval x = Some e ->
  xeval E sem styp sval ttyp tval xval x' = Some e.
Proof.
  intros Hv Hn Hc Hx H He.
  assert (O : forall y, xok E styp sval ttyp n y -> operand E styp sval ttyp n y) by (intros []; cbn; tauto).
  destruct x as [| | |o a b]; try (destruct H as [H|[H|H]]; discriminate). destruct Hx as [Ha Hb]. destruct H as [H|[H|H]].
  - exact (two_ok E sem styp sval ttyp tval xval Hv n c Hc Hn o a b x' e (O _ Ha) (O _ Hb) H He).
  - exact (rhs_ok E sem styp sval ttyp tval xval Hv n c Hc Hn o a b x' e (O _ Ha) (O _ Hb) H He).
  - exact (lhs_ok E sem styp sval ttyp tval xval Hv n c Hc Hn o a b x' e (O _ Ha) (O _ Hb) H He).
Qed.
Print Assumptions C37_insert_partial.

(** Whole programs: insertion at any target slots inside the tensors,
    alignment and canonicalisation in any order and number. *)
Theorem C37_program_partial (E : Type) (sem : arith -> E -> E -> E) styp sval ttyp tval xval k (slots : Z -> Prop) x x' e :
  tensors_ok E ttyp tval ->
  0 <= k <= 62 -> (forall c, slots c -> 0 <= c < 2 ^ k) ->
  xok E styp sval ttyp (2 ^ k) x ->
  xsteps E ttyp slots x x' ->
  xeval E sem styp sval ttyp tval xval x = Some e ->
  xeval E sem styp sval ttyp tval xval x' = Some e.
Proof.
  intros Hv Hk Hc Hx H He. exact (proj2 (xsteps_ok E sem styp sval ttyp tval xval Hv k Hk slots Hc x x' H Hx) e He).
Qed.
Print Assumptions C37_program_partial.

(** (t[1] * t[5]) - t[2] at target slot 3, rewritten *)
Definition ex_x : xexp Z := XOp SubI (XOp MulI (XExtract (TVar 0) (SConst Index 1)) (XExtract (TVar 0) (SConst Index 5))) (XExtract (TVar 0) (SConst Index 2)).
Example C37_nonvacuous :
  exists x', xok Z (fun _ => Index) (fun _ => 0) (fun _ => ([], Z.of_nat 8)) (2 ^ 3) ex_x /\
    xsteps Z (fun _ => ([], Z.of_nat 8)) (fun c => c = 3) ex_x x' /\
    (exists s1 s2 s3 s4 s5, x' = XExtract (TOp SubI (TRot (TOp MulI (TRot (TVar 0) s1) (TRot (TVar 0) s2)) s3) (TRot (TVar 0) s4)) s5) /\
    ex_xeval 8 ex_x = Some 3 /\ ex_xeval 8 x' = Some 3.
Proof.
  eexists. split; [vm_compute; intuition discriminate|]. split.
  - eapply xs_step; [eapply x_op_l; eapply (x_two _ _ _ 3); [reflexivity|reflexivity]|].
    eapply xs_step; [eapply (x_two _ _ _ 3); [reflexivity|reflexivity]|]. apply xs_refl.
  - split; [repeat eexists|]. split; vm_compute; reflexivity.
Qed.

(** The target slot is the constant index of a later insertion (or 0), not
    compared with the length of the tensors: inserting at slot 7 of a larger
    tensor gives an access out of bounds. *)
Theorem C37_target_refuted :
  exists c x x', xok Z (fun _ => Index) (fun _ => 0) (fun _ => ([], Z.of_nat 4)) 4 x /\ 0 <= c < 16 /\
    insert_rotations_two Z c x = Some x' /\ ex_xeval 4 x = Some 3 /\ ex_xeval 4 x' = None.
Proof.
  exists 7, (XOp AddI (XExtract (TVar 0) (SConst Index 1)) (XExtract (TVar 0) (SConst Index 2))). eexists.
  split; [vm_compute; intuition discriminate|]. split; [lia|]. split; [reflexivity|]. split; vm_compute; reflexivity.
Qed.
Print Assumptions C37_target_refuted.
(** The tensors may have different lengths; the operation does not exist
    then. *)
Theorem C37_shapes_refuted :
  exists ttyp tval x x', tensors_ok Z ttyp tval /\ insert_rotations_two Z 0 x = Some x' /\
    xeval Z ex_sem (fun _ => Index) (fun _ => 0) ttyp tval (fun _ => 0) x = Some 4 /\
    xeval Z ex_sem (fun _ => Index) (fun _ => 0) ttyp tval (fun _ => 0) x' = None.
Proof.
  exists (fun x => match x with O => ([], 2) | _ => ([], 4) end), (fun x => match x with O => [[0; 1]] | _ => [[0; 1; 2; 3]] end).
  exists (XOp AddI (XExtract (TVar 0) (SConst Index 1)) (XExtract (TVar 1) (SConst Index 3))). eexists.
  split; [|split; [reflexivity|split; vm_compute; reflexivity]].
  intros [|]; split; try reflexivity; repeat constructor.
Qed.
Print Assumptions C37_shapes_refuted.
