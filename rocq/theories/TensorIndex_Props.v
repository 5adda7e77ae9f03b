(** C53: row-major flattening and unflattening of tensor indices. *)

From Coq Require Import ZArith List Bool Lia.
From Verif Require Import TensorIndex_Model TensorIndex_Proofs.
Import ListNotations.
Open Scope Z_scope.

(** Flattening an in-bounds index tuple of a tensor with fewer than 2^31
    elements gives its row-major position, which is within the tensor;
    different tuples get different positions and every position is reached. *)
Theorem C53_flatten : forall shape,
  num_elements shape < 2147483648 ->
  (forall idx, in_bounds shape idx ->
     exists k, flattened_index shape idx = Some k /\ k = row_major shape idx /\
               0 <= k < num_elements shape) /\
  (forall i j, in_bounds shape i -> in_bounds shape j ->
     flattened_index shape i = flattened_index shape j -> i = j) /\
  (positive_dims shape -> forall k, 0 <= k < num_elements shape ->
     exists idx, in_bounds shape idx /\ flattened_index shape idx = Some k).
Proof.
  intros shape Hn. split; [|split].
  - intros idx Hb. exists (row_major shape idx).
    split; [now apply flattened_index_ok|]. split; [reflexivity|]. now apply row_major_range.
  - intros i j Hi Hj E. rewrite !flattened_index_ok in E by assumption.
    injection E as E. now apply (row_major_inj shape).
  - intros Hp k Hk. destruct (row_major_surj shape Hp k Hk) as [idx [Hb E]].
    exists idx. split; [assumption|]. rewrite flattened_index_ok by assumption. now rewrite E.
Qed.
Print Assumptions C53_flatten.

(** Unflattening is the inverse of row-major order, in both directions and for
    any number of elements. *)
Theorem C53_unflatten : forall shape,
  (forall idx, in_bounds shape idx -> row_major_indices (row_major shape idx) shape = Some idx) /\
  (positive_dims shape -> forall k, 0 <= k < num_elements shape ->
     exists idx, row_major_indices k shape = Some idx /\ in_bounds shape idx /\
                 row_major shape idx = k).
Proof.
  intros shape. unfold row_major_indices. rewrite fold_mul, Z.mul_1_l. split.
  - apply unflatten_ok.
  - intros Hp k Hk. destruct (row_major_surj shape Hp k Hk) as [idx [Hb E]].
    exists idx. subst k. split; [now apply unflatten_ok|]. now split.
Qed.
Print Assumptions C53_unflatten.

(** The accumulators of the flattening are ints: with 2^31 or more elements the
    position of an in-bounds index can come out negative. *)
Theorem C53_overflow_refuted : exists shape idx,
  in_bounds shape idx /\ exists k, flattened_index shape idx = Some k /\ k < 0.
Proof.
  exists [4; 1073741824], [2; 0]. split.
  - repeat constructor; lia.
  - exists (-2147483648). split; [vm_compute; reflexivity|lia].
Qed.
Print Assumptions C53_overflow_refuted.

Example C53_nonvacuous :
  in_bounds [2; 3; 4] [1; 2; 3] /\ positive_dims [2; 3; 4] /\ num_elements [2; 3; 4] < 2147483648 /\
  flattened_index [2; 3; 4] [1; 2; 1] = Some 21 /\
  row_major_indices 21 [2; 3; 4] = Some [1; 2; 1].
Proof.
  split; [repeat constructor; lia|]. split; [repeat constructor; lia|].
  split; [vm_compute; reflexivity|]. split; vm_compute; reflexivity.
Qed.
