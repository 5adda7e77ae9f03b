(** C88: relations for slices and padding, and forward-insert-slice-to-extract-slice. *)
From Coq Require Import List Bool ZArith Lia.
From Verif Require Import Slice_Spec Slice_Model Slice_Proofs.
Import ListNotations.
Local Open Scope Z_scope.

(** getSliceInsertionRelation relates every index of the slice to the element it refers to, and nothing else, exactly if the
    shape of the slice has dimensions of size 1 at the end only. *)
Theorem C88_insertion_exact large offsets sizes strides shape : valid_slice large offsets sizes strides shape ->
  ((forall d r, insertion_relation shape large offsets sizes strides d r = true <->
                in_bounds shape d /\ r = slice_position offsets sizes strides shape d)
   <-> compact shape).
Proof.
  intro V. split.
  - intro H. eapply insertion_needs_compact; eauto. intros d Hd. apply H. auto.
  - intros C d r. apply insertion_ok; auto.
Qed.
Print Assumptions C88_insertion_exact.

Theorem C88_extraction_partial large offsets sizes strides shape d r : valid_slice large offsets sizes strides shape -> compact shape ->
  (extraction_relation large shape offsets sizes strides d r = true <-> in_bounds shape r /\ d = slice_position offsets sizes strides shape r).
Proof. apply extraction_ok. Qed.
Print Assumptions C88_extraction_partial.

Lemma valid_2d m n o1 o2 a b s1 s2 shape : 1 <= a -> 1 <= b -> 0 < s1 -> 0 < s2 -> 0 <= o1 -> 0 <= o2 -> o1 + (a - 1) * s1 < m -> o2 + (b - 1) * s2 < n ->
  non_unit [a; b] [a; b] = non_unit shape shape -> valid_slice [m; n] [o1; o2] [a; b] [s1; s2] shape.
Proof.
  intros. constructor; auto.
  - intros x [<-|[<-|[]]]; auto.
  - intros x [<-|[<-|[]]]; lia.
  - intros c Hc. inversion Hc as [|? x ? c1 Hx Hc1]; subst. inversion Hc1 as [|? y ? c2 Hy Hc2]; subst. inversion Hc2; subst. cbn [strided].
    repeat constructor; nia.
Qed.
Example C88_nonvacuous :
  valid_slice [5; 9] [3; 1] [1; 4] [1; 2] [4] /\ compact [4] /\ slice_position [3; 1] [1; 4] [1; 2] [4] [2] = [3; 5] /\
  insertion_relation [4] [5; 9] [3; 1] [1; 4] [1; 2] [2] [3; 5] = true /\ extraction_relation [5; 9] [4] [3; 1] [1; 4] [1; 2] [3; 5] [2] = true.
Proof.
  split; [apply valid_2d; try lia; reflexivity|]. split; [exists 0%nat; reflexivity|]. repeat split.
Qed.

(** A row that keeps its dimension of size 1: only its first element is related. *)
Theorem C88_unit_dimension_refuted : exists large offsets sizes strides shape d,
  valid_slice large offsets sizes strides shape /\ in_bounds shape d /\
  insertion_relation shape large offsets sizes strides d (slice_position offsets sizes strides shape d) = false /\
  extraction_relation large shape offsets sizes strides (slice_position offsets sizes strides shape d) d = false.
Proof.
  exists [2; 4], [0; 0], [1; 4], [1; 1], [1; 4], [0; 3]. split; [apply valid_2d; try lia; reflexivity|]. split; [repeat constructor; lia|].
  split; reflexivity.
Qed.
Print Assumptions C88_unit_dimension_refuted.

(** getPaddingRelation relates an index of the padded tensor to that of the element it holds. *)
Theorem C88_padding padded unpadded low p u : length padded = length low -> length unpadded = length low ->
  (padding_relation padded unpadded low p u = true <->
   in_bounds padded p /\ in_bounds unpadded u /\ forall i, (i < length low)%nat -> nth i p 0 = nth i u 0 + nth i low 0).
Proof.
  intros H1 H2. unfold padding_relation. rewrite !andb_true_iff, !bounded_spec. split.
  - intros [[Hp Hu] H]. split; [|split]; auto. apply padded_by_spec; auto; [rewrite <- (in_bounds_length _ _ Hp)|rewrite <- (in_bounds_length _ _ Hu)]; auto.
  - intros [Hp [Hu H]]. repeat split; auto. apply padded_by_spec; auto; [rewrite <- (in_bounds_length _ _ Hp)|rewrite <- (in_bounds_length _ _ Hu)]; auto.
Qed.
Print Assumptions C88_padding.
Example C88_padding_nonvacuous : padding_relation [6; 4] [3; 4] [2; 0] [4; 1] [2; 1] = true /\ padding_relation [6; 4] [3; 4] [2; 0] [1; 1] [0; 1] = false.
Proof. split; reflexivity. Qed.

(** shiftVar adds an offset to one variable. *)
Theorem C88_shift relation pos by_ vars vars' : (pos < length vars)%nat -> length vars' = length vars ->
  nth pos vars' 0 = nth pos vars 0 + by_ -> (forall i, i <> pos -> nth i vars' 0 = nth i vars 0) ->
  shift_var relation pos by_ vars' = relation vars.
Proof.
  intros Hp Hl Hx Hrest. unfold shift_var. f_equal. apply nth_ext with (d := 0) (d' := 0); rewrite set_var_length; auto.
  intros i Hi. rewrite set_var_nth by lia. destruct (Nat.eqb_spec i pos) as [->|]; [lia|auto].
Qed.
Print Assumptions C88_shift.
Example C88_shift_nonvacuous : let r := fun v => list_eqb v [3; 5] in shift_var r 1 2 [3; 7] = true /\ shift_var r 1 2 [3; 5] = false.
Proof. split; reflexivity. Qed.

(** The value that forward-insert-slice-to-extract-slice puts in place of an extract_slice is the slice, if all offsets are
    known and all slices have dimensions of size 1 at the end only. *)
Definition usable (large : list Z) (s : slice) : Prop :=
  exists offs, offsets s = map Static offs /\ valid_slice large offs (sizes s) (strides s) (shape s) /\ compact (shape s).
Fixpoint all_usable (large : list Z) (t : tensor_def) : Prop :=
  match t with InsertSlice s _ dest => usable large s /\ all_usable large dest | _ => True end.
Lemma map_static offs operands : map static_value (map Static offs) = offs /\ map (offset_value operands) (map Static offs) = offs.
Proof. split; induction offs as [|o offs IH]; cbn [map static_value offset_value]; f_equal; auto. Qed.
Theorem C88_forward_partial large operands extract t value : usable large extract -> all_usable large t ->
  value_at_slice large extract t = Some value -> forall idx, in_bounds (shape extract) idx ->
  value idx = extract_slice (map (offset_value operands) (offsets extract)) (sizes extract) (strides extract) (shape extract) (tensor_value operands t) idx.
Proof.
  intros [offs [Eo [V C]]] Ht Hv idx Hidx. unfold extract_slice. rewrite Eo, (proj2 (map_static offs operands)).
  induction t as [|t|s source dest IH]; cbn [value_at_slice all_usable tensor_value] in *.
  - injection Hv as <-. reflexivity.
  - discriminate Hv.
  - destruct Ht as [[offs' [Eo' [V' C']]] Ht]. rewrite Eo', (proj2 (map_static offs' operands)).
    destruct (list_eqb (shape s) (shape extract) && same_slice s extract) eqn:Es.
    + injection Hv as <-. apply andb_true_iff in Es as [E1 Es]. apply list_eqb_spec in E1. unfold same_slice in Es.
      apply andb_true_iff in Es as [Es E4]. apply andb_true_iff in Es as [E2 E3]. apply offsets_eqb_spec in E2. apply list_eqb_spec in E3, E4.
      assert (offs' = offs).
      { rewrite Eo, Eo' in E2. apply (f_equal (map static_value)) in E2. rewrite !(proj1 (map_static _ operands)) in E2. auto. }
      subst offs'. rewrite E1, E3, E4. symmetry. eapply insert_same; eauto.
    + destruct (disjoint large s extract) eqn:Ed; [|discriminate Hv]. rewrite (IH Ht Hv). symmetry. apply insert_other. intros j Hj.
      pose proof (disjoint_spec large s extract) as D. rewrite Eo, Eo', !(proj1 (map_static _ operands)) in D. apply D; auto.
Qed.
Print Assumptions C88_forward_partial.
Example C88_forward_nonvacuous :
  let a := {| offsets := [Static 0; Static 0]; sizes := [2; 2]; strides := [1; 1]; shape := [2; 2] |} in
  let b := {| offsets := [Static 2; Static 1]; sizes := [2; 2]; strides := [1; 2]; shape := [2; 2] |} in
  let src := fun idx => Some (nth 0 idx 0 * 10 + nth 1 idx 0) in
  usable [4; 4] a /\ usable [4; 4] b /\
  option_map (fun v => v [1; 1]) (value_at_slice [4; 4] a (InsertSlice b (fun _ => Some 7) (InsertSlice a src Empty))) = Some (Some 11).
Proof.
  split; [exists [0; 0]|split; [exists [2; 1]|reflexivity]]; (split; [reflexivity|split; [apply valid_2d; try lia; reflexivity|exists 0%nat; reflexivity]]).
Qed.

(** An insertion at an offset that is only known at run time is taken to be disjoint from every slice. *)
Theorem C88_dynamic_offset_refuted : exists large operands extract t value idx,
  value_at_slice large extract t = Some value /\ in_bounds (shape extract) idx /\
  value idx <> extract_slice (map (offset_value operands) (offsets extract)) (sizes extract) (strides extract) (shape extract) (tensor_value operands t) idx.
Proof.
  exists [4], (fun _ => 2), {| offsets := [Static 2]; sizes := [2]; strides := [1]; shape := [2] |},
    (InsertSlice {| offsets := [Dynamic 0]; sizes := [2]; strides := [1]; shape := [2] |} (fun _ => Some 7)
      (InsertSlice {| offsets := [Static 2]; sizes := [2]; strides := [1]; shape := [2] |} (fun _ => Some 5) Empty)).
  eexists. exists [0]. split; [reflexivity|]. split; [repeat constructor; lia|]. vm_compute. discriminate.
Qed.
Print Assumptions C88_dynamic_offset_refuted.

(** Parts of the same row with a dimension of size 1 in front are taken to be disjoint although they overlap. *)
Theorem C88_overlapping_rows_refuted : exists large extract t value idx,
  valid_slice large (map static_value (offsets extract)) (sizes extract) (strides extract) (shape extract) /\
  value_at_slice large extract t = Some value /\ in_bounds (shape extract) idx /\
  value idx <> extract_slice (map (offset_value (fun _ => 0)) (offsets extract)) (sizes extract) (strides extract) (shape extract) (tensor_value (fun _ => 0) t) idx.
Proof.
  exists [2; 8], {| offsets := [Static 0; Static 2]; sizes := [1; 4]; strides := [1; 1]; shape := [1; 4] |},
    (InsertSlice {| offsets := [Static 0; Static 0]; sizes := [1; 4]; strides := [1; 1]; shape := [1; 4] |} (fun _ => Some 7) Empty).
  eexists. exists [0; 1]. split; [change (valid_slice [2; 8] [0; 2] [1; 4] [1; 1] [1; 4]); apply valid_2d; try lia; reflexivity|]. split; [reflexivity|]. split; [repeat constructor; lia|]. vm_compute. discriminate.
Qed.
Print Assumptions C88_overlapping_rows_refuted.
