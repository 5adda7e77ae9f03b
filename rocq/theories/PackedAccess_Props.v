(** C89: elements and slices of packed tensors. *)
From Coq Require Import List Bool ZArith Lia.
From Verif Require Import Slice_Spec Slice_Model Slice_Proofs PackedAccess_Spec PackedAccess_Model PackedAccess_Proofs.
Import ListNotations.
Local Open Scope Z_scope.

(** A matrix with one row per ciphertext. *)
Definition row_layout : layout := fun idx p => match idx with [i; j] => point_eqb p (i, j) | _ => false end.
Definition row_data : data := fun idx => match idx with [i; j] => 10 * i + j | _ => 0 end.
Definition row_packed : packed := fun p => 10 * fst p + snd p.
Lemma row_ok : packs [2; 4] row_layout row_data row_packed /\ unambiguous [2; 4] row_layout /\ covers [2; 4] row_layout.
Proof.
  repeat split.
  - intros [|i [|j [|]]] p Hi Hp; try discriminate Hp. apply point_eqb_spec in Hp as ->. reflexivity.
  - intros [|i [|j [|]]] [|i' [|j' [|]]] p _ _ H1 H2; try discriminate H1; try discriminate H2. apply point_eqb_spec in H1. apply point_eqb_spec in H2. congruence.
  - intros i Hi. inversion Hi as [|? a ? b Ha Hb]; subst. inversion Hb as [|? c ? e Hc He]; subst. inversion He; subst. exists (a, c). apply point_eqb_spec. auto.
Qed.
(** A remap that can be computed for this layout. *)
Definition points : list point := flat_map (fun c => map (fun s => (c, s)) [0; 1; 2; 3]) [0; 1].

(** *** tensor.extract: the result holds the element at every point of its layout, whichever point of the index was picked. *)
Theorem C89_extract : forall shape L d ct idx target result output,
  packs shape L d ct -> in_bounds shape idx -> L idx target = true ->
  remaps (conversion [] (extracted_layout L idx target) result) (extract_masked target ct) output ->
  forall q, result [] q = true -> output q = d idx.
Proof.
  intros shape L d ct idx target result output P Hi Ht R q Hq. pose proof (extract_ok shape L d ct idx target result output P Hi Ht R) as H.
  apply (H [] q); auto. constructor.
Qed.
Print Assumptions C89_extract.
Example C89_extract_nonvacuous : packs [2; 4] row_layout row_data row_packed /\ in_bounds [2; 4] [1; 2] /\ row_layout [1; 2] (1, 2) = true /\
  remaps (conversion [] (extracted_layout row_layout [1; 2] (1, 2)) scalar_layout) (extract_masked (1, 2) row_packed) (fun q => if point_eqb q (0, 0) then 12 else 0).
Proof.
  split; [apply row_ok|]. split; [repeat constructor; lia|]. split; [reflexivity|]. intro q. destruct (point_eqb q (0, 0)) eqn:E.
  - left. exists (1, 2). apply point_eqb_spec in E as ->. split; reflexivity.
  - right. split; auto. intro p. unfold conversion. cbn [indices existsb]. unfold scalar_layout. rewrite E, andb_false_r. auto.
Qed.

(** *** tensor.insert: cleartext scalars and secret scalars that fill the points of the destination. *)
Theorem C89_insert_cleartext : forall shape L d dest idx v,
  unambiguous shape L -> packs shape L d dest -> in_bounds shape idx ->
  packs shape L (insert_element idx v d) (insert_cleartext L idx v dest).
Proof.
  intros shape L d dest idx v U P Hi. eapply insert_ok; eauto. intro p. unfold insert_cleartext, scalar_mask, dest_mask, points_of. destruct (L idx p); lia.
Qed.
Print Assumptions C89_insert_cleartext.
Theorem C89_insert_secret : forall shape L d dest idx v scalar scalar_rel,
  unambiguous shape L -> packs shape L d dest -> in_bounds shape idx -> packs [] scalar_rel (fun _ => v) scalar ->
  (forall p, scalar_rel [] p = true <-> exists i, in_bounds shape i /\ L i p = true) ->
  packs shape L (insert_element idx v d) (insert_secret L idx scalar dest).
Proof.
  intros shape L d dest idx v scalar rel U P Hi Ps Hr i p Hb Hp.
  assert (Hv : scalar p = v) by (apply (Ps [] p); [constructor|]; apply Hr; eauto).
  replace (insert_secret L idx scalar dest p) with (if L idx p then v else dest p).
  - pose proof (insert_ok shape L d dest idx v (fun p => if L idx p then v else dest p) U P Hi (fun p => eq_refl)) as H. apply H; auto.
  - unfold insert_secret, scalar_mask, dest_mask, points_of. destruct (L idx p); lia.
Qed.
Print Assumptions C89_insert_secret.
(** The masks for operands as indices are those for known indices. *)
Theorem C89_insert_dynamic : forall shape L idx value p,
  in_bounds shape idx ->
  fst (dynamic_masks shape L idx value) p = (if L idx p then value else 0) /\ snd (dynamic_masks shape L idx value) p = (if L idx p then 0 else 1) /\
  scalar_mask L idx value p = (if L idx p then value else 0) /\ dest_mask L idx p = (if L idx p then 0 else 1).
Proof. intros shape L idx value p Hi. cbn [dynamic_masks fst snd]. rewrite dynamic_mask_eq; auto. Qed.
Print Assumptions C89_insert_dynamic.
Example C89_insert_nonvacuous : unambiguous [2; 4] row_layout /\ packs [2; 4] row_layout row_data row_packed /\ in_bounds [2; 4] [1; 2] /\
  (forall p, existsb (point_eqb p) points = true <-> exists i, in_bounds [2; 4] i /\ row_layout i p = true) /\
  map (insert_cleartext row_layout [1; 2] 99 row_packed) points = [0; 1; 2; 3; 10; 11; 99; 13].
Proof.
  split; [apply row_ok|]. split; [apply row_ok|]. split; [repeat constructor; lia|]. split; [|reflexivity].
  intro p. rewrite <- exists_index. cbn -[point_eqb]. reflexivity.
Qed.

(** *** tensor.extract_slice: the remap packs the slice by any layout for it that does not use a point twice.
    Missing: dimensions of size 1 before others. *)
Theorem C89_extract_slice_partial : forall large offsets sizes strides shape source result d input output,
  valid_slice large offsets sizes strides shape -> compact shape ->
  covers large source -> unambiguous shape result -> packs large source d input ->
  remaps (slice_mapping large shape offsets sizes strides source result) input output ->
  packs shape result (fun idx => d (slice_position offsets sizes strides shape idx)) output.
Proof. intros. eapply extract_slice_ok; eauto. Qed.
Print Assumptions C89_extract_slice_partial.
(** The layout given to the slice meets the conditions, and it describes the unchanged ciphertexts from the lower bound on. *)
Theorem C89_slice_layout_partial : forall large offsets sizes strides shape L lower d ct,
  valid_slice large offsets sizes strides shape -> compact shape -> covers large L -> unambiguous large L -> packs large L d ct ->
  let result := slice_layout large shape offsets sizes strides L lower in
  covers shape result /\ unambiguous shape result /\
  packs shape result (fun idx => d (slice_position offsets sizes strides shape idx)) (fun p => ct (fst p + lower, snd p)).
Proof.
  intros large offsets sizes strides shape L lower d ct V C Cv U P result. split; [apply slice_layout_covers; auto|].
  split; [apply slice_layout_unambiguous; auto|]. intros idx p Hi Hp. apply slice_layout_spec in Hp as [_ Hp]; auto. apply P; auto. eapply position_bounds; eauto.
Qed.
Print Assumptions C89_slice_layout_partial.
Lemma row_slice : valid_slice [2; 4] [1; 0] [1; 4] [1; 1] [4].
Proof.
  split; auto.
  - intros n [<-|[<-|[]]]; lia.
  - intros n [<-|[<-|[]]]; lia.
  - intros c H. inversion H as [|? a ? b Ha Hb]; subst. inversion Hb as [|? e ? g He Hg]; subst. inversion Hg; subst. cbn [strided]. constructor; [lia|]. constructor; [lia|]. constructor.
Qed.
Definition vector_layout : layout := fun idx p => match idx with [j] => point_eqb p (0, j) | _ => false end.
Lemma vector_unambiguous n : unambiguous [n] vector_layout.
Proof. intros [|i [|]] [|j [|]] p _ _ H1 H2; try discriminate H1; try discriminate H2. apply point_eqb_spec in H1. apply point_eqb_spec in H2. congruence. Qed.
Example C89_extract_slice_nonvacuous :
  valid_slice [2; 4] [1; 0] [1; 4] [1; 1] [4] /\ compact [4] /\ covers [2; 4] row_layout /\ unambiguous [4] vector_layout /\
  packs [2; 4] row_layout row_data row_packed /\
  (forall idx p, in_bounds [4] idx -> slice_layout [2; 4] [4] [1; 0] [1; 4] [1; 1] row_layout 1 idx p = vector_layout idx p) /\
  remaps (slice_mapping [2; 4] [4] [1; 0] [1; 4] [1; 1] row_layout vector_layout) row_packed
    (fun q => if existsb (fun j => vector_layout j q) (indices [4]) then 10 + snd q else 0).
Proof.
  split; [apply row_slice|]. split; [exists 0%nat; reflexivity|]. split; [apply row_ok|]. split; [apply vector_unambiguous|]. split; [apply row_ok|].
  assert (Hc : compact [4]) by (exists 0%nat; reflexivity). split.
  - intros idx p Hi. apply eq_true_iff_eq. rewrite (slice_layout_spec _ _ _ _ _ row_slice Hc). inversion Hi as [|? a ? b Ha Hb]; subst. inversion Hb; subst.
    cbn. unfold point_eqb. cbn [fst snd]. rewrite !andb_true_iff, !Z.eqb_eq. intuition lia.
  - intro q. destruct (existsb _ _) eqn:E.
    + left. apply exists_index in E as [j [Hj Hq]]. exists (1, snd q). split; [|reflexivity]. apply (slice_mapping_spec _ _ _ _ _ row_slice Hc). exists j. split; auto. split; auto.
      inversion Hj as [|? a ? b Ha Hb]; subst. inversion Hb; subst. cbn in Hq. apply point_eqb_spec in Hq as ->. cbn. rewrite Z.mul_1_r. unfold point_eqb. cbn [fst snd].
      rewrite !Z.eqb_refl. reflexivity.
    + right. split; auto. intro p. destruct (slice_mapping _ _ _ _ _ _ _ p q) eqn:Em; auto. apply (slice_mapping_spec _ _ _ _ _ row_slice Hc) in Em as [j [Hj [_ Hq]]].
      rewrite exists_index_false in E. rewrite (E j Hj) in Hq. discriminate Hq.
Qed.

(** A row kept as a matrix of one row: all its points get the first element. *)
Theorem C89_row_refuted : exists large offsets sizes strides shape source result d input,
  valid_slice large offsets sizes strides shape /\ covers large source /\ unambiguous large source /\ unambiguous shape result /\ covers shape result /\
  packs large source d input /\
  forall output, remaps (slice_mapping large shape offsets sizes strides source result) input output ->
  ~ packs shape result (fun idx => d (slice_position offsets sizes strides shape idx)) output.
Proof.
  exists [2; 4], [1; 0], [1; 4], [1; 1], [1; 4], row_layout, row_layout, row_data, row_packed.
  split; [destruct row_slice; split; auto|]. split; [apply row_ok|]. split; [apply row_ok|].
  split; [intros i j p Hi Hj H1 H2|]. { destruct i as [|i [|j' [|]]]; try discriminate H1. destruct j as [|a [|b [|]]]; try discriminate H2. apply point_eqb_spec in H1. apply point_eqb_spec in H2. congruence. }
  split; [intros i Hi|]. { inversion Hi as [|? a ? b Ha Hb]; subst. inversion Hb as [|? c ? e Hc He]; subst. inversion He; subst. exists (a, c). apply point_eqb_spec. auto. }
  split; [apply row_ok|]. intros output R H.
  assert (Hb : in_bounds [1; 4] [0; 3]) by (repeat constructor; lia).
  specialize (H [0; 3] (0, 3) Hb eq_refl). cbn in H. destruct (R (0, 3)) as [[p [Hm Ho]]|[Ho _]]; [|lia].
  unfold slice_mapping in Hm. apply exists_index in Hm as [r [Hr Hm]]. apply andb_true_iff in Hm as [Hs Hm]. apply exists_index in Hm as [idx [Hi Hm]].
  apply andb_true_iff in Hm as [Hm Hq]. destruct r as [|a [|b [|]]]; try discriminate Hs. apply point_eqb_spec in Hs as ->.
  destruct idx as [|x [|y [|]]]; try discriminate Hq. apply point_eqb_spec in Hq. injection Hq as <- <-. unfold extraction_relation in Hm.
  apply andb_true_iff in Hm as [_ Hm]. cbn [link nth] in Hm. change (1 <? 1) with false in Hm. change (1 <? 4) with true in Hm. cbn iota in Hm. rewrite !andb_true_iff, !Z.eqb_eq in Hm.
  unfold row_packed in Ho. cbn [fst snd] in Ho. lia.
Qed.
Print Assumptions C89_row_refuted.

(** The layout that is recorded for the lowered slice does not describe it: it is the map between points. *)
Theorem C89_recorded_layout_refuted : exists large offsets sizes strides shape source result d input output,
  valid_slice large offsets sizes strides shape /\ compact shape /\ covers large source /\ unambiguous shape result /\ packs large source d input /\
  remaps (slice_mapping large shape offsets sizes strides source result) input output /\
  packs shape result (fun idx => d (slice_position offsets sizes strides shape idx)) output /\
  ~ packs shape (slice_recorded large shape offsets sizes strides source result) (fun idx => d (slice_position offsets sizes strides shape idx)) output.
Proof.
  assert (V : valid_slice [2; 4] [0; 1] [2; 2] [1; 1] [2; 2]).
  { split; auto.
    - intros n [<-|[<-|[]]]; lia.
    - intros n [<-|[<-|[]]]; lia.
    - intros c H. inversion H as [|? a ? b Ha Hb]; subst. inversion Hb as [|? e ? g He Hg]; subst. inversion Hg; subst. cbn [strided]. constructor; [lia|]. constructor; [lia|]. constructor. }
  assert (C : compact [2; 2]) by (exists 0%nat; reflexivity).
  assert (U : unambiguous [2; 2] row_layout).
  { intros i j p Hi Hj H1 H2. destruct i as [|i [|j' [|]]]; try discriminate H1. destruct j as [|a [|b [|]]]; try discriminate H2. apply point_eqb_spec in H1. apply point_eqb_spec in H2. congruence. }
  assert (R : remaps (slice_mapping [2; 4] [2; 2] [0; 1] [2; 2] [1; 1] row_layout row_layout) row_packed
    (fun q => if existsb (fun i => row_layout i q) (indices [2; 2]) then 10 * fst q + (1 + snd q) else 0)).
  { intro q. destruct (existsb _ _) eqn:E.
    - left. apply exists_index in E as [j [Hj Hq]]. exists (fst q, 1 + snd q). split; [|reflexivity]. apply (slice_mapping_spec _ _ _ _ _ V C). exists j. split; auto. split; auto.
      destruct j as [|a [|b [|]]]; try discriminate Hq. cbn [row_layout] in Hq. apply point_eqb_spec in Hq as ->. cbn. rewrite !Z.mul_1_r. unfold point_eqb. cbn [fst snd].
      rewrite !Z.eqb_refl. reflexivity.
    - right. split; auto. intro p. destruct (slice_mapping _ _ _ _ _ _ _ p q) eqn:Em; auto. apply (slice_mapping_spec _ _ _ _ _ V C) in Em as [j [Hj [_ Hq]]].
      rewrite exists_index_false in E. rewrite (E j Hj) in Hq. discriminate Hq. }
  do 8 eexists. exists row_packed. eexists. split; [exact V|]. split; [exact C|]. split; [apply row_ok|]. split; [exact U|]. split; [apply row_ok|]. split; [exact R|].
  split; [eapply extract_slice_ok; eauto; apply row_ok|].
  intro H. specialize (H [0; 1] (0, 0)). assert (Hb : in_bounds [2; 2] [0; 1]) by (repeat constructor; lia). specialize (H Hb eq_refl). discriminate H.
Qed.
Print Assumptions C89_recorded_layout_refuted.

(** *** tensor.pad with zeros *)
Theorem C89_pad : forall padded unpadded low source result d input output,
  length padded = length low -> length unpadded = length low ->
  covers unpadded source -> unambiguous padded result -> packs unpadded source d input ->
  remaps (pad_mapping padded unpadded low source result) input output -> packs padded result (pad_data unpadded low d) output.
Proof. intros. eapply pad_ok; eauto. Qed.
Print Assumptions C89_pad.
(** The layout given to the padded tensor uses no point twice and describes the unchanged ciphertexts. *)
Theorem C89_pad_layout : forall padded unpadded low L d ct,
  length padded = length low -> length unpadded = length low -> unambiguous unpadded L -> packs unpadded L d ct ->
  unambiguous padded (pad_layout padded unpadded low L) /\ packs padded (pad_layout padded unpadded low L) (pad_data unpadded low d) ct /\
  forall p q, in_bounds padded p -> in_bounds unpadded (sub_low p low) -> pad_layout padded unpadded low L p q = L (sub_low p low) q.
Proof.
  intros padded unpadded low L d ct R1 R2 U P. split; [apply pad_layout_unambiguous; auto|]. split.
  - intros p q Hp Hq. unfold pad_layout in Hq. apply exists_index in Hq as [u [Hu Hq]]. apply andb_true_iff in Hq as [H1 H2]. apply padding_spec in H1 as [_ [_ H1]]; auto.
    unfold pad_data. rewrite <- H1. replace (existsb (list_eqb u) (indices unpadded)) with true; [apply P; auto|]. symmetry. apply exists_index. exists u. split; auto. apply list_eqb_spec. auto.
  - intros p q Hp Hs. unfold pad_layout. destruct (L (sub_low p low) q) eqn:E.
    + apply exists_index. exists (sub_low p low). split; auto. rewrite E, andb_true_r. apply padding_spec; auto.
    + apply exists_index_false. intros u Hu. destruct (padding_relation padded unpadded low p u) eqn:Ep; auto. apply padding_spec in Ep as [_ [_ ->]]; auto.
Qed.
Print Assumptions C89_pad_layout.
Example C89_pad_nonvacuous : covers [2] vector_layout /\ unambiguous [4] vector_layout /\ packs [2] vector_layout (fun i => 7 + hd 0 i) (fun p => 7 + snd p) /\
  map (pad_data [2] [1] (fun i => 7 + hd 0 i)) (indices [4]) = [0; 7; 8; 0] /\
  remaps (pad_mapping [4] [2] [1] vector_layout vector_layout) (fun p => 7 + snd p)
    (fun q => if point_eqb q (0, 1) then 7 else if point_eqb q (0, 2) then 8 else 0).
Proof.
  split. { intros i Hi. inversion Hi as [|? a ? b Ha Hb]; subst. inversion Hb; subst. exists (0, a). apply point_eqb_spec. auto. }
  split; [apply vector_unambiguous|]. split. { intros [|j [|]] p Hi Hp; try discriminate Hp. apply point_eqb_spec in Hp as ->. reflexivity. }
  split; [reflexivity|]. intro q. destruct (point_eqb q (0, 1)) eqn:E1; [apply point_eqb_spec in E1 as ->; left; exists (0, 0); split; reflexivity|].
  destruct (point_eqb q (0, 2)) eqn:E2; [apply point_eqb_spec in E2 as ->; left; exists (0, 1); split; reflexivity|].
  right. split; auto. intro p. apply exists_index_false. intros u Hu. destruct (vector_layout u p) eqn:Ep; auto. cbn [andb]. apply exists_index_false. intros i Hi.
  destruct (padding_relation [4] [2] [1] i u) eqn:Er; auto. apply padding_spec in Er as [_ [_ Er]]; auto.
  destruct i as [|x [|]]; [inversion Hi| |inversion Hi as [|? ? ? ? _ Hi']; inversion Hi']. cbn [sub_low] in Er. subst u.
  assert (Hx : 0 <= x - 1 < 2) by (inversion Hu; auto). cbn [vector_layout]. assert (x = 1 \/ x = 2) as [->| ->] by lia; auto.
Qed.

(** *** tensor.insert_slice with unit strides, whether or not the source is converted first.
    Missing: dimensions of size 1 before others, and slices that lie in several ciphertexts of the destination. *)
Theorem C89_insert_slice_partial : forall large offsets sizes shape L lower from source converted dest src d,
  let strides := repeat 1 (length offsets) in
  let to := insertion_layout large shape offsets sizes strides L lower in
  valid_slice large offsets sizes strides shape -> compact shape -> unambiguous large L ->
  packs large L d dest -> packs shape from src source ->
  (converted = source /\ (forall idx p, in_bounds shape idx -> from idx p = to idx p)) \/
  (covers shape from /\ remaps (conversion shape from to) source converted) ->
  (forall idx p, in_bounds shape idx -> L (slice_position offsets sizes strides shape idx) p = true -> fst p = lower) ->
  packs large L (insert_data offsets sizes strides shape src d) (insert_packed large offsets sizes L converted dest).
Proof.
  intros large offsets sizes shape L lower from source converted dest src d strides to V C U P Ps Hc Hone. eapply insert_slice_ok; eauto. fold strides. fold to.
  destruct Hc as [[-> Hc]|[Cv R]].
  - intros idx p Hi Hp. apply Ps; auto. rewrite Hc; auto.
  - eapply conversion_packs; eauto. apply insertion_layout_unambiguous; auto.
Qed.
Print Assumptions C89_insert_slice_partial.
Example C89_insert_slice_nonvacuous :
  valid_slice [2; 4] [1; 0] [1; 4] (repeat 1 2) [4] /\ compact [4] /\ unambiguous [2; 4] row_layout /\ packs [2; 4] row_layout row_data row_packed /\
  packs [4] vector_layout (fun i => 7 + hd 0 i) (fun p => 7 + snd p) /\
  (forall idx p, in_bounds [4] idx -> vector_layout idx p = insertion_layout [2; 4] [4] [1; 0] [1; 4] (repeat 1 2) row_layout 1 idx p) /\
  (forall idx p, in_bounds [4] idx -> row_layout (slice_position [1; 0] [1; 4] (repeat 1 2) [4] idx) p = true -> fst p = 1) /\
  map (insert_packed [2; 4] [1; 0] [1; 4] row_layout (fun p => 7 + snd p) row_packed) points = [0; 1; 2; 3; 7; 8; 9; 10].
Proof.
  split; [apply row_slice|]. assert (Hc : compact [4]) by (exists 0%nat; reflexivity). split; [exact Hc|]. split; [apply row_ok|]. split; [apply row_ok|].
  split. { intros [|j [|]] p Hi Hp; try discriminate Hp. apply point_eqb_spec in Hp as ->. reflexivity. }
  split; [|split; [|reflexivity]].
  - intros idx p Hi. apply eq_true_iff_eq. rewrite (insertion_layout_spec _ _ _ _ _ row_slice Hc). inversion Hi as [|? a ? b Ha Hb]; subst. inversion Hb; subst.
    cbn. unfold point_eqb. cbn [fst snd]. rewrite !andb_true_iff, !Z.eqb_eq. intuition lia.
  - intros idx p Hi Hp. inversion Hi as [|? a ? b Ha Hb]; subst. inversion Hb; subst. cbn in Hp. apply point_eqb_spec in Hp as ->. reflexivity.
Qed.
