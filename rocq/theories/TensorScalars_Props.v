(** C87: convert-tensor-to-scalars. *)
From Coq Require Import List Bool ZArith Arith Lia.
From Verif Require Import Bits_Spec TensorScalars_Spec TensorScalars_Model TensorScalars_Proofs.
Import ListNotations.

(** A scalar that a program computes is still computed after the pass if the scalars of every tensor argument come in
    column-major order; from_elements, constants and operands of other operations need shapes with one dimension other
    than 1 if they are small enough for the pass. *)
Theorem C87_scalar_results_partial max shapes e s v :
  supported_s max shapes s -> (forall n, small max (shapes n) = true -> column_major (shapes n) (tensors e n) (parts e n)) ->
  eval_s e s = Some v -> exists s', convert_s max s = Some s' /\ eval_s e s' = Some v.
Proof. intros Hs Ha Hv. destruct (convert_ok max shapes e Ha) as [H _]. apply H; auto. Qed.
Print Assumptions C87_scalar_results_partial.

(** A tensor that the program returns comes as scalars in column-major order, or as the same tensor if it is too large. *)
Theorem C87_tensor_results_partial max shapes e t d :
  supported_t max shapes t -> (forall n, small max (shapes n) = true -> column_major (shapes n) (tensors e n) (parts e n)) ->
  eval_t e t = Some d ->
  (small max (shape_of t) = true /\ exists l d', convert_t max t = Some (Parts l) /\ all_some (map (eval_s e) l) = Some d' /\ column_major (shape_of t) d d') \/
  (small max (shape_of t) = false /\ exists t', convert_t max t = Some (Whole t') /\ eval_t e t' = Some d).
Proof.
  intros Ht Ha Hd. destruct (convert_ok max shapes e Ha) as [_ H]. destruct (H t Ht d Hd) as [[l|t'] [Hc G]]; cbn [good] in G.
  - left. destruct G as [G1 [d' [G2 G3]]]. split; auto. exists l, d'. auto.
  - right. destruct G as [G1 [_ G2]]. split; auto. exists t'. auto.
Qed.
Print Assumptions C87_tensor_results_partial.

(** For vectors the order is the one of the tensor. *)
Theorem C87_thin_partial max shapes e t d :
  supported_t max shapes t -> (forall n, thin (shapes n) = true /\ length (tensors e n) = elements (shapes n) /\ parts e n = tensors e n) ->
  small max (shape_of t) = true -> thin (shape_of t) = true -> eval_t e t = Some d ->
  exists l, convert_t max t = Some (Parts l) /\ all_some (map (eval_s e) l) = Some d.
Proof.
  intros Ht Ha Hsm Hth Hd. destruct (C87_tensor_results_partial max shapes e t d Ht) as [[_ [l [d' [H1 [H2 H3]]]]]|[H _]]; auto.
  - intros n _. destruct (Ha n) as [A1 [A2 ->]]. apply thin_column_major; auto.
  - exists l. split; auto. rewrite H2. f_equal. eapply thin_column_eq; eauto. eapply eval_t_length; eauto.
  - congruence.
Qed.
Print Assumptions C87_thin_partial.

Example C87_nonvacuous :
  let e := {| scalars := fun _ => 7%Z; tensors := fun _ => [1; 2; 3; 4; 5; 6]%Z; parts := fun _ => [1; 4; 2; 5; 3; 6]%Z |} in
  let v := TElements [1; 2] [SExtract (TInsert (SVar 0) (TVar 0 [2; 3]) [0; 2]) [0; 2]; SExtract (TVar 0 [2; 3]) [1; 0]] in
  let s := SBin Z.mul (SExtract (TOther (fun l => l ++ l) [2; 2] v) [1; 0]) (SExtract (TOther (fun l => l ++ l) [2; 2] v) [0; 1]) in
  supported_s 8 (fun _ => [2; 3]) s /\ column_major [2; 3] [1; 2; 3; 4; 5; 6]%Z [1; 4; 2; 5; 3; 6]%Z /\
  eval_s e s = Some 28%Z /\ option_map (eval_s e) (convert_s 8 s) = Some (Some 28%Z).
Proof.
  split; [|split; [|split; reflexivity]].
  - cbn. repeat split; auto; try discriminate; intros d [<-|[<-|[]]]; auto.
  - split; [reflexivity|]. intros [|i [|j [|]]] p; cbn [position]; try discriminate.
    + destruct (i <? 2); discriminate.
    + destruct i as [|[|]]; destruct j as [|[|[|]]]; cbn; intro H; try discriminate H; injection H as <-; reflexivity.
    + destruct (i <? 2); [|discriminate]. destruct (j <? 3); discriminate.
Qed.

(** The pass reads constants and from_elements in the other order: with any shape with two dimensions larger than 1 that it
    converts, some element is wrong. *)
Lemma zeros shape : (forall d, In d shape -> 0 < d) -> exists idx, position shape idx = Some 0 /\ column_position shape idx = 0.
Proof.
  induction shape as [|d shape IH]; intro H; [exists []; auto|]. destruct IH as [idx [H1 H2]]; [intros; apply H; right; auto|].
  exists (0 :: idx). cbn [position column_position]. assert (0 < d) by (apply H; left; auto).
  destruct (Nat.ltb_spec 0 d); [|lia]. rewrite H1, H2. cbn. auto.
Qed.
Lemma orders_differ shape : (forall d, In d shape -> 0 < d) -> thin shape = false ->
  exists idx p, position shape idx = Some p /\ column_position shape idx <> p.
Proof.
  unfold thin. induction shape as [|d shape IH]; intros Hpos Ht; cbn [filter] in Ht; [discriminate Ht|].
  assert (Hpos' : forall x, In x shape -> 0 < x) by (intros; apply Hpos; right; auto).
  assert (0 < d) by (apply Hpos; left; auto). destruct (Nat.eqb_spec d 1) as [->|Hd]; cbn [negb] in Ht.
  - destruct (IH Hpos' Ht) as [idx [p [Hp Hc]]]. exists (0 :: idx). eexists. cbn [position]. rewrite Hp. cbn. split; [reflexivity|]. lia.
  - destruct (zeros _ Hpos') as [idx [H1 H2]]. exists (1 :: idx). eexists. cbn [position column_position].
    destruct (Nat.ltb_spec 1 d); [|lia]. rewrite H1, H2. cbn [option_map]. split; [reflexivity|]. fold (elements shape).
    assert (2 <= elements shape); [|lia]. cbn [length] in Ht. apply Nat.leb_gt in Ht. clear -Hpos' Ht.
    induction shape as [|x shape IH]; cbn [filter] in Ht; [cbn in Ht; lia|]. rewrite elements_cons.
    assert (0 < x) by (apply Hpos'; left; auto). assert (Hp : forall y, In y shape -> 0 < y) by (intros; apply Hpos'; right; auto).
    assert (1 <= elements shape) by (clear -Hp; induction shape as [|y s IH]; [cbn; lia|]; rewrite elements_cons;
      assert (0 < y) by (apply Hp; left; auto); assert (1 <= elements s) by (apply IH; intros; apply Hp; right; auto); nia).
    destruct (Nat.eqb_spec x 1) as [->|]; cbn [negb] in Ht; [|nia]. assert (2 <= elements shape) by (apply IH; auto). lia.
Qed.
Theorem C87_constants_refuted max shape : small max shape = true -> (forall d, In d shape -> 0 < d) -> thin shape = false ->
  exists l idx s' v v', length l = elements shape /\ forall e,
    eval_s e (SExtract (TConst shape l) idx) = Some v /\ convert_s max (SExtract (TConst shape l) idx) = Some s' /\ eval_s e s' = Some v' /\ v <> v'.
Proof.
  intros Hs Hpos Ht. destruct (orders_differ _ Hpos Ht) as [idx [p [Hp Hc]]]. pose proof (position_lt _ _ _ Hp). pose proof (column_lt _ _ _ Hp).
  set (l := map Z.of_nat (seq 0 (elements shape))).
  assert (Hl : length l = elements shape) by (unfold l; rewrite map_length, seq_length; auto).
  assert (Hn : forall i, i < elements shape -> nth_error l i = Some (Z.of_nat i)).
  { intros i Hi. unfold l. rewrite nth_error_map, (nth_error_nth' _ 0) by (rewrite seq_length; auto). rewrite seq_nth by auto. reflexivity. }
  exists l, idx, (SConst (Z.of_nat (column_position shape idx))), (Z.of_nat p), (Z.of_nat (column_position shape idx)). split; auto. intro e.
  rewrite convert_extract, convert_const. unfold converts. unfold small in Hs. rewrite Hs. cbn [eval_s eval_t shape_of]. rewrite checked_ok by auto.
  rewrite Hp, offset_spec, nth_error_map, !Hn by auto. repeat split. lia.
Qed.
Print Assumptions C87_constants_refuted.
Example C87_constants_nonvacuous :
  let s := SExtract (TConst [2; 2] [10; 20; 30; 40]%Z) [0; 1] in convert_s 8 s = Some (SConst 30) /\ small 8 [2; 2] = true /\ thin [2; 2] = false.
Proof. vm_compute. auto. Qed.

(** The same with from_elements of a matrix, and with operations that the pass does not convert. *)
Theorem C87_matrix_refuted : exists e s s' v v', eval_s e s = Some v /\ convert_s 8 s = Some s' /\ eval_s e s' = Some v' /\ v <> v' /\
  s = SExtract (TElements [2; 2] [SVar 0; SVar 1; SVar 2; SVar 3]) [0; 1].
Proof.
  exists {| scalars := Z.of_nat; tensors := fun _ => []; parts := fun _ => [] |}, (SExtract (TElements [2; 2] [SVar 0; SVar 1; SVar 2; SVar 3]) [0; 1]). do 3 eexists.
  split; [reflexivity|]. split; [reflexivity|]. split; [reflexivity|]. split; [discriminate|reflexivity].
Qed.
Print Assumptions C87_matrix_refuted.
Theorem C87_other_operation_refuted : exists e s s' v v', column_major [2; 2] (tensors e 0) (parts e 0) /\
  eval_s e s = Some v /\ convert_s 8 s = Some s' /\ eval_s e s' = Some v' /\ v <> v' /\
  s = SExtract (TOther (fun l => l) [2; 2] (TVar 0 [2; 2])) [0; 1].
Proof.
  exists {| scalars := Z.of_nat; tensors := fun _ => [10; 20; 30; 40]%Z; parts := fun _ => [10; 30; 20; 40]%Z |},
    (SExtract (TOther (fun l => l) [2; 2] (TVar 0 [2; 2])) [0; 1]). do 3 eexists.
  split; [|split; [reflexivity|split; [reflexivity|split; [reflexivity|split; [discriminate|reflexivity]]]]].
  split; [reflexivity|]. intros [|i [|j [|]]] p; cbn [position]; try discriminate.
  - destruct (i <? 2); discriminate.
  - destruct i as [|[|]]; destruct j as [|[|]]; cbn; intro H; try discriminate H; injection H as <-; reflexivity.
  - destruct (i <? 2); [|discriminate]. destruct (j <? 2); discriminate.
Qed.
Print Assumptions C87_other_operation_refuted.

(** Results of other operations without dimensions, or with a dimension 0 before another one, are not handled. *)
Theorem C87_degenerate_refuted : exists e f g, eval_t e (TOther f [] (TVar 0 [10])) <> None /\ convert_t 8 (TOther f [] (TVar 0 [10])) = None /\
  eval_t e (TOther g [0; 3] (TVar 0 [10])) <> None /\ convert_t 8 (TOther g [0; 3] (TVar 0 [10])) = None.
Proof.
  exists {| scalars := Z.of_nat; tensors := fun _ => repeat 5%Z 10; parts := fun _ => [] |}, (fun l => firstn 1 l), (fun _ => []).
  vm_compute. repeat split; discriminate.
Qed.
Print Assumptions C87_degenerate_refuted.
