(** C49: store-to-load and insert-to-extract forwarding.
    C50: folding of plaintext masks. *)

From Coq Require Import ZArith List Bool Lia Reals.
From Flocq Require Import Core IEEE754.BinarySingleNaN.
From Verif Require Import Words TensorIndex_Model TensorIndex_Proofs Forward_Model Forward_Proofs.
Import ListNotations.
Open Scope Z_scope.

(** Replacing a load by the stored value leaves the whole final state
    unchanged, for every program around it, provided that between the two no
    other name writes the same location, no operation without regions has
    unknown effects, and the stored value is not redefined (SSA). *)
Theorem C49_forward_store_partial : forall V buf ix (p1 p2 mid p' : list (instr V))
    v m idx dst m' idx' st,
  forward p1 v m idx mid dst m' idx' p2 = Some p' ->
  (forall i, In i mid -> ~ defines i v) ->
  (forall i, In i mid -> ~ hidden_write buf ix m idx i) ->
  exec buf ix p' st = exec buf ix (p1 ++ Store v m idx :: mid ++ Load dst m' idx' :: p2) st.
Proof. intros. eapply forward_ok; eassumption. Qed.
Print Assumptions C49_forward_store_partial.

(** Erasing a store that is overwritten gives the same data values and the same
    memory right after the second store (hence also afterwards), provided that
    in between no other name reads the location and no operation without
    regions has unknown effects. *)
Theorem C49_remove_store_partial : forall V buf ix (p1 p2 mid p' : list (instr V))
    v m idx v' m' idx' st,
  remove_store p1 v m idx mid v' m' idx' p2 = Some p' ->
  (forall i, In i mid -> ~ hidden_read buf ix m idx i) ->
  exists q, p' = p1 ++ q ++ p2 /\
  let st1 := exec buf ix (p1 ++ q) st in
  let st2 := exec buf ix (p1 ++ Store v m idx :: mid ++ [Store v' m' idx']) st in
  snd st1 = snd st2 /\ forall b i, fst st1 b i = fst st2 b i.
Proof. intros. eapply remove_store_ok; eassumption. Qed.
Print Assumptions C49_remove_store_partial.

(** Without these provisos forwarding changes the value read. The witnesses:
    an index that is a different SSA value with the same run-time value, a
    second memref value for the same buffer, and a call. *)
Definition empty_state : memory Z * data Z := (fun _ _ => 0, fun x => Z.of_nat x).

Theorem C49_dynamic_index_refuted : exists buf ix (mid : list (instr Z)) p',
  (forall i, In i mid -> exists v m idx, i = Store v m idx) /\ (forall a b, buf a = buf b -> a = b) /\
  forward [] 1 0 [0%nat] mid 9 0 [0%nat] [] = Some p' /\
  snd (exec buf ix p' empty_state) 9%nat <>
  snd (exec buf ix (Store 1 0 [0%nat] :: mid ++ [Load 9 0 [0%nat]]) empty_state) 9%nat.
Proof.
  exists (fun m => m), (fun _ => 7), [Store 2 0 [1%nat]]. eexists.
  split; [|split; [|split; [reflexivity|vm_compute; discriminate]]].
  - intros i [<-|[]]. now exists 2%nat, 0%nat, [1%nat].
  - trivial.
Qed.
Print Assumptions C49_dynamic_index_refuted.

Theorem C49_aliased_memref_refuted : exists buf ix (mid : list (instr Z)) p',
  (forall i, In i mid -> exists v m idx, i = Store v m idx) /\ (forall a b, ix a = ix b -> a = b) /\
  forward [] 1 0 [0%nat] mid 9 0 [0%nat] [] = Some p' /\
  snd (exec buf ix p' empty_state) 9%nat <>
  snd (exec buf ix (Store 1 0 [0%nat] :: mid ++ [Load 9 0 [0%nat]]) empty_state) 9%nat.
Proof.
  exists (fun _ => 0%nat), Z.of_nat, [Store 2 1 [0%nat]]. eexists.
  split; [|split; [|split; [reflexivity|vm_compute; discriminate]]].
  - intros i [<-|[]]. now exists 2%nat, 1%nat, [0%nat].
  - intros a b H. lia.
Qed.
Print Assumptions C49_aliased_memref_refuted.

Theorem C49_call_refuted : exists buf ix (f : memory Z -> data Z -> memory Z) p',
  (forall a b, buf a = buf b -> a = b) /\ (forall a b, ix a = ix b -> a = b) /\
  forward [] 1 0 [0%nat] [Effect f] 9 0 [0%nat] [] = Some p' /\
  snd (exec buf ix p' empty_state) 9%nat <>
  snd (exec buf ix [Store 1 0 [0%nat]; Effect f; Load 9 0 [0%nat]] empty_state) 9%nat.
Proof.
  exists (fun m => m), Z.of_nat, (fun _ _ _ _ => 5). eexists.
  split; [trivial|]. split; [intros a b H; lia|].
  split; [reflexivity|vm_compute; discriminate].
Qed.
Print Assumptions C49_call_refuted.

(** Likewise for the erased store: a load through another SSA index. *)
Theorem C49_remove_store_refuted : exists buf ix (mid : list (instr Z)) p',
  (forall i, In i mid -> exists d m idx, i = Load d m idx) /\ (forall a b, buf a = buf b -> a = b) /\
  remove_store [] 1 0 [0%nat] mid 2 0 [0%nat] [] = Some p' /\
  snd (exec buf ix p' empty_state) 9%nat <>
  snd (exec buf ix (Store 1 0 [0%nat] :: mid ++ [Store 2 0 [0%nat]]) empty_state) 9%nat.
Proof.
  exists (fun m => m), (fun _ => 7), [Load 9 0 [1%nat]]. eexists.
  split; [|split; [|split; [reflexivity|vm_compute; discriminate]]].
  - intros i [<-|[]]. now exists 9%nat, 0%nat, [1%nat].
  - trivial.
Qed.
Print Assumptions C49_remove_store_refuted.

(** An extract answered by the search has the value of the tensor element, if
    the index is in bounds, the tensor has fewer than 2^31 elements, and
    insertions whose index has the same run-time value are recognised (for
    instance because all indices are constants). *)
Theorem C49_forward_insert_partial : forall V ix (sc : nat -> V) shape t idx r,
  num_elements shape < 2147483648 ->
  in_bounds shape (map (ofr_value ix) idx) ->
  (forall i, In i (insert_indices t) ->
     map (ofr_value ix) i = map (ofr_value ix) idx -> ofrs_eqb i idx = true) ->
  value_at shape t idx = Some r ->
  element ix sc shape t (map (ofr_value ix) idx) = Some (result_value sc r).
Proof. intros. eapply value_at_ok; eassumption. Qed.
Print Assumptions C49_forward_insert_partial.

Lemma const_ofrs_eqb ix : forall a b,
  (forall o, In o (a ++ b) -> exists z, o = OConst z) ->
  map (ofr_value ix) a = map (ofr_value ix) b -> ofrs_eqb a b = true.
Proof.
  induction a as [|x a IH]; intros [|y b] H E; try discriminate; [reflexivity|].
  destruct (H x (or_introl eq_refl)) as [z ->].
  destruct (H y) as [z' ->]; [right; apply in_or_app; right; now left|].
  injection E as -> E. cbn. rewrite Z.eqb_refl. apply IH; [|exact E].
  intros o Ho. apply H. right. apply in_app_or in Ho. apply in_or_app.
  destruct Ho; [now left|right; now right].
Qed.

Theorem C49_forward_insert_constant_indices : forall V ix (sc : nat -> V) shape t idx r,
  num_elements shape < 2147483648 ->
  in_bounds shape (map (ofr_value ix) idx) ->
  (forall i o, In i (idx :: insert_indices t) -> In o i -> exists z, o = OConst z) ->
  value_at shape t idx = Some r ->
  element ix sc shape t (map (ofr_value ix) idx) = Some (result_value sc r).
Proof.
  intros V ix sc shape t idx r Hn Hb Hc Hv. apply (value_at_ok ix sc shape t idx r Hn Hb); [|exact Hv].
  intros i Hi E. apply (const_ofrs_eqb ix); [|exact E].
  intros o Ho. apply in_app_or in Ho. destruct Ho as [Ho|Ho].
  - apply (Hc i); [now right|exact Ho].
  - apply (Hc idx); [now left|exact Ho].
Qed.
Print Assumptions C49_forward_insert_constant_indices.

(** A dynamic index that equals another at run time is skipped. *)
Theorem C49_insert_dynamic_refuted : exists ix (sc : nat -> Z) shape t idx r,
  in_bounds shape (map (ofr_value ix) idx) /\
  value_at shape t idx = Some r /\
  element ix sc shape t (map (ofr_value ix) idx) <> Some (result_value sc r).
Proof.
  exists (fun _ => 3), Z.of_nat, [8],
    (TInsert 1 (TInsert 2 (TSplat 0) [OConst 3]) [OVal 0]), [OConst 3].
  eexists. split; [constructor; [cbn; lia|constructor]|]. split; [reflexivity|]. vm_compute. discriminate.
Qed.
Print Assumptions C49_insert_dynamic_refuted.

Example C49_nonvacuous :
  (* a store, other accesses, then a load that is forwarded *)
  let mid := [Store 2 0 [1%nat]; Load 5 0 [1%nat]; Compute 6 (fun d => d 5%nat + 1)] in
  (exists p', forward [] 1 0 [0%nat] mid 9 0 [0%nat] [Store 9 1 [0%nat]] = Some p') /\
  (forall i, In i mid -> ~ defines (V := Z) i 1) /\
  (forall i, In i mid -> ~ hidden_write (V := Z) (fun m => m) Z.of_nat 0 [0%nat] i) /\
  (exists p', remove_store [] 1 0 [0%nat] mid 3 0 [0%nat] [] = Some p') /\
  (forall i, In i mid -> ~ hidden_read (V := Z) (fun m => m) Z.of_nat 0 [0%nat] i) /\
  (* an extract found below two insertions *)
  value_at [2; 2] (TInsert 1 (TInsert 2 (TDense [10; 11; 12; 13]) [OConst 0; OConst 1])
                    [OConst 1; OConst 1]) [OConst 1; OConst 0] = Some (RAttr 12).
Proof.
  cbv zeta. split; [eexists; reflexivity|].
  split. { intros i [<-|[<-|[<-|[]]]]; cbn; lia. }
  split. { intros i [<-|[<-|[<-|[]]]]; cbn; try tauto. intros [_ H]. discriminate H. }
  split; [eexists; reflexivity|].
  split. { intros i [<-|[<-|[<-|[]]]]; cbn; try tauto. intros [_ H]. discriminate H. }
  reflexivity.
Qed.

(** * C50 *)

(** Each of the six patterns keeps the value, for integers of every width,
    every accepted pair of constant masks and every value. *)
Theorem C50_fold_masks : forall w e k t t', 0 < w ->
  fold_masks k t = Some t' -> meval w e t' = meval w e t.
Proof. exact fold_masks_ok. Qed.
Print Assumptions C50_fold_masks.

(** Each of them fires on the constants 0 and 1 and only on those. *)
Theorem C50_fires_on_masks : forall v m1 m2,
  (Forall (fun x => x = 0 \/ x = 1) m1 /\ Forall (fun x => x = 0 \/ x = 1) m2 <->
   fold_masks 0 (MMul (MConst m1) (MMul (MConst m2) v)) <> None) /\
  forall k t t', fold_masks k t = Some t' ->
    exists u m, t' = MMul u (MConst m) /\ Forall (fun x => x = 0 \/ x = 1) m.
Proof.
  assert (Hm : forall m, is_mask m = true <-> Forall (fun x => x = 0 \/ x = 1) m).
  { intros m. unfold is_mask. rewrite forallb_forall, Forall_forall.
    split; intros H x Hx; specialize (H x Hx).
    - apply orb_prop in H. rewrite !Z.eqb_eq in H. exact H.
    - apply orb_true_intro. rewrite !Z.eqb_eq. exact H. }
  intros v m1 m2. split.
  - rewrite <- !Hm. cbn. unfold merge, mask_of.
    destruct (is_mask m1), (is_mask m2); split; try tauto; try discriminate;
      try (intros [? ?]; discriminate); intros H; now elim H.
  - assert (Hg : forall v x y t', merge v x y = Some t' ->
      exists u m, t' = MMul u (MConst m) /\ Forall (fun x => x = 0 \/ x = 1) m).
    { intros v' x y t' H. unfold merge, mask_of in H.
      destruct x as [a| |]; try discriminate. destruct (is_mask a) eqn:Ea; [|discriminate].
      destruct y as [b| |]; try discriminate. destruct (is_mask b) eqn:Eb; [|discriminate].
      injection H as <-. exists v', (intersect a b). split; [reflexivity|].
      apply Hm in Ea, Eb. revert b Eb. induction Ea as [|x a Hx Ha IH]; intros [|y b] Eb; cbn; constructor.
      - inversion Eb as [|? ? Hy ?]. destruct Hx as [->| ->], Hy as [->| ->]; cbn; auto.
      - apply IH. now inversion Eb. }
    intros k t t' H.
    destruct k as [|[|[|[|[|[|k]]]]]]; destruct t as [m|x|a b]; try discriminate H; cbn in H.
    1-3: destruct b as [m|x|b c]; try discriminate H; eapply Hg; eassumption.
    1-3: destruct a as [m|x|a c]; try discriminate H; eapply Hg; eassumption.
Qed.
Print Assumptions C50_fires_on_masks.

(** The same on floats, elementwise: every precision, rounding mode and value
    including infinities and NaN; only the sign of a zero may differ. *)
Theorem C50_float_masks : forall prec emax (Hp : Prec_gt_0 prec) (He : Prec_lt_emax prec emax)
    (md : mode) k (m1 m2 v r : binary_float prec emax), (k < 6)%nat ->
  float_after prec emax md m1 m2 v = Some r ->
  same_float prec emax r (float_before prec emax md k m1 m2 v).
Proof. intros. now apply float_fold_ok. Qed.
Print Assumptions C50_float_masks.

Example C50_nonvacuous :
  fold_masks 3 (MMul (MMul (MConst [1; 0; 1; 1]) (MVar 0)) (MConst [1; 1; 0; 1]))
    = Some (MMul (MVar 0) (MConst [1; 0; 0; 1])) /\
  (exists r, float_after 24 128 (Hp := eq_refl) (He := eq_refl) mode_NE
     (B754_zero true) (B754_zero false) B754_nan = Some r).
Proof. split; [reflexivity|eexists; reflexivity]. Qed.
