(** Lemmas about the row-major index helpers. *)

From Coq Require Import ZArith List Bool Lia.
From Verif Require Import Loops_Model Loops_Proofs TensorIndex_Model.
Import ListNotations.
Open Scope Z_scope.

(** Number of elements, indices within bounds, and the position of an element
    in row-major order (last index fastest). *)
Fixpoint num_elements (shape : list Z) : Z :=
  match shape with [] => 1 | d :: s => d * num_elements s end.
Definition in_bounds (shape idx : list Z) : Prop :=
  Forall2 (fun d i => 0 <= i < d) shape idx.
Fixpoint row_major (shape idx : list Z) : Z :=
  match shape, idx with
  | d :: s, i :: r => i * num_elements s + row_major s r
  | _, _ => 0
  end.
Definition positive_dims (shape : list Z) : Prop := Forall (fun d => 0 < d) shape.

Lemma num_elements_pos shape : positive_dims shape -> 0 < num_elements shape.
Proof. induction 1; cbn; [lia|]. nia. Qed.

Lemma in_bounds_pos shape idx : in_bounds shape idx -> positive_dims shape.
Proof. induction 1; constructor; [lia|assumption]. Qed.

Lemma row_major_range shape idx :
  in_bounds shape idx -> 0 <= row_major shape idx < num_elements shape.
Proof.
  induction 1 as [|d i s r Hi H IH]; cbn; [lia|].
  generalize (num_elements_pos s (in_bounds_pos s r H)). nia.
Qed.

Lemma num_elements_app s1 s2 : num_elements (s1 ++ s2) = num_elements s1 * num_elements s2.
Proof. induction s1 as [|d s IH]; cbn [app num_elements]; [lia|]. rewrite IH. lia. Qed.

Lemma row_major_snoc s r d i :
  length s = length r ->
  row_major (s ++ [d]) (r ++ [i]) = row_major s r * d + i.
Proof.
  revert r. induction s as [|e s IH]; intros [|j r] H; try discriminate H.
  - cbn. lia.
  - injection H as H. cbn [app row_major]. rewrite IH by assumption.
    rewrite num_elements_app. cbn. lia.
Qed.

Lemma flatten_loop_ok s : forall r flat stride,
  in_bounds (rev s) (rev r) ->
  length s = length r ->
  0 <= flat < stride ->
  stride * num_elements (rev s) < 2147483648 ->
  flatten_loop s r flat stride = Some (flat + stride * row_major (rev s) (rev r)).
Proof.
  induction s as [|d s IH]; intros [|i r] flat stride Hb Hl Hf Hs; try discriminate Hl.
  - cbn. f_equal. lia.
  - injection Hl as Hl. cbn [rev] in *.
    assert (Hb' : in_bounds (rev s) (rev r) /\ 0 <= i < d).
    { apply Forall2_app_inv_l in Hb. destruct Hb as (l1 & l2 & H1 & H2 & E).
      inversion H2 as [|x y l l' Hxy Hnil]; subst. inversion Hnil; subst.
      apply app_inj_tail in E. destruct E as [-> ->]. auto. }
    destruct Hb' as [Hb' Hi].
    rewrite num_elements_app in Hs. cbn [num_elements] in Hs.
    generalize (num_elements_pos _ (in_bounds_pos _ _ Hb')). intros Hp.
    set (E := num_elements (rev s)) in *.
    assert (Hsd : stride * d <= stride * (E * (d * 1))).
    { apply Z.mul_le_mono_nonneg_l; [lia|]. nia. }
    assert (Hid : i * stride <= (d - 1) * stride) by (apply Z.mul_le_mono_nonneg_r; lia).
    assert (H0 : 0 <= i * stride) by (apply Z.mul_nonneg_nonneg; lia).
    cbn [flatten_loop].
    rewrite (to_int32_small (flat + i * stride)) by lia.
    rewrite (to_int32_small (stride * d)) by lia.
    rewrite IH.
    + f_equal. rewrite row_major_snoc by (now rewrite !rev_length). lia.
    + assumption.
    + assumption.
    + lia.
    + fold E. replace (stride * d * E) with (stride * (E * (d * 1))) by lia. lia.
Qed.

Lemma Forall2_len {A B} (P : A -> B -> Prop) l1 l2 : Forall2 P l1 l2 -> length l1 = length l2.
Proof. induction 1; cbn; congruence. Qed.

Lemma flattened_index_ok shape idx :
  in_bounds shape idx -> num_elements shape < 2147483648 ->
  flattened_index shape idx = Some (row_major shape idx).
Proof.
  intros Hb Hn. unfold flattened_index.
  rewrite flatten_loop_ok.
  - rewrite !rev_involutive. f_equal. lia.
  - now rewrite !rev_involutive.
  - rewrite !rev_length. exact (Forall2_len _ _ _ Hb).
  - lia.
  - rewrite rev_involutive. lia.
Qed.

Lemma fold_mul l a : fold_left Z.mul l a = a * num_elements l.
Proof.
  revert a. induction l as [|d l IH]; intros a; cbn [fold_left num_elements]; [lia|].
  rewrite IH. lia.
Qed.

Lemma unflatten_ok shape idx :
  in_bounds shape idx ->
  unflatten_loop shape (num_elements shape) (row_major shape idx) = Some idx.
Proof.
  induction 1 as [|d i s r Hi H IH]; [reflexivity|].
  cbn [unflatten_loop num_elements row_major].
  generalize (num_elements_pos s (in_bounds_pos s r H)). intros Hp.
  generalize (row_major_range s r H). intros Hr.
  destruct (Z.eqb_spec d 0) as [E|E]; [lia|].
  assert (Eq : Z.quot (d * num_elements s) d = num_elements s).
  { rewrite Z.quot_div_nonneg by nia. rewrite Z.mul_comm. now apply Z.div_mul. }
  rewrite Eq.
  destruct (Z.eqb_spec (num_elements s) 0) as [E'|E']; [lia|].
  assert (Eq2 : Z.quot (i * num_elements s + row_major s r) (num_elements s) = i).
  { rewrite Z.quot_div_nonneg by nia. rewrite Z.div_add_l by lia.
    rewrite Z.div_small by lia. lia. }
  rewrite Eq2.
  replace (i * num_elements s + row_major s r - i * num_elements s) with (row_major s r) by lia.
  now rewrite IH.
Qed.

Lemma row_major_surj shape : positive_dims shape ->
  forall k, 0 <= k < num_elements shape ->
  exists idx, in_bounds shape idx /\ row_major shape idx = k.
Proof.
  induction 1 as [|d s Hd Hs IH]; intros k Hk.
  - exists []. cbn in *. split; [constructor|lia].
  - cbn [num_elements] in Hk. generalize (num_elements_pos s Hs). intros Hp.
    destruct (IH (k mod num_elements s)) as (r & Hb & Hr); [apply Z.mod_pos_bound; lia|].
    exists (k / num_elements s :: r). split.
    + constructor; [|assumption]. split; [apply Z.div_pos; lia|].
      apply Z.div_lt_upper_bound; lia.
    + cbn [row_major]. rewrite Hr. rewrite (Z.div_mod k (num_elements s)) at 3 by lia. lia.
Qed.

Lemma row_major_inj shape i j :
  in_bounds shape i -> in_bounds shape j -> row_major shape i = row_major shape j -> i = j.
Proof.
  intros Hi Hj E. generalize (unflatten_ok shape i Hi) (unflatten_ok shape j Hj).
  rewrite E. congruence.
Qed.
