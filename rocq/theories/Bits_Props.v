(** C85: integers and the bits that represent them. *)
From Coq Require Import List Bool ZArith Arith Lia.
From Verif Require Import Bits_Spec Bits_Model Bits_Proofs.
Import ListNotations.

(** The tensor of bits of an integer of at most 32 bits. *)
Theorem C85_integer_bits : forall w v, w <= 32 -> convert_integer w v = Some (bits w v).
Proof. exact convert_integer_ok. Qed.
Print Assumptions C85_integer_bits.

(** The mask is computed on int: for wider integers there is no result. *)
Theorem C85_wide_refuted : exists w v, (0 <= v < 2 ^ Z.of_nat w)%Z /\ convert_integer w v <> Some (bits w v).
Proof. exists 64, 1%Z. split; [vm_compute; intuition discriminate|]. rewrite convert_integer_large by lia. discriminate. Qed.
Print Assumptions C85_wide_refuted.

(** The integer that is made of a tensor of bits: bit j is set if one of the bits up to j is. *)
Theorem C85_tensor_bits : forall w l, length l <= w -> exists r, convert_tensor w l = Some r /\ (0 <= r < 2 ^ Z.of_nat w)%Z /\
  forall j, j < w -> (Z.testbit r (Z.of_nat j) = true <-> exists i, i <= j /\ nth_error l i = Some true).
Proof. exact convert_tensor_ok. Qed.
Print Assumptions C85_tensor_bits.

(** So an integer that is taken apart is not put together again. *)
Theorem C85_roundtrip_refuted : exists w v l, w <= 32 /\ (0 <= v < 2 ^ Z.of_nat w)%Z /\
  convert_integer w v = Some l /\ l = bits w v /\ convert_tensor w l <> Some v.
Proof. exists 8, 1%Z. eexists. split; [lia|]. split; [vm_compute; intuition discriminate|]. split; [vm_compute; reflexivity|]. split; [reflexivity|vm_compute; discriminate]. Qed.
Print Assumptions C85_roundtrip_refuted.

(** secret.conceal of an integer of any width. *)
Theorem C85_conceal : forall w v, encode_element w v = Some (bits w v).
Proof. exact encode_element_ok. Qed.
Print Assumptions C85_conceal.

(** secret.conceal of a vector conceals its first element again and again. *)
Theorem C85_conceal_vector : forall w a data,
  conceal_tensor [S (length data)] w (a :: data) = Some (bit_tensor w (repeat a (S (length data)))).
Proof. intros. rewrite (conceal_vector (S (length data))) by reflexivity. f_equal. unfold bit_tensor. f_equal.
  generalize (S (length data)). induction n as [|n IH]; [reflexivity|]. cbn. rewrite IH. reflexivity. Qed.
Print Assumptions C85_conceal_vector.

Theorem C85_conceal_tensor_refuted :
  (exists shape w data, length data = elements shape /\ exists l, conceal_tensor shape w data = Some l /\ l <> bit_tensor w data) /\
  (exists shape w data, length data = elements shape /\ conceal_tensor shape w data = None).
Proof.
  split.
  - exists [2], 1, [0%Z; 1%Z]. split; [reflexivity|]. eexists. split; [vm_compute; reflexivity|vm_compute; discriminate].
  - exists [2; 3], 1, (repeat 0%Z 6). split; reflexivity.
Qed.
Print Assumptions C85_conceal_tensor_refuted.

(** With the strides, which unflattenIndex is made for, indices are found again. *)
Theorem C85_unflatten : forall shape idx p offset, position shape idx = Some p ->
  flatten_index idx (row_major shape) offset = offset + p /\
  unflatten_index (flatten_index idx (row_major shape) offset) (row_major shape) offset = Some idx.
Proof.
  intros shape idx p offset H. assert (E : flatten_index idx (row_major shape) offset = offset + p) by (apply flatten_fold; exact H).
  split; [exact E|]. rewrite E. unfold unflatten_index. destruct (Nat.ltb_spec (offset + p) offset); [lia|].
  replace (offset + p - offset) with p by lia. apply unflatten_ok. exact H.
Qed.
Print Assumptions C85_unflatten.

(** Reading and writing an element of a secret tensor. *)
Theorem C85_access : forall shape w data idx p v, position shape idx = Some p -> length data = elements shape ->
  (forall u, nth_error data p = Some u -> read shape w (bit_tensor w data) idx = Some (bits w u)) /\
  write shape w (bit_tensor w data) idx (bits w v) = Some (bit_tensor w (firstn p data ++ v :: skipn (S p) data)).
Proof.
  intros shape w data idx p v H Hl. split.
  - intros u Hu. apply read_ok. unfold extract. rewrite H. exact Hu.
  - apply write_ok; [exact H|]. rewrite Hl. apply (position_lt shape idx). exact H.
Qed.
Print Assumptions C85_access.

(** A cast from or to a flat tensor of bits keeps all bits in their order, unless the value is a single bit. *)
Definition number_of_bits (t : type) : nat := match t with Int w => w | Shaped shape w => elements shape * w end.
Definition flat (n : nat) : type := Shaped [n] 1.
Theorem C85_cast : forall t n data, n = number_of_bits t -> t <> Int 1 -> t <> flat n -> (forall w, t <> Shaped [] w) ->
  cast t (flat n) data = Some ([n], data) /\
  exists s, converted_shape t = Some s /\ cast (flat n) t data = Some (s, data).
Proof.
  intros t n data Hn Ht Hf H0.
  assert (E : forall s w, elements (s ++ [w]) = elements s * w).
  { induction s as [|x s IH]; intro w; unfold elements in *; cbn; [lia|]. rewrite IH. lia. }
  assert (En : elements [n] = n) by (unfold elements; cbn; lia).
  destruct t as [w|shape w]; cbn [number_of_bits] in Hn; unfold cast, flat.
  - subst w. cbn [converted_shape]. destruct (Nat.eqb_spec n 1) as [->|W]; [congruence|]. cbn [Nat.eqb]. rewrite Nat.eqb_refl. cbn [negb]. unfold shape_eqb.
    destruct (list_eq_dec Nat.eq_dec [n] [n]); [|congruence]. cbn. split; [reflexivity|]. exists [n]. split; reflexivity.
  - cbn [converted_shape Nat.eqb]. set (s := if w =? 1 then shape else shape ++ [w]).
    assert (Es : elements s = n). { unfold s. destruct (Nat.eqb_spec w 1) as [->|W]; [lia|rewrite Hn; apply E]. }
    assert (D : s <> [n]).
    { unfold s. destruct (Nat.eqb_spec w 1) as [->|W]; [intros ->; apply Hf; reflexivity|].
      destruct shape as [|d [|]]; [exfalso; apply (H0 w); reflexivity| |]; discriminate. }
    rewrite Es, En, Nat.eqb_refl. cbn [negb]. unfold shape_eqb.
    destruct (list_eq_dec Nat.eq_dec s [n]); [congruence|]. destruct (list_eq_dec Nat.eq_dec [n] s); [congruence|]. cbn [length].
    split.
    + destruct (Nat.ltb 1 (length s)); reflexivity.
    + exists s. split; [reflexivity|]. destruct s as [|d [|d' s']]; cbn; reflexivity.
Qed.
Print Assumptions C85_cast.

(** A tensor with a single bit cannot be cast to a bit. *)
Theorem C85_cast_bit_refuted : exists t, number_of_bits t = 1 /\ forall data, cast t (Int 1) data = None /\ cast (Int 1) t data = None.
Proof. exists (flat 1). split; [reflexivity|]. intro data. split; reflexivity. Qed.
Print Assumptions C85_cast_bit_refuted.

(** *** Examples *)
Example C85_nonvacuous :
  convert_integer 4 13 = Some [true; false; true; true] /\ convert_integer 32 (2 ^ 31) = Some (repeat false 31 ++ [true]) /\
  convert_tensor 4 [false; true; false; false] = Some 14%Z /\ encode_element 64 5 = Some (true :: false :: true :: repeat false 61).
Proof. vm_compute. auto. Qed.
Example C85_conceal_nonvacuous : conceal_tensor [3] 2 [1; 2; 3]%Z = Some [true; false; true; false; true; false].
Proof. reflexivity. Qed.
Example C85_access_nonvacuous :
  position [2; 3] [1; 2] = Some 5 /\ unflatten_index (7 + 5) (row_major [2; 3]) 7 = Some [1; 2] /\
  read [2; 3] 2 (bit_tensor 2 [0; 1; 2; 3; 0; 2]%Z) [1; 2] = Some [false; true] /\
  write [2; 3] 2 (bit_tensor 2 [0; 1; 2; 3; 0; 2]%Z) [1; 0] (bits 2 1) = Some (bit_tensor 2 [0; 1; 2; 1; 0; 2]%Z).
Proof. vm_compute. auto. Qed.
Example C85_cast_nonvacuous :
  cast (Shaped [2; 3] 4) (flat 24) (bit_tensor 4 [1; 2; 3; 4; 5; 6]%Z) = Some ([24], bit_tensor 4 [1; 2; 3; 4; 5; 6]%Z) /\
  cast (flat 8) (Int 8) (bits 8 77) = Some ([8], bits 8 77).
Proof. vm_compute. auto. Qed.
