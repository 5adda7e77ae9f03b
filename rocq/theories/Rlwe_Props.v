(** Property C77: the polynomial arithmetic generated for RLWE operations computes the operation on
    the values the ciphertexts stand for. *)
From Coq Require Import ZArith List Bool Lia.
From Verif Require Import Words Sums Rlwe_Spec Rlwe_Model Rlwe_Ring Rlwe_Proofs.
Import ListNotations.
Open Scope Z_scope.

Lemma qpos (qs : list Z) : Forall (fun q => 1 < q) qs -> Forall (fun q => 0 < q) qs.
Proof. apply Forall_impl. lia. Qed.
Lemma q_at (qs : list Z) j q : Forall (fun q => 1 < q) qs -> nth_error qs j = Some q -> 0 < q.
Proof. intros H E. apply nth_error_In in E. eapply Forall_forall in H; [|exact E]. lia. Qed.
Lemma re_lengths n qs x : Forall (ring_element n qs) x -> Forall (fun e => length e = length qs) x.
Proof. apply Forall_impl. intros. eapply re_length; eauto. Qed.

Ltac check_elements := repeat match goal with
  | |- Forall _ _ => constructor
  | |- ring_element _ _ _ => unfold ring_element
  | |- Forall2 _ _ _ => constructor
  | |- _ /\ _ => split
  | |- length _ = _ => reflexivity
  | |- _ <= _ => lia
  | |- _ < _ => lia
  end.

(** ** Ciphertext operations *)

(** The sum of two ciphertexts stands for the sum of their values, modulo every modulus. *)
Theorem C77_add n qs s x y : Forall (fun q => 1 < q) qs -> Forall (ring_element n qs) x -> Forall (ring_element n qs) y ->
  length x = length y ->
  exists z, lower_radd n qs (Tensor x) (Tensor y) = Some (Tensor z) /\ length z = length x /\
    Forall (ring_element n qs) z /\
    forall j q, nth_error qs j = Some q ->
      pcong n q (phase n s (limb j z)) (padd n (phase n s (limb j x)) (phase n s (limb j y))).
Proof.
  intros Hq Hx Hy L. exists (map2 (elt_add n qs) x y). split; [|split; [|split]].
  - unfold lower_radd, poly_add, elementwise. change elt with (list (list Z)). rewrite (proj2 (Nat.eqb_eq _ _) L). reflexivity.
  - apply map2_length. auto.
  - apply (map2_Forall _ (ring_element n qs) (ring_element n qs)); auto. intros a b Ha Hb.
    apply re_zip; [apply qpos; auto|intros; apply padd_len|eapply re_length; eauto|eapply re_length; eauto].
  - intros j q Hj. pose proof (q_at qs j q Hq Hj). apply pc_pcong; [lia|].
    apply phase_add; auto; apply (re_lengths n); auto.
Qed.
Theorem C77_sub n qs s x y : Forall (fun q => 1 < q) qs -> Forall (ring_element n qs) x -> Forall (ring_element n qs) y ->
  length x = length y ->
  exists z, lower_rsub n qs (Tensor x) (Tensor y) = Some (Tensor z) /\ length z = length x /\
    Forall (ring_element n qs) z /\
    forall j q, nth_error qs j = Some q ->
      pcong n q (phase n s (limb j z)) (psub n (phase n s (limb j x)) (phase n s (limb j y))).
Proof.
  intros Hq Hx Hy L. exists (map2 (elt_sub n qs) x y). split; [|split; [|split]].
  - unfold lower_rsub, poly_sub, elementwise. change elt with (list (list Z)). rewrite (proj2 (Nat.eqb_eq _ _) L). reflexivity.
  - apply map2_length. auto.
  - apply (map2_Forall _ (ring_element n qs) (ring_element n qs)); auto. intros a b Ha Hb.
    apply re_zip; [apply qpos; auto|intros; apply psub_len|eapply re_length; eauto|eapply re_length; eauto].
  - intros j q Hj. pose proof (q_at qs j q Hq Hj). apply pc_pcong; [lia|].
    apply phase_sub; auto; apply (re_lengths n); auto.
Qed.
(** Multiplying by a scalar, given by one residue per modulus, multiplies the value. *)
Theorem C77_scalar n qs s x cs : Forall (fun q => 1 < q) qs -> Forall (ring_element n qs) x -> length cs = length qs ->
  exists z, lower_mul_scalar n qs (Tensor x) cs = Some (Tensor z) /\ length z = length x /\
    Forall (ring_element n qs) z /\
    forall j q, nth_error qs j = Some q ->
      pcong n q (phase n s (limb j z)) (pscale n (nth j cs 0) (phase n s (limb j x))).
Proof.
  intros Hq Hx Hc. exists (map (elt_scale n qs cs) x). split; [|split; [|split]].
  - reflexivity.
  - apply map_length.
  - apply Forall_map. eapply Forall_impl; [|exact Hx]. intros a Ha.
    apply re_scale; [apply qpos; auto|auto|eapply re_length; eauto].
  - intros j q Hj. pose proof (q_at qs j q Hq Hj). apply pc_pcong; [lia|].
    eapply pc_trans; [apply (phase_scale n q) with (qs := qs); auto; apply (re_lengths n); auto|]. apply pc_sym, pscale_mul.
Qed.
(** The product of two ciphertexts of two components has three components and stands for the
    product of the values. *)
Theorem C77_mul n qs s x y : Forall (fun q => 1 < q) qs -> Forall (ring_element n qs) x -> Forall (ring_element n qs) y ->
  length x = 2%nat -> length y = 2%nat ->
  exists z, lower_rmul n qs (Tensor x) (Tensor y) = Some (Tensor z) /\ length z = 3%nat /\
    Forall (ring_element n qs) z /\
    forall j q, nth_error qs j = Some q ->
      pcong n q (phase n s (limb j z)) (pmul n (phase n s (limb j x)) (phase n s (limb j y))).
Proof.
  intros Hq Hx Hy Lx Ly. destruct x as [|x0 [|x1 [|]]]; try discriminate Lx. destruct y as [|y0 [|y1 [|]]]; try discriminate Ly.
  apply qpos in Hq as Hq0.
  assert (HM : forall a b, length a = length qs -> length b = length qs -> ring_element n qs (elt_mul n qs a b)).
  { intros. apply re_zip; auto. intros; apply pmul_len. }
  apply re_lengths in Hx as Rx. apply re_lengths in Hy as Ry. inversion Rx as [|? ? A0 Rx']; subst. inversion Rx' as [|? ? A1 _]; subst.
  inversion Ry as [|? ? B0 Ry']; subst. inversion Ry' as [|? ? B1 _]; subst.
  eexists. split; [reflexivity|]. split; [reflexivity|]. split.
  - constructor; [|constructor; [|constructor; [|constructor]]]; auto.
    apply re_zip; auto; [intros; apply padd_len| |]; eapply re_length; apply HM; auto.
  - intros j q Hj. pose proof (q_at qs j q Hq Hj). apply pc_pcong; [lia|].
    apply phase_mul; auto. intros. eapply re_length. apply HM; auto.
Qed.
(** A ring element times a ciphertext of two components. *)
Theorem C77_ring_elt n qs s x y : Forall (fun q => 1 < q) qs -> ring_element n qs x -> Forall (ring_element n qs) y ->
  length y = 2%nat ->
  exists z, lower_rmul_ring_elt n qs x (Tensor y) = Some (Tensor z) /\ length z = 2%nat /\
    Forall (ring_element n qs) z /\
    forall j q, nth_error qs j = Some q ->
      pcong n q (phase n s (limb j z)) (pmul n (nth j x []) (phase n s (limb j y))).
Proof.
  intros Hq Hx Hy Ly. destruct y as [|y0 [|y1 [|]]]; try discriminate Ly.
  apply qpos in Hq as Hq0. apply re_length in Hx as Lx.
  apply re_lengths in Hy as Ry. inversion Ry as [|? ? B0 Ry']; subst. inversion Ry' as [|? ? B1 _]; subst.
  exists (map2 (elt_mul n qs) [x; x] [y0; y1]). split; [reflexivity|]. split; [reflexivity|]. split.
  - constructor; [|constructor; [|constructor]]; apply re_zip; auto; intros; apply pmul_len.
  - intros j q Hj. pose proof (q_at qs j q Hq Hj). apply pc_pcong; [lia|]. apply phase_ring_elt; auto.
Qed.
Print Assumptions C77_add.
Print Assumptions C77_sub.
Print Assumptions C77_scalar.
Print Assumptions C77_mul.
Print Assumptions C77_ring_elt.
Example C77_nonvacuous : Forall (fun q => 1 < q) [17; 13] /\ Forall (ring_element 2 [17; 13]) [[[3; 4]; [5; 6]]; [[16; 2]; [12; 1]]] /\
  lower_rmul 2 [17; 13] (Tensor [[[3; 4]; [5; 6]]; [[16; 2]; [12; 1]]]) (Tensor [[[3; 4]; [5; 6]]; [[16; 2]; [12; 1]]]) =
    Some (Tensor [[[10; 7]; [2; 8]]; [[12; 4]; [4; 11]]; [[14; 13]; [0; 11]]]).
Proof. split; [check_elements|split; [check_elements|vm_compute; reflexivity]]. Qed.

(** Negation multiplies by the word 2^w - 1, which is not -1 modulo q ... *)
Theorem C77_negate_refuted : exists n w q s x z,
  1 < q < 2 ^ (w - 1) /\ Forall (ring_element n [q]) x /\ length x = 2%nat /\
  lower_rnegate n w [q] (Tensor x) = Some (Tensor z) /\
  ~ pcong n q (phase n s (limb 0 z)) (psub n [] (phase n s (limb 0 x))).
Proof.
  exists 2%nat, 8, 7, [0; 0], [[[1; 0]]; [[0; 0]]]. eexists. split; [lia|]. split; [check_elements|].
  split; [reflexivity|]. split; [vm_compute; reflexivity|]. intros H. specialize (H 0%nat ltac:(lia)). vm_compute in H. discriminate H.
Qed.
(** ... in general it multiplies the value by 2^w - 1, so it is right only for moduli dividing 2^w. *)
Theorem C77_negate_partial n w q s x : 1 < q -> 1 <= w -> Forall (ring_element n [q]) x -> (q | 2 ^ w) ->
  exists z, lower_rnegate n w [q] (Tensor x) = Some (Tensor z) /\ length z = length x /\
    pcong n q (phase n s (limb 0 z)) (psub n [] (phase n s (limb 0 x))).
Proof.
  intros Hq Hw Hx [d Hd]. destruct (C77_scalar n [q] s x [wrap w (-1)]) as (z & E & L & _ & P); auto.
  exists z. split; [exact E|]. split; auto. specialize (P 0%nat q eq_refl). cbn [nth] in P.
  intros k Hk. rewrite P by auto. rewrite coef_pscale, coef_psub, coef_nil by auto.
  replace (wrap w (-1)) with (-1 + d * q).
  - replace ((-1 + d * q) * coef (phase n s (limb 0 x)) k) with
      (0 - coef (phase n s (limb 0 x)) k + (d * coef (phase n s (limb 0 x)) k) * q) by ring. apply Z_mod_plus_full.
  - rewrite <- Hd. unfold wrap. pose proof (Z.pow_pos_nonneg 2 w ltac:(lia) ltac:(lia)).
    assert (2 ^ 1 <= 2 ^ w) by (apply Z.pow_le_mono_r; lia). change (2 ^ 1) with 2 in *.
    symmetry. replace (-1) with (2 ^ w - 1 + (-1) * 2 ^ w) at 1 by ring. rewrite Z_mod_plus_full, Z.mod_small by lia. ring.
Qed.
(** Ciphertexts with RNS coefficients cannot be negated, and the operations with a plaintext operand
    never produce valid code: the plaintext becomes a polynomial, the ciphertext a tensor. *)
Theorem C77_unsupported_refuted : forall n w qs x y, (2 <= length qs)%nat ->
  lower_rnegate n w qs (Tensor x) = None /\
  lower_radd_plain n qs (Tensor x) (Poly y) = None /\ lower_rsub_plain n qs (Tensor x) (Poly y) = None /\
  lower_rmul_plain (Tensor x) (Poly y) = None.
Proof.
  intros n w qs x y H. destruct qs as [|q [|q' qs]]; simpl in H; try lia. split; [reflexivity|].
  split; [reflexivity|]. split; [reflexivity|]. unfold lower_rmul_plain. destruct x as [|? [|? [|]]]; reflexivity.
Qed.
Print Assumptions C77_negate_partial.
Print Assumptions C77_negate_refuted.
Print Assumptions C77_unsupported_refuted.

(** ** Encryption and decryption, ciphertext modulus q, plaintext modulus t *)

(** Public-key encryption: when the key stands for t*e, the ciphertext stands for a representative
    of the message plus t times the noise e*u. *)
Theorem C77_public_encrypt n q t p0 p1 u e0 e1 m s e : 1 < q -> 1 < t ->
  Forall (ring_element n [q]) [[p0]; [p1]; [u]; [e0]; [e1]] -> ring_element n [t] [m] ->
  pcong n q (phase n s [p0; p1]) (pscale n t e) ->
  exists c0 c1 r, lower_encrypt_public n q t (Tensor [[p0]; [p1]]) [u] [e0] [e1] m = Some (Tensor [[c0]; [c1]]) /\
    Forall (ring_element n [q]) [[c0]; [c1]] /\
    pcong n t r m /\ (forall k, (k < n)%nat -> - t - 1 <= 2 * coef r k < t) /\
    pcong n q (phase n s [c0; c1]) (padd n r (pscale n t (pmul n e u))).
Proof.
  intros Hq Ht HF Hm Hpk.
  assert (HL : forall z, In [z] [[p0]; [p1]; [u]; [e0]; [e1]] -> length z = n).
  { intros z Hz. eapply Forall_forall in HF; [|exact Hz]. inversion HF as [|? ? ? ? [E _] _]. auto. }
  inversion Hm as [|? ? ? ? [Lm Cm] _]; subst.
  destruct (public_ok (length m) q t ltac:(lia) p0 p1 u e0 e1 m s e) as (c0 & c1 & E & R0 & R1 & P); auto;
    try (apply HL; simpl; tauto); try lia.
  { apply pc_pcong; [lia|auto]. }
  exists c0, c1, (map (lift_coef t) m). split; auto. split; [constructor; [exact R0|constructor; [exact R1|constructor]]|].
  assert (HS : forall k, (k < length m)%nat -> coef (map (lift_coef t) m) k = lift_coef t (coef m k)).
  { intros k Hk. unfold coef. rewrite (nth_indep _ 0 (lift_coef t 0)) by (rewrite map_length; auto). apply map_nth. }
  assert (HC : forall k, (k < length m)%nat -> 0 <= coef m k < t).
  { intros k Hk. eapply Forall_forall in Cm; [exact Cm|]. apply nth_In. auto. }
  split; [|split].
  - intros k Hk. rewrite HS by auto. rewrite (proj1 (lift_coef_spec t _ ltac:(lia) (HC k Hk))).
    symmetry. apply Z.mod_small. auto.
  - intros k Hk. rewrite HS by auto. apply lift_coef_spec; auto. lia.
  - apply pc_pcong; [lia|auto].
Qed.
(** The noise samples of the encryption are not used: they are multiplied by the constant T, whose
    type has modulus T, switched to the ciphertext modulus: zero. *)
Theorem C77_public_noise_refuted : forall n q t p0 p1 u e0 e1 e0' e1' m, 1 < q -> 1 < t ->
  Forall (ring_element n [q]) [[e0]; [e1]; [e0']; [e1']] ->
  lower_encrypt_public n q t (Tensor [[p0]; [p1]]) [u] [e0] [e1] m =
  lower_encrypt_public n q t (Tensor [[p0]; [p1]]) [u] [e0'] [e1'] m.
Proof.
  intros n q t p0 p1 u e0 e1 e0' e1' m Hq Ht HF.
  assert (Z0 : forall e, elt_scale n [q] [0] [e] = [reduced q (repeat 0 n)]).
  { intros. cbn [elt_scale]. f_equal. f_equal. unfold pscale. clear. generalize 0%nat. induction n; intros i; simpl; [auto|].
    f_equal. apply IHn. }
  unfold lower_encrypt_public. cbn [extract nth_error bind]. rewrite constant_t_zero by lia. rewrite !Z0. reflexivity.
Qed.
(** Secret-key encryption: (u, c) with c - u*s a representative of the message plus the noise. *)
Theorem C77_secret_encrypt_partial n q t s u e m : 1 < q -> 1 < t ->
  Forall (ring_element n [q]) [[s]; [u]; [e]] -> ring_element n [t] [m] ->
  exists c r, lower_encrypt_secret n q t (Tensor [[s]]) [u] [e] m = Some (Tensor [[u]; [c]]) /\
    ring_element n [q] [c] /\ pcong n t r m /\ (forall k, (k < n)%nat -> - t - 1 <= 2 * coef r k < t) /\
    pcong n q (psub n c (pmul n s u)) (padd n r e).
Proof.
  intros Hq Ht HF Hm.
  assert (HL : forall z, In [z] [[s]; [u]; [e]] -> length z = n).
  { intros z Hz. eapply Forall_forall in HF; [|exact Hz]. inversion HF as [|? ? ? ? [E _] _]. auto. }
  inversion Hm as [|? ? ? ? [Lm Cm] _]; subst.
  destruct (secret_ok (length m) q t ltac:(lia) s u e m) as (c & E & R & P); auto;
    try (apply HL; simpl; tauto); try lia.
  exists c, (map (lift_coef t) m). split; auto. split; auto.
  assert (HS : forall k, (k < length m)%nat -> coef (map (lift_coef t) m) k = lift_coef t (coef m k)).
  { intros k Hk. unfold coef. rewrite (nth_indep _ 0 (lift_coef t 0)) by (rewrite map_length; auto). apply map_nth. }
  assert (HC : forall k, (k < length m)%nat -> 0 <= coef m k < t).
  { intros k Hk. eapply Forall_forall in Cm; [exact Cm|]. apply nth_In. auto. }
  split; [|split].
  - intros k Hk. rewrite HS by auto. rewrite (proj1 (lift_coef_spec t _ ltac:(lia) (HC k Hk))).
    symmetry. apply Z.mod_small. auto.
  - intros k Hk. rewrite HS by auto. apply lift_coef_spec; auto. lia.
  - apply pc_pcong; [lia|auto].
Qed.
(** Decryption: when s*c0 + c1 is congruent to a polynomial M with small coefficients, the result is
    M modulo t.  Missing for a full proof: a ciphertext stands for c0 + c1*s, not for s*c0 + c1. *)
Theorem C77_decrypt_partial n q t c0 c1 s M : 1 < q -> 1 < t -> Forall (ring_element n [q]) [[c0]; [c1]; [s]] ->
  pcong n q (padd n (pmul n s c0) c1) M -> (forall k, (k < n)%nat -> - q <= 2 * coef M k < q - 1) ->
  exists m, lower_decrypt n q t (Tensor [[c0]; [c1]]) (Tensor [[s]]) = Some m /\
    ring_element n [t] [m] /\ pcong n t m M.
Proof.
  intros Hq Ht HF H HM.
  assert (HL : forall z, In [z] [[c0]; [c1]; [s]] -> length z = n).
  { intros z Hz. eapply Forall_forall in HF; [|exact Hz]. inversion HF as [|? ? ? ? [E _] _]. auto. }
  exists (pres n t M). split; [|split].
  - apply (decrypt_ok n q t ltac:(lia)); try (apply HL; simpl; tauto); auto. apply pc_pcong; [lia|auto].
  - constructor; [|constructor]. split; [apply len_map_seq|]. apply Forall_forall. intros v Hv. apply in_map_iff in Hv.
    destruct Hv as (k & <- & _). apply Z.mod_pos_bound. lia.
  - intros k Hk. rewrite coef_pres by auto. apply Z.mod_mod. lia.
Qed.
(** A ciphertext standing for a small polynomial is not decrypted to it. *)
Theorem C77_decrypt_refuted : exists n q t c0 c1 s M m,
  Forall (ring_element n [q]) [[c0]; [c1]; [s]] /\ 1 < t < q /\
  pcong n q (phase n s [c0; c1]) M /\ (forall k, (k < n)%nat -> - q <= 2 * coef M k < q - 1) /\
  lower_decrypt n q t (Tensor [[c0]; [c1]]) (Tensor [[s]]) = Some m /\ ~ pcong n t m M.
Proof.
  exists 2%nat, 17, 3, [1; 0], [0; 0], [0; 1], [1; 0]. eexists. split; [check_elements|].
  split; [lia|]. split; [intros [|[|k]] Hk; [vm_compute; reflexivity|vm_compute; reflexivity|lia]|].
  split; [intros [|[|k]] Hk; [vm_compute; split; congruence|vm_compute; split; congruence|lia]|].
  split; [vm_compute; reflexivity|]. intros H. specialize (H 0%nat ltac:(lia)). vm_compute in H. discriminate H.
Qed.
(** Decrypting what was just encrypted, without any noise, gives another message: with the public key
    (whose value is 0) because the message is in the component that is multiplied by the key ... *)
Theorem C77_public_roundtrip_refuted : exists n q t p0 p1 s u m ct m',
  Forall (ring_element n [q]) [[p0]; [p1]; [s]; [u]] /\ 1 < t < q /\ ring_element n [t] [m] /\
  pcong n q (phase n s [p0; p1]) [] /\
  lower_encrypt_public n q t (Tensor [[p0]; [p1]]) [u] [repeat 0 n] [repeat 0 n] m = Some ct /\
  lower_decrypt n q t ct (Tensor [[s]]) = Some m' /\ m' <> m.
Proof.
  exists 2%nat, 17, 3, [1; 0], [0; 1], [0; 1], [1; 0], [1; 0]. eexists. eexists.
  split; [check_elements|]. split; [lia|]. split; [check_elements|].
  split; [intros [|[|k]] Hk; [vm_compute; reflexivity|vm_compute; reflexivity|lia]|].
  split; [vm_compute; reflexivity|]. split; [vm_compute; reflexivity|]. discriminate.
Qed.
(** ... and with the secret key because u*s is added twice. *)
Theorem C77_secret_roundtrip_refuted : exists n q t s u m ct m',
  Forall (ring_element n [q]) [[s]; [u]] /\ 1 < t < q /\ ring_element n [t] [m] /\
  lower_encrypt_secret n q t (Tensor [[s]]) [u] [repeat 0 n] m = Some ct /\
  lower_decrypt n q t ct (Tensor [[s]]) = Some m' /\ m' <> m.
Proof.
  exists 2%nat, 17, 3, [0; 1], [1; 0], [1; 0]. eexists. eexists.
  split; [check_elements|]. split; [lia|]. split; [check_elements|].
  split; [vm_compute; reflexivity|]. split; [vm_compute; reflexivity|]. discriminate.
Qed.
Print Assumptions C77_public_encrypt.
Print Assumptions C77_public_noise_refuted.
Print Assumptions C77_secret_encrypt_partial.
Print Assumptions C77_decrypt_partial.
Print Assumptions C77_decrypt_refuted.
Print Assumptions C77_public_roundtrip_refuted.
Print Assumptions C77_secret_roundtrip_refuted.
(** key (14x, 1) ... = (p0, p1) with p0 + p1*s = 3*e for s = x and e = 5x = 15x/3; message 2 + x *)
Example C77_encrypt_nonvacuous :
  Forall (ring_element 2 [97]) [[[0; 14]]; [[1; 0]]; [[1; 96]]; [[5; 7]]; [[3; 4]]] /\ ring_element 2 [3] [[2; 1]] /\
  pcong 2 97 (phase 2 [0; 1] [[0; 14]; [1; 0]]) (pscale 2 3 [0; 5]) /\
  lower_encrypt_public 2 97 3 (Tensor [[[0; 14]]; [[1; 0]]]) [[1; 96]] [[5; 7]] [[3; 4]] [2; 1] =
    Some (Tensor [[[13; 12]]; [[1; 96]]]) /\
  lower_decrypt 2 97 3 (Tensor [[[1; 96]]; [[13; 12]]]) (Tensor [[[0; 1]]]) = Some [2; 1].
Proof.
  split; [check_elements|]. split; [check_elements|].
  split; [intros [|[|k]] Hk; [vm_compute; reflexivity|vm_compute; reflexivity|lia]|].
  split; vm_compute; reflexivity.
Qed.
