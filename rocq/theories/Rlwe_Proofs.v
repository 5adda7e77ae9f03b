(** Proofs about the lowering of RLWE operations (C77). *)
From Coq Require Import ZArith List Bool Lia Setoid Morphisms Ring.
From Verif Require Import Words Sums ModEq ModArith_Model RNS_Model Rlwe_Spec Rlwe_Model Rlwe_Ring.
Import ListNotations.
Open Scope Z_scope.

Lemma coef_reduced q a k : coef (reduced q a) k = coef a k mod q.
Proof. unfold coef, reduced. replace 0 with ((fun x => x mod q) 0) at 1 by apply Zmod_0_l. apply (map_nth (fun x => x mod q)). Qed.
Lemma mod_pc n q a b : q <> 0 -> (forall k, (k < n)%nat -> coef a k = coef b k mod q) -> pc n q a b.
Proof. intros Hq H k Hk. rewrite H by auto. exists (- (coef b k / q)). pose proof (Z.div_mod (coef b k) q Hq). lia. Qed.
Lemma reduced_pc n q a : q <> 0 -> pc n q (reduced q a) a.
Proof. intros Hq. apply mod_pc; auto. intros. apply coef_reduced. Qed.
Lemma reduced_length q a : length (reduced q a) = length a.
Proof. apply map_length. Qed.
Lemma reduced_can q a : 0 < q -> Forall (fun v => 0 <= v < q) (reduced q a).
Proof. intros. apply Forall_forall. intros v Hv. apply in_map_iff in Hv. destruct Hv as (x & <- & _). apply Z.mod_pos_bound. auto. Qed.
Lemma pc_can n q a b : length a = n -> length b = n -> Forall (fun v => 0 <= v < q) a -> Forall (fun v => 0 <= v < q) b ->
  pc n q a b -> a = b.
Proof.
  intros La Lb Ca Cb H. apply (list_eq_nth 0); [congruence|]. intros k Hk. rewrite La in Hk. specialize (H k Hk).
  unfold coef in H. destruct H as [z Hz].
  assert (HA : 0 <= nth k a 0 < q) by (eapply Forall_forall in Ca; [exact Ca|apply nth_In; lia]).
  assert (HB : 0 <= nth k b 0 < q) by (eapply Forall_forall in Cb; [exact Cb|apply nth_In; lia]).
  assert (z = 0) by nia. lia.
Qed.

Lemma zip_nth f qs x y j q : nth_error qs j = Some q -> length x = length qs -> length y = length qs ->
  nth j (zip_limbs f qs x y) [] = reduced q (f (nth j x []) (nth j y [])).
Proof.
  revert x y j. induction qs as [|q0 qs IH]; intros [|a x] [|b y] [|j] H Hx Hy; simpl in *; try discriminate.
  - injection H as ->. auto.
  - apply IH; auto.
Qed.
Lemma scale_nth n qs cs x j q : nth_error qs j = Some q -> length cs = length qs -> length x = length qs ->
  nth j (elt_scale n qs cs x) [] = reduced q (pscale n (nth j cs 0) (nth j x [])).
Proof.
  revert cs x j. induction qs as [|q0 qs IH]; intros [|c cs] [|a x] [|j] H Hc Hx; simpl in *; try discriminate.
  - injection H as ->. auto.
  - apply IH; auto.
Qed.
Lemma re_length n qs x : ring_element n qs x -> length x = length qs.
Proof. intros H. induction H; simpl; auto. Qed.
Lemma re_zip n f qs x y : Forall (fun q => 0 < q) qs -> (forall a b, length (f a b) = n) ->
  length x = length qs -> length y = length qs -> ring_element n qs (zip_limbs f qs x y).
Proof.
  intros Hq Hf. revert x y. induction Hq as [|q qs Hq _ IH]; intros [|a x] [|b y] Hx Hy; simpl in *; try discriminate; constructor.
  - split; [rewrite reduced_length; auto|apply reduced_can; auto].
  - apply IH; auto.
Qed.
Lemma re_scale n qs cs x : Forall (fun q => 0 < q) qs ->
  length cs = length qs -> length x = length qs -> ring_element n qs (elt_scale n qs cs x).
Proof.
  intros Hq. revert cs x. induction Hq as [|q qs Hq _ IH]; intros [|c cs] [|a x] Hc Hx; simpl in *; try discriminate; constructor.
  - split; [rewrite reduced_length; apply len_map_seq|apply reduced_can; auto].
  - apply IH; auto.
Qed.
Lemma padd_len n a b : length (padd n a b) = n. Proof. apply len_map_seq. Qed.
Lemma psub_len n a b : length (psub n a b) = n. Proof. apply len_map_seq. Qed.
Lemma pmul_len n a b : length (pmul n a b) = n. Proof. apply len_map_seq. Qed.
Lemma map2_length {A B C} (f : A -> B -> C) l m : length l = length m -> length (map2 f l m) = length l.
Proof. revert m. induction l; intros [|b m] H; simpl in *; try discriminate; auto. Qed.
Lemma map2_Forall {A B C} (f : A -> B -> C) (P : A -> Prop) (Q : B -> Prop) (R : C -> Prop) l m :
  (forall a b, P a -> Q b -> R (f a b)) -> Forall P l -> Forall Q m -> Forall R (map2 f l m).
Proof. intros H Hl. revert m. induction Hl; intros m Hm; simpl; [constructor|]. inversion Hm; subst; simpl; constructor; auto. Qed.

Section Phase.
Variables (n : nat) (q : Z).
Hypothesis Hq : 0 < q.
Add Ring pring : (pc_ring n q) (setoid (pc_equiv n q) (pc_ext n q)).
Notation "a == b" := (pc n q a b) (at level 70).
Lemma red_pc a : reduced q a == a.
Proof. apply reduced_pc. lia. Qed.
Lemma elt_at f qs x y j : nth_error qs j = Some q -> length x = length qs -> length y = length qs ->
  nth j (zip_limbs f qs x y) [] == f (nth j x []) (nth j y []).
Proof. intros Hj Hx Hy. rewrite (zip_nth f qs x y j q) by auto. apply red_pc. Qed.
Lemma scale_at qs cs x j : nth_error qs j = Some q -> length cs = length qs -> length x = length qs ->
  nth j (elt_scale n qs cs x) [] == pmul n [nth j cs 0] (nth j x []).
Proof. intros Hj Hc Hx. rewrite (scale_nth n qs cs x j q) by auto. rewrite red_pc. apply pscale_mul. Qed.

Lemma phase_add qs j s x y : nth_error qs j = Some q -> length x = length y ->
  Forall (fun e => length e = length qs) x -> Forall (fun e => length e = length qs) y ->
  phase n s (limb j (map2 (elt_add n qs) x y)) == padd n (phase n s (limb j x)) (phase n s (limb j y)).
Proof.
  intros Hj. revert y. induction x as [|a x IH]; intros [|b y] L Hx Hy; simpl in *; try discriminate.
  - ring.
  - inversion Hx; inversion Hy; subst. unfold limb in *. simpl. unfold elt_add at 1. rewrite (elt_at _ qs) by auto.
    rewrite IH by auto. ring.
Qed.
Lemma phase_sub qs j s x y : nth_error qs j = Some q -> length x = length y ->
  Forall (fun e => length e = length qs) x -> Forall (fun e => length e = length qs) y ->
  phase n s (limb j (map2 (elt_sub n qs) x y)) == psub n (phase n s (limb j x)) (phase n s (limb j y)).
Proof.
  intros Hj. revert y. induction x as [|a x IH]; intros [|b y] L Hx Hy; simpl in *; try discriminate.
  - ring.
  - inversion Hx; inversion Hy; subst. unfold limb in *. simpl. unfold elt_sub at 1. rewrite (elt_at _ qs) by auto.
    rewrite IH by auto. ring.
Qed.
Lemma phase_scale qs cs j s x : nth_error qs j = Some q -> length cs = length qs ->
  Forall (fun e => length e = length qs) x ->
  phase n s (limb j (map (elt_scale n qs cs) x)) == pmul n [nth j cs 0] (phase n s (limb j x)).
Proof.
  intros Hj Hc. induction x as [|a x IH]; intros Hx; simpl in *.
  - ring.
  - inversion Hx; subst. unfold limb in *. simpl. rewrite scale_at by auto. rewrite IH by auto. ring.
Qed.
Lemma phase_mul qs j s x0 x1 y0 y1 : nth_error qs j = Some q ->
  length x0 = length qs -> length x1 = length qs -> length y0 = length qs -> length y1 = length qs ->
  (forall a b, length a = length qs -> length b = length qs -> length (elt_mul n qs a b) = length qs) ->
  phase n s (limb j [elt_mul n qs x0 y0; elt_add n qs (elt_mul n qs x0 y1) (elt_mul n qs x1 y0); elt_mul n qs x1 y1]) ==
  pmul n (phase n s (limb j [x0; x1])) (phase n s (limb j [y0; y1])).
Proof.
  intros Hj A B C D HM. unfold limb. simpl. unfold elt_add. rewrite (elt_at (padd n) qs) by auto.
  unfold elt_mul. rewrite !(elt_at (pmul n) qs) by auto. ring.
Qed.
Lemma phase_ring_elt qs j s x y0 y1 : nth_error qs j = Some q ->
  length x = length qs -> length y0 = length qs -> length y1 = length qs ->
  phase n s (limb j (map2 (elt_mul n qs) [x; x] [y0; y1])) ==
  pmul n (nth j x []) (phase n s (limb j [y0; y1])).
Proof.
  intros Hj A B C. unfold limb. simpl.
  unfold elt_mul. rewrite !(elt_at (pmul n) qs) by auto. ring.
Qed.
End Phase.

(** ** Encryption and decryption *)
Lemma coef_switch q p a k : coef (mod_switch q p a) k = if (k <? length a)%nat then switch_coef q p (coef a k) else 0.
Proof.
  unfold coef, mod_switch. destruct (Nat.ltb_spec k (length a)).
  - rewrite (nth_indep _ 0 (switch_coef q p 0)) by (rewrite map_length; auto). apply map_nth.
  - apply nth_overflow. rewrite map_length. auto.
Qed.
Lemma switch_small q p x r : 0 < q -> 0 <= x < q -> - q <= 2 * r < q - 1 -> (q | x - r) -> switch_coef q p x = r mod p.
Proof.
  intros Hq Hx Hr [z Hz]. unfold switch_coef. pose proof (Z.div_mod q 2 ltac:(lia)). pose proof (Z.mod_pos_bound q 2 ltac:(lia)).
  destruct (Z.ltb_spec x (q / 2)).
  - assert (z = 0) by (assert (-1 < z) by nia; assert (z < 1) by nia; lia). replace x with r by lia. auto.
  - assert (z = 1) by (assert (0 < z) by nia; assert (z < 2) by nia; lia). replace (x - q) with r by lia. auto.
Qed.
Lemma constant_t_zero q t : 0 < t -> constant_t q t = 0.
Proof.
  intros Ht. unfold constant_t, switch_coef. pose proof (Z.div_mod t 2 ltac:(lia)). pose proof (Z.mod_pos_bound t 2 ltac:(lia)).
  destruct (Z.ltb_spec t (t / 2)); [lia|]. rewrite Z.sub_diag. apply Zmod_0_l.
Qed.
(** the integer a plaintext coefficient is replaced by *)
Definition lift_coef (t x : Z) : Z := if x <? t / 2 then x else x - t.
Lemma switch_pc n t q m : 0 < q -> length m = n -> pc n q (mod_switch t q m) (map (lift_coef t) m).
Proof.
  intros Hq Hm k Hk. rewrite coef_switch. destruct (Nat.ltb_spec k (length m)); [|lia].
  unfold coef at 2. rewrite (nth_indep _ 0 (lift_coef t 0)) by (rewrite map_length; lia). rewrite map_nth.
  change (nth k m 0) with (coef m k). unfold switch_coef. fold (lift_coef t (coef m k)).
  exists (- (lift_coef t (coef m k) / q)). pose proof (Z.div_mod (lift_coef t (coef m k)) q ltac:(lia)). lia.
Qed.
Lemma lift_coef_spec t x : 0 < t -> 0 <= x < t -> lift_coef t x mod t = x /\ - t - 1 <= 2 * lift_coef t x < t.
Proof.
  intros Ht Hx. unfold lift_coef. pose proof (Z.div_mod t 2 ltac:(lia)). pose proof (Z.mod_pos_bound t 2 ltac:(lia)).
  destruct (Z.ltb_spec x (t / 2)).
  - split; [apply Z.mod_small; auto|lia].
  - split; [|lia]. replace (x - t) with (x + (-1) * t) by ring. rewrite Z_mod_plus_full. apply Z.mod_small. auto.
Qed.

Section Enc.
Variables (n : nat) (q t : Z).
Hypothesis Hq : 0 < q.
Add Ring pring2 : (pc_ring n q) (setoid (pc_equiv n q) (pc_ext n q)).
Notation "a == b" := (pc n q a b) (at level 70).
Lemma one_at f (a b : list Z) : zip_limbs f [q] [a] [b] = [reduced q (f a b)].
Proof. reflexivity. Qed.
Lemma decrypt_ok c0 c1 s M : length c0 = n -> length c1 = n -> length s = n ->
  padd n (pmul n s c0) c1 == M -> (forall k, (k < n)%nat -> - q <= 2 * coef M k < q - 1) ->
  lower_decrypt n q t (Tensor [[c0]; [c1]]) (Tensor [[s]]) = Some (pres n t M).
Proof.
  intros L0 L1 Ls H HM. unfold lower_decrypt. cbn [extract nth_error bind].
  unfold elt_add, elt_mul. rewrite !one_at. cbn [zip_limbs]. f_equal.
  set (v := reduced q (padd n (reduced q (pmul n s c0)) c1)).
  assert (Lv : length v = n) by (unfold v; rewrite reduced_length; apply padd_len).
  assert (E : v == M).
  { unfold v. rewrite (red_pc n q Hq). rewrite (red_pc n q Hq). exact H. }
  apply (list_eq_nth 0).
  - unfold mod_switch, pres. rewrite map_length, len_map_seq. auto.
  - intros k Hk. unfold mod_switch in Hk. rewrite map_length, Lv in Hk.
    change (coef (mod_switch q t v) k = coef (pres n t M) k). rewrite coef_switch, coef_pres by auto.
    destruct (Nat.ltb_spec k (length v)); [|lia].
    apply switch_small; auto. 
    pose proof (reduced_can q (padd n (reduced q (pmul n s c0)) c1) Hq) as C. eapply Forall_forall in C; [exact C|].
    apply nth_In. fold v. lia.
Qed.
Lemma public_ok p0 p1 u e0 e1 m s e :
  length p0 = n -> length p1 = n -> length u = n -> length e0 = n -> length e1 = n -> length m = n -> 0 < t ->
  phase n s [p0; p1] == pscale n t e ->
  exists c0 c1, lower_encrypt_public n q t (Tensor [[p0]; [p1]]) [u] [e0] [e1] m = Some (Tensor [[c0]; [c1]]) /\
    ring_element n [q] [c0] /\ ring_element n [q] [c1] /\
    phase n s [c0; c1] == padd n (map (lift_coef t) m) (pscale n t (pmul n e u)).
Proof.
  intros L0 L1 Lu Le0 Le1 Lm Ht Hpk. unfold lower_encrypt_public. cbn [extract nth_error bind].
  unfold elt_add, elt_mul. rewrite constant_t_zero by auto. cbn [elt_scale zip_limbs].
  eexists. eexists. split; [reflexivity|]. split; [|split].
  - constructor; [|constructor]. split; [rewrite reduced_length; apply padd_len|apply reduced_can; auto].
  - constructor; [|constructor]. split; [rewrite reduced_length; apply padd_len|apply reduced_can; auto].
  - simpl phase in *. rewrite !(red_pc n q Hq). rewrite (switch_pc n t q m Hq Lm).
    rewrite !pscale_mul in *.
    assert (Z0 : [0] == []). { apply pc_eq. intros k Hk. unfold coef. destruct k as [|[|k]]; auto. }
    rewrite Z0.
    transitivity (padd n (map (lift_coef t) m) (pmul n (padd n p0 (pmul n s (padd n p1 (pmul n s [])))) u)); [ring|].
    rewrite Hpk. ring.
Qed.
Lemma secret_ok s u e m : length s = n -> length u = n -> length e = n -> length m = n ->
  exists c1, lower_encrypt_secret n q t (Tensor [[s]]) [u] [e] m = Some (Tensor [[u]; [c1]]) /\
    ring_element n [q] [c1] /\
    psub n c1 (pmul n s u) == padd n (map (lift_coef t) m) e.
Proof.
  intros Ls Lu Le Lm. unfold lower_encrypt_secret. unfold elt_add, elt_mul. cbn [zip_limbs].
  eexists. split; [reflexivity|]. split.
  - constructor; [|constructor]. split; [rewrite reduced_length; apply padd_len|apply reduced_can; auto].
  - rewrite !(red_pc n q Hq). rewrite (switch_pc n t q m Hq Lm). ring.
Qed.
End Enc.
