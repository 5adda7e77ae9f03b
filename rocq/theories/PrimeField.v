(** Facts about prime fields over Z: Fermat's theorem and primitive roots. *)
From Coq Require Import ZArith Znumtheory Zpow_facts Lia List Permutation Wf_nat Setoid Morphisms.
From Verif Require Import ModEq.
Import ListNotations.
Open Scope Z_scope.

Lemma exists_prime_divisor n : 2 <= n -> exists p, prime p /\ (p | n).
Proof.
  intros Hn. assert (H : forall k, (Z.to_nat n <= k)%nat -> exists p, prime p /\ (p | n)).
  { intros k. revert n Hn. induction k as [|k IH]; intros n Hn Hk; [lia|].
    destruct (prime_dec n) as [Hp|Hp]; [exists n; split; auto; exists 1; lia|].
    destruct (not_prime_divide n) as (m & Hm & Hmn); auto; [lia|].
    destruct (IH m) as (p & Hp' & Hpm); [lia|lia|].
    exists p. split; auto. eapply Z.divide_trans; eauto. }
  eapply H; reflexivity.
Qed.

Section Prime.
Variable p : Z.
Hypothesis Hp : prime p.

Lemma p_ge2 : 2 <= p.
Proof. apply prime_ge_2; auto. Qed.
Local Notation "a == b" := (cong p a b) (at level 70).

Lemma cong0 a : a == 0 <-> (p | a).
Proof.
  split.
  - intros [k H]. exists k. lia.
  - intros [k H]. exists k. lia.
Qed.
Lemma cong_sub0 a b : a == b <-> a - b == 0.
Proof. split; intros [k H]; exists k; lia. Qed.
Lemma mul0 a b : a * b == 0 -> a == 0 \/ b == 0.
Proof. rewrite !cong0. apply prime_mult; auto. Qed.
Lemma small0 a : 0 <= a < p -> a == 0 -> a = 0.
Proof. intros Ha [k H]. assert (k = 0) by nia. lia. Qed.
Lemma small_eq a b : 0 <= a < p -> 0 <= b < p -> a == b -> a = b.
Proof. intros Ha Hb [k H]. assert (k = 0) by nia. subst k. lia. Qed.
Lemma cancel_l c a b : ~ c == 0 -> c * a == c * b -> a == b.
Proof.
  intros Hc H. apply cong_sub0 in H. replace (c * a - c * b) with (c * (a - b)) in H by ring.
  apply cong_sub0. destruct (mul0 _ _ H); tauto.
Qed.
Lemma one_ne0 : ~ 1 == 0.
Proof. intros H. pose proof p_ge2. apply small0 in H; lia. Qed.
Lemma pow_ne0 a n : ~ a == 0 -> 0 <= n -> ~ a ^ n == 0.
Proof.
  intros Ha Hn. revert n Hn. apply natlike_ind.
  - rewrite Z.pow_0_r. apply one_ne0.
  - intros n Hn IH H. rewrite Z.pow_succ_r in H by auto. destruct (mul0 _ _ H); tauto.
Qed.

(** *** Fermat *)
Definition units : list Z := map Z.of_nat (seq 1 (Z.to_nat (p - 1))).
Lemma in_units x : In x units <-> 0 < x < p.
Proof.
  unfold units. rewrite in_map_iff. split.
  - intros (y & <- & H). apply in_seq in H. lia.
  - intros H. exists (Z.to_nat x). split; [lia|]. apply in_seq. lia.
Qed.
Lemma nodup_units : NoDup units.
Proof. apply FinFun.Injective_map_NoDup; [intros ? ? ?; lia|apply seq_NoDup]. Qed.
Lemma length_units : length units = Z.to_nat (p - 1).
Proof. unfold units. rewrite map_length, seq_length. auto. Qed.
Definition prodz (l : list Z) := fold_right Z.mul 1 l.
Lemma prodz_perm l l' : Permutation l l' -> prodz l = prodz l'.
Proof. induction 1; simpl; lia. Qed.
Lemma prodz_scale a l : prodz (map (fun x => a * x mod p) l) == a ^ Z.of_nat (length l) * prodz l.
Proof.
  induction l as [|x l IH]; cbn [map prodz fold_right length]; [reflexivity|].
  change (fold_right Z.mul 1 ?l) with (prodz l).
  rewrite IH, cong_mod, Nat2Z.inj_succ, Z.pow_succ_r by lia. exists 0. ring.
Qed.
Lemma prodz_ne0 l : (forall x, In x l -> ~ x == 0) -> ~ prodz l == 0.
Proof.
  induction l as [|x l IH]; intros H; cbn [prodz fold_right]; [apply one_ne0|].
  change (fold_right Z.mul 1 ?l) with (prodz l). intros H0. destruct (mul0 _ _ H0).
  - apply (H x); simpl; auto.
  - apply IH; auto. intros; apply H; simpl; auto.
Qed.
Lemma fermat_cong a : ~ a == 0 -> a ^ (p - 1) == 1.
Proof.
  intros Ha. pose proof p_ge2.
  assert (P : Permutation (map (fun x => a * x mod p) units) units).
  { apply NoDup_Permutation_bis.
    - assert (HI : forall x y, In x units -> In y units -> a * x mod p = a * y mod p -> x = y).
      { intros x y Hx Hy E. apply in_units in Hx, Hy. apply small_eq; try lia.
        apply (cancel_l a); auto. apply eq_cong. auto. }
      revert HI. generalize nodup_units. generalize units. clear - Hp.
      induction l as [|x l IH]; intros ND HI; cbn [map]; constructor.
      + inversion ND; subst. rewrite in_map_iff. intros (y & E & Hy).
        apply H1. rewrite (HI x y); simpl; auto.
      + apply IH; [inversion ND; auto|]. intros; apply HI; simpl; auto.
    - rewrite map_length. lia.
    - intros y Hy. apply in_map_iff in Hy as (x & <- & Hx). apply in_units. apply in_units in Hx.
      pose proof (Z.mod_pos_bound (a * x) p ltac:(lia)).
      assert (a * x mod p <> 0); [|lia]. intros E.
      assert (E' : a * x == 0). { apply cong0. apply Z.mod_divide; auto; lia. }
      destruct (mul0 _ _ E'); [tauto|]. assert (x = 0) by (apply small0; auto; lia). lia. }
  pose proof (prodz_scale a units) as HS. rewrite (prodz_perm _ _ P), length_units in HS.
  rewrite Z2Nat.id in HS by lia.
  assert (HN : ~ prodz units == 0).
  { apply prodz_ne0. intros x Hx E. apply in_units in Hx. assert (x = 0) by (apply small0; auto; lia). lia. }
  apply (cancel_l (prodz units)); auto. rewrite Z.mul_1_r, Z.mul_comm. symmetry. auto.
Qed.

Lemma unit_ne0 a : 0 < a < p -> ~ a == 0.
Proof. intros Ha E. assert (a = 0) by (apply small0; auto; lia). lia. Qed.
Lemma fermat a : 0 < a < p -> a ^ (p - 1) mod p = 1.
Proof.
  intros Ha. pose proof p_ge2. rewrite (cong_eq p _ 1).
  - apply Z.mod_small. lia.
  - apply fermat_cong. apply unit_ne0; auto.
Qed.

(** *** number of roots of a polynomial (coefficients from the constant term up) *)
Fixpoint peval (f : list Z) (x : Z) : Z := match f with [] => 0 | c :: r => c + x * peval r x end.
(** quotient of f by (x - a) *)
Fixpoint pdiv (f : list Z) (a : Z) : list Z :=
  match f with [] => [] | _ :: r => match r with [] => [] | _ => peval r a :: pdiv r a end end.
Lemma pdiv_spec f a x : peval f x - peval f a = (x - a) * peval (pdiv f a) x.
Proof.
  induction f as [|c f IH]; [simpl; lia|].
  destruct f as [|d f]; [simpl; lia|].
  change (pdiv (c :: d :: f) a) with (peval (d :: f) a :: pdiv (d :: f) a).
  change (peval (c :: d :: f) x) with (c + x * peval (d :: f) x).
  change (peval (c :: d :: f) a) with (c + a * peval (d :: f) a).
  change (peval (peval (d :: f) a :: ?v) x) with (peval (d :: f) a + x * peval v x).
  set (F := peval (d :: f)) in *. set (Q := peval (pdiv (d :: f) a) x) in *.
  assert (E : F x = F a + (x - a) * Q) by lia. rewrite E. ring.
Qed.
Lemma pdiv_length f a : length (pdiv f a) = pred (length f).
Proof.
  induction f as [|c f IH]; auto. destruct f as [|d f]; auto.
  change (length (pdiv (c :: d :: f) a)) with (S (length (pdiv (d :: f) a))). rewrite IH. reflexivity.
Qed.
Lemma pdiv_last f a : (2 <= length f)%nat -> last (pdiv f a) 0 = last f 0.
Proof.
  induction f as [|c f IH]; [simpl; lia|]. destruct f as [|d f]; [simpl; lia|]. intros _.
  change (pdiv (c :: d :: f) a) with (peval (d :: f) a :: pdiv (d :: f) a).
  destruct f as [|e f].
  - simpl. lia.
  - specialize (IH ltac:(simpl; lia)).
    change (last (c :: d :: e :: f) 0) with (last (d :: e :: f) 0). rewrite <- IH.
    pose proof (pdiv_length (d :: e :: f) a). destruct (pdiv (d :: e :: f) a); [discriminate|reflexivity].
Qed.
Lemma root_bound d : forall f rs, length f = S d -> ~ last f 0 == 0 -> NoDup rs ->
  (forall x, In x rs -> 0 <= x < p /\ peval f x == 0) -> (length rs <= d)%nat.
Proof.
  induction d as [|d IH]; intros f rs Hl Hlast ND Hr.
  - destruct f as [|c [|]]; try discriminate. destruct rs as [|x rs]; auto.
    destruct (Hr x (or_introl eq_refl)) as [_ H]. exfalso. apply Hlast. simpl in *.
    replace (c + x * 0) with c in H by lia. auto.
  - destruct rs as [|a rs]; [simpl; lia|]. cbn [length]. apply le_n_S.
    apply (IH (pdiv f a)).
    + rewrite pdiv_length, Hl. auto.
    + rewrite pdiv_last by lia. auto.
    + inversion ND; auto.
    + intros x Hx. destruct (Hr x (or_intror Hx)) as [Hx1 Hx2]. split; auto.
      destruct (Hr a (or_introl eq_refl)) as [Ha1 Ha2].
      assert (E : (x - a) * peval (pdiv f a) x == 0).
      { rewrite <- pdiv_spec, Hx2, Ha2. reflexivity. }
      destruct (mul0 _ _ E) as [E1|E1]; auto.
      apply cong_sub0 in E1. apply small_eq in E1; auto. subst. inversion ND; tauto.
Qed.

(** at most d solutions of x^d = 1 *)
Lemma peval_monomial n x : peval (repeat 0 n ++ [1]) x = x ^ Z.of_nat n.
Proof.
  induction n; [cbn [repeat app peval]; rewrite Z.mul_0_r; reflexivity|]. cbn [repeat app peval]. rewrite IHn, Nat2Z.inj_succ, Z.pow_succ_r by lia. lia.
Qed.
Lemma unity_bound d rs : (1 <= d)%nat -> NoDup rs ->
  (forall x, In x rs -> 0 <= x < p /\ x ^ Z.of_nat d == 1) -> (length rs <= d)%nat.
Proof.
  intros Hd ND H. destruct d as [|d]; [lia|].
  apply (root_bound (S d) (-1 :: repeat 0 d ++ [1])); auto.
  - cbn [length]. rewrite app_length, repeat_length. simpl. lia.
  - rewrite app_comm_cons, last_last. apply one_ne0.
  - intros x Hx. destruct (H x Hx) as [H1 H2]. split; auto.
    cbn [peval]. rewrite peval_monomial. rewrite Nat2Z.inj_succ, Z.pow_succ_r in H2 by lia.
    rewrite H2. exists 0. ring.
Qed.
(** so below p-1 some unit is not a solution *)
Lemma non_root d : 1 <= d < p - 1 -> exists x, 0 < x < p /\ ~ x ^ d == 1.
Proof.
  intros Hd.
  assert (D : forall x, {x ^ d mod p = 1 mod p} + {x ^ d mod p <> 1 mod p}) by (intros; apply Z.eq_dec).
  destruct (Exists_dec (fun x => x ^ d mod p <> 1 mod p) units) as [E|E].
  - intros x. destruct (D x); [right|left]; auto.
  - apply Exists_exists in E as (x & Hx & Hn). exists x. split; [apply in_units; auto|].
    intros H. apply Hn, cong_eq. auto.
  - exfalso.
    assert (length units <= Z.to_nat d)%nat; [|rewrite length_units in *; lia].
    apply unity_bound; [lia|apply nodup_units|]. intros x Hx. pose proof (proj1 (in_units x) Hx).
    split; [lia|]. rewrite Z2Nat.id by lia. apply eq_cong.
    destruct (D x) as [|n]; auto. exfalso. apply E, Exists_exists. exists x; auto.
Qed.

(** *** orders *)
Lemma pow_gcd y a b : 0 <= a -> 0 <= b -> y ^ a == 1 -> y ^ b == 1 -> y ^ Z.gcd a b == 1.
Proof.
  intros Ha. revert b. pattern a. apply Zlt_0_ind; auto. clear a Ha. intros a IH Ha b Hb H1 H2.
  destruct (Z.eq_dec a 0) as [-> |Hz].
  - rewrite Z.gcd_0_l, Z.abs_eq; auto.
  - rewrite <- Z.gcd_mod by auto. apply IH; auto.
    + apply Z.mod_pos_bound. lia.
    + rewrite (Z.div_mod b a) in H2 by auto.
      rewrite Z.pow_add_r, Z.pow_mul_r in H2; try lia.
      * rewrite H1, Z.pow_1_l, Z.mul_1_l in H2; auto. apply Z.div_pos; lia.
      * apply Z.div_pos; lia.
      * apply Z.mul_nonneg_nonneg; [lia|apply Z.div_pos; lia].
      * apply Z.mod_pos_bound; lia.
Qed.
Definition ord (g d : Z) : Prop := 1 <= d /\ g ^ d == 1 /\ forall k, 0 <= k -> g ^ k == 1 -> (d | k).

Lemma pow_of_mul g d c : 0 <= d -> 0 <= c -> g ^ d == 1 -> g ^ (d * c) == 1.
Proof. intros. rewrite Z.pow_mul_r by auto. rewrite H1, Z.pow_1_l; auto. reflexivity. Qed.

Lemma ord_mul a b m k : ord a m -> ord b k -> Z.gcd m k = 1 -> ord (a * b) (m * k).
Proof.
  intros (Hm & Ha & Hma) (Hk & Hb & Hkb) Hg. split; [nia|]. split.
  - rewrite Z.pow_mul_l. rewrite (pow_of_mul a m k), (Z.mul_comm m k), (pow_of_mul b k m); auto; try lia.
    reflexivity.
  - intros j Hj H.
    assert (D1 : (m | j)).
    { apply Gauss with k; [|apply Zgcd_1_rel_prime; auto].
      apply Hma; [nia|].
      assert (E : (a * b) ^ (j * k) == 1) by (apply pow_of_mul; auto; lia).
      rewrite Z.pow_mul_l in E. rewrite (Z.mul_comm j k) in E.
      rewrite (pow_of_mul b k j), Z.mul_1_r in E; auto; lia. }
    assert (D2 : (k | j)).
    { apply Gauss with m; [|apply Zgcd_1_rel_prime; rewrite Z.gcd_comm; auto].
      apply Hkb; [nia|].
      assert (E : (a * b) ^ (j * m) == 1) by (apply pow_of_mul; auto; lia).
      rewrite Z.pow_mul_l in E. rewrite (Z.mul_comm j m) in E.
      rewrite (pow_of_mul a m j), Z.mul_1_l in E; auto; lia. }
    destruct D1 as [u ->]. rewrite Z.mul_comm in D2. apply Gauss in D2 as [v ->].
    + exists v. ring.
    + apply rel_prime_sym, Zgcd_1_rel_prime. auto.
Qed.

Lemma prime_power_divisor r e g c : prime r -> (1 <= e)%nat -> r ^ Z.of_nat e = g * c -> 0 <= c -> c <> 1 ->
  (g | r ^ Z.of_nat (e - 1)).
Proof.
  intros Hr He H Hc0 Hc1. pose proof (prime_ge_2 _ Hr).
  assert (D : (r | c)).
  { destruct (Zdivide_dec r c) as [|n]; auto. exfalso.
    assert (RP : rel_prime c (r ^ Z.of_nat e)).
    { apply rel_prime_Zpower_r; [lia|]. apply rel_prime_sym, prime_rel_prime; auto. }
    assert (D : (c | 1)).
    { apply Gauss with (r ^ Z.of_nat e); auto. exists g. lia. }
    apply Z.divide_1_r_nonneg in D; lia. }
  destruct D as [v ->]. exists v.
  replace e with (S (e - 1)) in H by lia. rewrite Nat2Z.inj_succ, Z.pow_succ_r in H by lia.
  assert (E : r * r ^ Z.of_nat (e - 1) = r * (v * g)) by lia.
  apply Z.mul_reg_l in E; lia.
Qed.
Lemma ord_prime_power r e y : prime r -> (1 <= e)%nat -> y ^ (r ^ Z.of_nat e) == 1 ->
  ~ y ^ (r ^ Z.of_nat (e - 1)) == 1 -> ord y (r ^ Z.of_nat e).
Proof.
  intros Hr He Hy1 Hy2. pose proof (prime_ge_2 _ Hr).
  assert (0 < r ^ Z.of_nat e) by (apply Z.pow_pos_nonneg; lia).
  assert (0 < r ^ Z.of_nat (e - 1)) by (apply Z.pow_pos_nonneg; lia).
  split; [lia|]. split; auto. intros k Hk Hy3.
  pose proof (pow_gcd y k (r ^ Z.of_nat e) Hk ltac:(lia) Hy3 Hy1) as HG.
  pose proof (Z.gcd_nonneg k (r ^ Z.of_nat e)).
  destruct (Z.gcd_divide_r k (r ^ Z.of_nat e)) as [c Hc].
  destruct (Z.eq_dec c 1) as [-> |Hc1].
  - rewrite Z.mul_1_l in Hc. rewrite Hc. apply Z.gcd_divide_l.
  - exfalso. apply Hy2. destruct (prime_power_divisor r e (Z.gcd k (r ^ Z.of_nat e)) c) as [v Hv]; auto; try lia.
rewrite Hv. rewrite Z.mul_comm. apply pow_of_mul; auto. nia.
Qed.

(** pull out all factors r *)
Lemma split_prime r d : prime r -> 0 < d -> exists e d', d = r ^ Z.of_nat e * d' /\ 0 < d' /\ ~ (r | d').
Proof.
  intros Hr Hd. pose proof (prime_ge_2 _ Hr). assert (H0 : 0 <= d) by lia. revert Hd.
  pattern d. apply Zlt_0_ind; auto. clear d H0. intros d IH H0 Hd.
  destruct (Zdivide_dec r d) as [[c Hc]|n].
  - assert (0 < c) by nia. assert (c < d) by nia.
    destruct (IH c ltac:(lia) ltac:(lia)) as (e & d' & E & P & N). exists (S e), d'. split; [|auto].
    rewrite Nat2Z.inj_succ, Z.pow_succ_r by lia. rewrite Hc. rewrite E at 1. ring.
  - exists O, d. split; [change (Z.of_nat 0) with 0; rewrite Z.pow_0_r; ring|auto].
Qed.

Lemma order_exists d : (d | p - 1) -> 0 < d -> exists g, ord g d /\ ~ g == 0.
Proof.
  intros Hdiv Hd. pose proof p_ge2. assert (H0 : 0 <= d) by lia. revert Hdiv Hd. pattern d. apply Zlt_0_ind; auto. clear d H0.
  intros d IH H0 Hdiv Hd.
  destruct (Z.eq_dec d 1) as [-> |H1].
  - exists 1. split; [|apply one_ne0]. split; [lia|]. split; [reflexivity|]. intros k _ _. exists k. ring.
  - destruct (exists_prime_divisor d ltac:(lia)) as (r & Hr & Hrd).
    pose proof (prime_ge_2 _ Hr).
    destruct (split_prime r d Hr Hd) as (e & d' & Ed & Hd' & Hn).
    assert (He : (1 <= e)%nat).
    { destruct e; [|lia]. exfalso. apply Hn. rewrite Ed in Hrd. rewrite Z.mul_1_l in Hrd. auto. }
    assert (Hre : 1 < r ^ Z.of_nat e) by (apply Z.pow_gt_1; lia).
    destruct (IH d') as (g1 & Hg1 & Hg1'); try nia.
    { apply Z.divide_trans with d; auto. exists (r ^ Z.of_nat e). auto. }
    (* an element of order r^e *)
    destruct Hdiv as [c Hc].
    assert (Hc0 : 0 < c) by nia.
    set (f := (c * d') * r ^ Z.of_nat (e - 1)).
    assert (Hpow : r ^ Z.of_nat e = r * r ^ Z.of_nat (e - 1)).
    { replace e with (S (e - 1)) at 1 by lia. rewrite Nat2Z.inj_succ, Z.pow_succ_r by lia. auto. }
    assert (0 < r ^ Z.of_nat (e - 1)) by (apply Z.pow_pos_nonneg; lia).
    assert (Hf : p - 1 = f * r) by (unfold f; rewrite Hc, Ed, Hpow; ring).
    destruct (non_root f) as (x & Hx & Hnx).
    { assert (0 < f) by (unfold f; nia). nia. }
    set (y := x ^ (c * d')).
    assert (Hy : ord y (r ^ Z.of_nat e)).
    { apply ord_prime_power; auto.
      - unfold y. rewrite <- Z.pow_mul_r by nia. replace (c * d' * r ^ Z.of_nat e) with (p - 1)
          by (rewrite Hc, Ed; ring). apply fermat_cong, unit_ne0; auto.
      - unfold y. rewrite <- Z.pow_mul_r by nia. auto. }
    exists (y * g1). split.
    + rewrite Ed. apply ord_mul; auto. apply Zgcd_1_rel_prime. apply rel_prime_sym, rel_prime_Zpower_r; [lia|].
      apply rel_prime_sym, prime_rel_prime; auto.
    + intros E. destruct (mul0 _ _ E) as [E5|E5]; [|tauto]. revert E5. apply pow_ne0; [apply unit_ne0; auto|nia].
Qed.

Lemma primitive_root_exists : exists g : Z, 0 < g < p /\ forall k : Z, 0 < k < p - 1 -> g ^ k mod p <> 1.
Proof.
  pose proof p_ge2. destruct (order_exists (p - 1)) as (g & (H1 & H2 & H3) & H4).
  - apply Z.divide_refl.
  - lia.
  - exists (g mod p).
    assert (G0 : 0 <= g mod p < p) by (apply Z.mod_pos_bound; lia).
    assert (g mod p <> 0). { intros E. apply H4. rewrite <- (cong_mod p g), E. reflexivity. }
    split; [lia|]. intros k Hk E.
    assert (E' : g ^ k == 1).
    { rewrite <- (cong_mod p g). apply eq_cong. rewrite E. symmetry. apply Z.mod_small. lia. }
    apply H3 in E'; [|lia]. apply Z.divide_pos_le in E'; lia.
Qed.
End Prime.
