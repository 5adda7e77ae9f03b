(** Z[x]/(x^n + 1) modulo q is a commutative ring, on coefficient lists. *)
From Coq Require Import ZArith List Bool Lia Setoid Morphisms Ring.
From Verif Require Import Sums ModEq Rlwe_Spec.
Import ListNotations.
Open Scope Z_scope.

Lemma coef_map n f k : (k < n)%nat -> coef (map f (seq 0 n)) k = f k.
Proof. intros. unfold coef. apply nth_map_seq. auto. Qed.
Lemma coef_padd n a b k : (k < n)%nat -> coef (padd n a b) k = coef a k + coef b k.
Proof. intros. apply coef_map. auto. Qed.
Lemma coef_psub n a b k : (k < n)%nat -> coef (psub n a b) k = coef a k - coef b k.
Proof. intros. apply coef_map. auto. Qed.
Lemma coef_pscale n c a k : (k < n)%nat -> coef (pscale n c a) k = c * coef a k.
Proof. intros. apply coef_map. auto. Qed.
Lemma coef_pmul n a b k : (k < n)%nat ->
  coef (pmul n a b) k = sumn n (fun i => sumn n (fun j => fold_sign n (i + j) k * (coef a i * coef b j))).
Proof. intros. apply coef_map. auto. Qed.
Lemma coef_pres n q a k : (k < n)%nat -> coef (pres n q a) k = coef a k mod q.
Proof. intros. apply coef_map. auto. Qed.
Lemma len_map_seq n (f : nat -> Z) : length (map f (seq 0 n)) = n.
Proof. rewrite map_length, seq_length. reflexivity. Qed.

(** the sign of x^m modulo x^n + 1, any m *)
Lemma fold_sign_sum n a l k : (a < n)%nat -> (l < n)%nat -> (k < n)%nat -> forall i j, (i < n)%nat -> (j < n)%nat ->
  (i + j = a)%nat \/ (i + j = a + n)%nat ->
  sumn n (fun m => fold_sign n (i + j) m * fold_sign n (m + l) k) =
  (if (i + j <? n)%nat then 1 else -1) * fold_sign n (a + l) k.
Proof.
  intros Ha Hl Hk i j Hi Hj H.
  rewrite (sumn_single n _ a Ha).
  - f_equal. unfold fold_sign. destruct H as [H|H]; rewrite H.
    + rewrite Nat.eqb_refl. destruct (Nat.ltb_spec a n); [auto|lia].
    + destruct (Nat.eqb_spec (a + n) a); [lia|]. rewrite Nat.eqb_refl. destruct (Nat.ltb_spec (a + n) n); [lia|auto].
  - intros m Hm Hma. unfold fold_sign at 1. destruct (Nat.eqb_spec (i + j) m); [lia|].
    destruct (Nat.eqb_spec (i + j) (m + n)); [lia|]. ring.
Qed.
Lemma fold_sign_assoc n i j l k : (i < n)%nat -> (j < n)%nat -> (l < n)%nat -> (k < n)%nat ->
  sumn n (fun m => fold_sign n (i + j) m * fold_sign n (m + l) k) =
  sumn n (fun m => fold_sign n (j + l) m * fold_sign n (i + m) k).
Proof.
  intros Hi Hj Hl Hk.
  assert (E1 : exists a, (a < n)%nat /\ ((i + j = a)%nat \/ (i + j = a + n)%nat)).
  { destruct (Nat.ltb_spec (i + j) n); [exists (i + j)%nat|exists (i + j - n)%nat]; lia. }
  assert (E2 : exists a, (a < n)%nat /\ ((j + l = a)%nat \/ (j + l = a + n)%nat)).
  { destruct (Nat.ltb_spec (j + l) n); [exists (j + l)%nat|exists (j + l - n)%nat]; lia. }
  destruct E1 as (a & Ha & HA), E2 as (b & Hb & HB).
  rewrite (fold_sign_sum n a l k Ha Hl Hk i j Hi Hj HA).
  rewrite (sumn_ext n _ (fun m => fold_sign n (j + l) m * fold_sign n (m + i) k)).
  2:{ intros m Hm. rewrite (Nat.add_comm i m). auto. }
  rewrite (fold_sign_sum n b i k Hb Hi Hk j l Hj Hl HB).
  unfold fold_sign.
  destruct (Nat.ltb_spec (i + j) n); destruct (Nat.ltb_spec (j + l) n);
  repeat match goal with |- context [(?x =? ?y)%nat] => destruct (Nat.eqb_spec x y) end; lia.
Qed.

Lemma sumn_scal3 n c (f : nat -> Z) : c * sumn n f = sumn n (fun i => c * f i).
Proof. symmetry. apply sumn_scal. Qed.
Lemma pmul_assoc_coef n a b c k : (k < n)%nat ->
  coef (pmul n (pmul n a b) c) k = coef (pmul n a (pmul n b c)) k.
Proof.
  intros Hk. rewrite !coef_pmul by auto.
  transitivity (sumn n (fun i => sumn n (fun j => sumn n (fun l =>
     (coef a i * coef b j * coef c l) * sumn n (fun m => fold_sign n (i + j) m * fold_sign n (m + l) k))))).
  - transitivity (sumn n (fun m => sumn n (fun l => sumn n (fun i => sumn n (fun j =>
      (coef a i * coef b j * coef c l) * (fold_sign n (i + j) m * fold_sign n (m + l) k)))))).
    + apply sumn_ext. intros m Hm. apply sumn_ext. intros l Hl. rewrite coef_pmul by auto.
      rewrite <- sumn_scal_r, <- sumn_scal. apply sumn_ext. intros i Hi.
      rewrite <- sumn_scal_r, <- sumn_scal. apply sumn_ext. intros j Hj. ring.
    + rewrite sumn_swap.
      transitivity (sumn n (fun l => sumn n (fun i => sumn n (fun j => sumn n (fun m =>
        (coef a i * coef b j * coef c l) * (fold_sign n (i + j) m * fold_sign n (m + l) k)))))).
      { apply sumn_ext. intros l Hl. rewrite sumn_swap. apply sumn_ext. intros i Hi. apply sumn_swap. }
      rewrite sumn_swap. apply sumn_ext. intros i Hi. rewrite sumn_swap. apply sumn_ext. intros j Hj.
      apply sumn_ext. intros l Hl. apply sumn_scal.
  - transitivity (sumn n (fun i => sumn n (fun j => sumn n (fun l =>
     (coef a i * coef b j * coef c l) * sumn n (fun m => fold_sign n (j + l) m * fold_sign n (i + m) k))))).
    { apply sumn_ext. intros i Hi. apply sumn_ext. intros j Hj. apply sumn_ext. intros l Hl.
      rewrite fold_sign_assoc; auto. }
    apply sumn_ext. intros i Hi.
    transitivity (sumn n (fun j => sumn n (fun l => sumn n (fun m =>
      (coef a i * coef b j * coef c l) * (fold_sign n (j + l) m * fold_sign n (i + m) k))))).
    { apply sumn_ext. intros j Hj. apply sumn_ext. intros l Hl. symmetry. apply sumn_scal. }
    transitivity (sumn n (fun m => sumn n (fun j => sumn n (fun l =>
      (coef a i * coef b j * coef c l) * (fold_sign n (j + l) m * fold_sign n (i + m) k))))).
    { transitivity (sumn n (fun j => sumn n (fun m => sumn n (fun l =>
        (coef a i * coef b j * coef c l) * (fold_sign n (j + l) m * fold_sign n (i + m) k))))).
      - apply sumn_ext. intros j Hj. apply sumn_swap.
      - apply sumn_swap. }
    apply sumn_ext. intros m Hm. rewrite coef_pmul by auto.
    rewrite <- sumn_scal, <- sumn_scal. apply sumn_ext. intros j Hj.
    rewrite <- sumn_scal, <- sumn_scal. apply sumn_ext. intros l Hl. ring.
Qed.
Lemma pmul_comm_coef n a b k : (k < n)%nat -> coef (pmul n a b) k = coef (pmul n b a) k.
Proof.
  intros Hk. rewrite !coef_pmul by auto. rewrite sumn_swap. apply sumn_ext. intros i Hi. apply sumn_ext. intros j Hj.
  rewrite (Nat.add_comm j i). ring.
Qed.
Lemma pmul_one_coef n a k : (k < n)%nat -> coef (pmul n [1] a) k = coef a k.
Proof.
  intros Hk. rewrite coef_pmul by auto. rewrite (sumn_single n _ 0%nat); [|lia|].
  - rewrite (sumn_single n _ k Hk).
    + unfold fold_sign. simpl Nat.add. rewrite Nat.eqb_refl. unfold coef at 1. simpl nth. ring.
    + intros j Hj Hjk. unfold fold_sign. simpl Nat.add. destruct (Nat.eqb_spec j k); [lia|].
      destruct (Nat.eqb_spec j (k + n)); [lia|]. ring.
  - intros i Hi Hi0. apply sumn_zero. intros j Hj. unfold coef at 1.
    rewrite nth_overflow by (simpl; lia). ring.
Qed.

(** a congruence that also covers the integers: q = 0 *)
Definition pc (n : nat) (q : Z) (a b : list Z) : Prop := forall k, (k < n)%nat -> (q | coef a k - coef b k).
Lemma pc_pcong n q a b : q <> 0 -> pc n q a b <-> pcong n q a b.
Proof.
  intros Hq. split; intros H k Hk; specialize (H k Hk).
  - destruct H as [z Hz]. replace (coef a k) with (coef b k + z * q) by lia. apply Z_mod_plus_full.
  - exists (coef a k / q - coef b k / q). pose proof (Z.div_mod (coef a k) q Hq). pose proof (Z.div_mod (coef b k) q Hq). lia.
Qed.
Section Ring.
Variables (n : nat) (q : Z).
Notation "a == b" := (pc n q a b) (at level 70).
Lemma pc_refl a : a == a.
Proof. intros k Hk. rewrite Z.sub_diag. apply Z.divide_0_r. Qed.
Lemma pc_sym a b : a == b -> b == a.
Proof. intros H k Hk. replace (coef b k - coef a k) with (- (coef a k - coef b k)) by ring. apply Z.divide_opp_r. auto. Qed.
Lemma pc_trans a b c : a == b -> b == c -> a == c.
Proof. intros H1 H2 k Hk. replace (coef a k - coef c k) with ((coef a k - coef b k) + (coef b k - coef c k)) by ring.
  apply Z.divide_add_r; auto. Qed.
Lemma pc_eq a b : (forall k, (k < n)%nat -> coef a k = coef b k) -> a == b.
Proof. intros H k Hk. rewrite H by auto. rewrite Z.sub_diag. apply Z.divide_0_r. Qed.
Lemma pc_add a a' b b' : a == a' -> b == b' -> padd n a b == padd n a' b'.
Proof. intros H1 H2 k Hk. rewrite !coef_padd by auto.
  replace (coef a k + coef b k - (coef a' k + coef b' k)) with ((coef a k - coef a' k) + (coef b k - coef b' k)) by ring.
  apply Z.divide_add_r; auto. Qed.
Lemma pc_sub a a' b b' : a == a' -> b == b' -> psub n a b == psub n a' b'.
Proof. intros H1 H2 k Hk. rewrite !coef_psub by auto.
  replace (coef a k - coef b k - (coef a' k - coef b' k)) with ((coef a k - coef a' k) - (coef b k - coef b' k)) by ring.
  apply Z.divide_sub_r; auto. Qed.
Lemma sumn_divide m f : (forall i, (i < m)%nat -> (q | f i)) -> (q | sumn m f).
Proof. induction m; simpl; intros H; [apply Z.divide_0_r|]. apply Z.divide_add_r; auto. Qed.
Lemma pc_mul a a' b b' : a == a' -> b == b' -> pmul n a b == pmul n a' b'.
Proof.
  intros H1 H2 k Hk. rewrite !coef_pmul by auto. rewrite <- sumn_sub. apply sumn_divide. intros i Hi.
  rewrite <- sumn_sub. apply sumn_divide. intros j Hj.
  replace (fold_sign n (i + j) k * (coef a i * coef b j) - fold_sign n (i + j) k * (coef a' i * coef b' j))
    with (fold_sign n (i + j) k * (coef a i * (coef b j - coef b' j) + coef b' j * (coef a i - coef a' i))) by ring.
  apply Z.divide_mul_r. apply Z.divide_add_r; apply Z.divide_mul_r; auto.
Qed.
Lemma pc_scale c a a' : a == a' -> pscale n c a == pscale n c a'.
Proof. intros H k Hk. rewrite !coef_pscale by auto. rewrite <- Z.mul_sub_distr_l. apply Z.divide_mul_r. auto. Qed.
Definition popp (a : list Z) : list Z := psub n [] a.
Lemma coef_nil k : coef [] k = 0.
Proof. unfold coef. destruct k; auto. Qed.
Lemma pmul_add_coef a b c k : (k < n)%nat -> coef (pmul n (padd n a b) c) k = coef (padd n (pmul n a c) (pmul n b c)) k.
Proof.
  intros Hk. rewrite coef_padd, !coef_pmul by auto. rewrite <- sumn_add. apply sumn_ext. intros i Hi.
  rewrite <- sumn_add. apply sumn_ext. intros j Hj. rewrite coef_padd by auto. ring.
Qed.
Lemma pscale_mul c a : pscale n c a == pmul n [c] a.
Proof.
  apply pc_eq. intros k Hk. rewrite coef_pscale, coef_pmul by auto. rewrite (sumn_single n _ 0%nat); [|lia|].
  - rewrite (sumn_single n _ k Hk).
    + unfold fold_sign. simpl Nat.add. rewrite Nat.eqb_refl. unfold coef at 2. simpl nth. ring.
    + intros j Hj Hjk. unfold fold_sign. simpl Nat.add. destruct (Nat.eqb_spec j k); [lia|].
      destruct (Nat.eqb_spec j (k + n)); [lia|]. ring.
  - intros i Hi Hi0. apply sumn_zero. intros j Hj. unfold coef at 1.
    rewrite nth_overflow by (simpl; lia). ring.
Qed.
Lemma pc_ring : ring_theory [] [1] (padd n) (pmul n) (psub n) popp (pc n q).
Proof.
  constructor; intros.
  - apply pc_eq. intros. rewrite coef_padd, coef_nil by auto. ring.
  - apply pc_eq. intros. rewrite !coef_padd by auto. ring.
  - apply pc_eq. intros. rewrite !coef_padd by auto. ring.
  - apply pc_eq. intros. apply pmul_one_coef. auto.
  - apply pc_eq. intros. apply pmul_comm_coef. auto.
  - apply pc_eq. intros. symmetry. apply pmul_assoc_coef. auto.
  - apply pc_eq. intros. apply pmul_add_coef. auto.
  - apply pc_eq. intros. unfold popp. rewrite coef_padd, !coef_psub, coef_nil by auto. ring.
  - apply pc_eq. intros. unfold popp. rewrite coef_padd, coef_psub, !coef_nil by auto. ring.
Qed.
Global Instance pc_equiv : Equivalence (pc n q).
Proof. split; [exact pc_refl|exact pc_sym|exact pc_trans]. Qed.
Global Instance padd_proper : Proper (pc n q ==> pc n q ==> pc n q) (padd n).
Proof. intros a a' H b b' H'. apply pc_add; auto. Qed.
Global Instance psub_proper : Proper (pc n q ==> pc n q ==> pc n q) (psub n).
Proof. intros a a' H b b' H'. apply pc_sub; auto. Qed.
Global Instance pmul_proper : Proper (pc n q ==> pc n q ==> pc n q) (pmul n).
Proof. intros a a' H b b' H'. apply pc_mul; auto. Qed.
Global Instance popp_proper : Proper (pc n q ==> pc n q) popp.
Proof. intros a a' H. apply pc_sub; auto. apply pc_refl. Qed.
Global Instance pscale_proper c : Proper (pc n q ==> pc n q) (pscale n c).
Proof. intros a a' H. apply pc_scale; auto. Qed.
Lemma pc_ext : ring_eq_ext (padd n) (pmul n) popp (pc n q).
Proof. constructor; [exact padd_proper|exact pmul_proper|exact popp_proper]. Qed.
End Ring.
