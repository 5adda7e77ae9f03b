(** Properties C15-C18: number-theoretic transforms. *)
From Coq Require Import ZArith List Bool Arith Lia Znumtheory Setoid Morphisms.
From Verif Require Import Words ModArith_Model ModArith_Proofs ModArith_Props NumTheory_Model NumTheory_Proofs
  ModEq Sums NTT_Model NTT_Proofs NTT2_Proofs NTT3_Proofs.
Import ListNotations.
Open Scope Z_scope.

(** ** Specification vocabulary ([sumn n f] is f 0 + ... + f (n-1)) *)

(** a polynomial with n coefficients over Z_q *)
Definition poly (q : Z) (n : nat) (a : list Z) : Prop :=
  length a = n /\ Forall (fun x => 0 <= x < q) a.
(** its value at x *)
Definition value (q : Z) (a : list Z) (x : Z) : Z :=
  sumn (length a) (fun j => nth j a 0 * x ^ Z.of_nat j) mod q.
(** coefficient k of a*b modulo x^n+1 : x^(k+n) counts as -x^k *)
Definition ring_coeff (n : nat) (a b : list Z) (k : nat) : Z :=
  sumn n (fun i => sumn n (fun j =>
    if (i + j =? k)%nat then nth i a 0 * nth j b 0
    else if (i + j =? k + n)%nat then - (nth i a 0 * nth j b 0) else 0)).
(** [c] is the product of [a] and [b] in Z_q[x]/(x^n+1) *)
Definition ring_product (q : Z) (n : nat) (a b c : list Z) : Prop :=
  poly q n c /\ forall k, (k < n)%nat -> nth k c 0 = ring_coeff n a b k mod q.
(** [root] is a root of x^n+1 modulo q *)
Definition root_of (q : Z) (n : nat) (root : Z) : Prop :=
  0 <= root < q /\ root ^ Z.of_nat n mod q = q - 1.
(** a limb on which the compile-time transform is meant to work *)
Definition ntt_friendly (k : nat) (m : Z) : Prop :=
  prime m /\ m < 2 ^ 64 /\ (2 * 2 ^ Z.of_nat k | m - 1).
Definition rns_poly (k : nat) (ms : list Z) (p : rnspoly) : Prop :=
  map fst p = ms /\ forall m a, In (m, a) p -> poly m (2 ^ k) a.

Lemma root_of_cong q n root : 1 < q -> root_of q n root -> cong q (root ^^ n) (-1).
Proof.
  intros Hq [_ H]. apply eq_cong. rewrite H. rewrite <- (Z_mod_plus_full (-1) 1 q).
  rewrite Z.mod_small; lia.
Qed.
Lemma ring_coeff_nega n a b k : (k < n)%nat -> ring_coeff n a b k = nega n a b k.
Proof.
  intros Hk. unfold ring_coeff, nega. apply sumn_ext. intros i Hi.
  destruct (Nat.leb_spec i k).
  - rewrite (sumn_single n _ (k - i)).
    + replace (i + (k - i) =? k)%nat with true by (symmetry; apply Nat.eqb_eq; lia). auto.
    + lia.
    + intros j Hj Hne. destruct (Nat.eqb_spec (i + j) k); [lia|].
      destruct (Nat.eqb_spec (i + j) (k + n)); [lia|auto].
  - rewrite (sumn_single n _ (n + k - i)).
    + destruct (Nat.eqb_spec (i + (n + k - i)) k); [lia|].
      destruct (Nat.eqb_spec (i + (n + k - i)) (k + n)); [auto|lia].
    + lia.
    + intros j Hj Hne. destruct (Nat.eqb_spec (i + j) k); [lia|].
      destruct (Nat.eqb_spec (i + j) (k + n)); [lia|auto].
Qed.
Lemma nega_list_product q n a b : 1 < q -> length a = n -> ring_product q n a b (nega_list q a b).
Proof.
  intros Hq <-. split; [split|].
  - unfold nega_list. rewrite map_length, seq_length. auto.
  - apply Forall_forall. intros x Hx. apply in_map_iff in Hx as (y & <- & _). apply Z.mod_pos_bound; lia.
  - intros k Hk. unfold nega_list. rewrite nth_map_seq by auto. rewrite ring_coeff_nega; auto.
Qed.
Lemma value_nth q a r i :
  value q a (r ^ Z.of_nat i) = (sumn (length a) (fun j => nth j a 0 * r ^^ (i * j))) mod q.
Proof. unfold value. f_equal. apply sumn_ext. intros j _. rewrite npow_mul. auto. Qed.
Lemma rns_good k ms p : Forall (ntt_friendly k) ms -> rns_poly k ms p -> Forall (good_limb k) p.
Proof.
  intros Hm [<- Hp]. rewrite Forall_forall in *. intros [m a] Hin.
  destruct (Hm m) as (A & B & C). { apply in_map_iff. exists (m, a). auto. }
  destruct (Hp m a Hin) as [D E]. exact (conj A (conj B (conj C (conj D E)))).
Qed.

(** ** C15 *)

(** With any root of x^n+1 modulo an odd modulus q > n the two in-place transforms are inverse. *)
Theorem C15_ntt_round_trip q k root a :
  1 < q < 2 ^ 64 -> Z.odd q = true -> Z.of_nat (2 ^ k) < q ->
  root_of q (2 ^ k) root -> poly q (2 ^ k) a ->
  exists r, ntt_in_place q root a = Some r /\ poly q (2 ^ k) r /\ intt_in_place q root r = Some a.
Proof.
  intros Hq Ho Hn Hr [La Ca].
  pose proof (root_of_cong q _ root ltac:(lia) Hr) as Hc. destruct Hr as [Hr _].
  destruct (ntt_round_trip q Hq k root a La Ca Hr (root_coprime q k root Hc Ho) Ho Hn)
    as (r & H1 & H2 & H3 & H4).
  exists r. split; [auto|split; [split; auto|auto]].
Qed.
Print Assumptions C15_ntt_round_trip.

(** What the forward transform computes: the values at the odd powers of the root, in bit-reversed order. *)
Theorem C15_ntt_evaluates q k root a :
  1 < q < 2 ^ 64 -> root_of q (2 ^ k) root -> poly q (2 ^ k) a ->
  exists r, ntt_in_place q root a = Some r /\ poly q (2 ^ k) r /\
  forall i, (i < 2 ^ k)%nat -> nth (bitrev k i) r 0 = value q a (root ^ Z.of_nat (2 * i + 1)).
Proof.
  intros Hq Hr [La Ca].
  pose proof (root_of_cong q _ root ltac:(lia) Hr) as Hc. destruct Hr as [Hr _].
  destruct (ntt_eval q Hq k root a La Ca Hr Hc) as (r & H1 & H2 & H3 & H4).
  exists r. split; [auto|split; [split; auto|]]. intros i Hi. rewrite value_nth, La. auto.
Qed.
Print Assumptions C15_ntt_evaluates.

(** RNS polynomials over NTT-friendly primes: the code finds its own roots ([fuel] bounds
    the root search; any large enough bound gives the same answer). *)
Theorem C15_rns_round_trip k ms p :
  Forall (ntt_friendly k) ms -> rns_poly k ms p ->
  exists fuel0, forall fuel, (fuel0 <= fuel)%nat ->
  exists r, to_ntt fuel p = Some r /\ to_coefficient fuel r = Some p.
Proof. intros Hm Hp. apply (rns_round_trip k). eapply rns_good; eauto. Qed.
Print Assumptions C15_rns_round_trip.

Example C15_nonvacuous :
  root_of 17 4 9 /\ poly 17 4 [1; 2; 3; 16] /\
  ntt_in_place 17 9 [1; 2; 3; 16] = Some [9; 3; 0; 9] /\
  intt_in_place 17 9 [9; 3; 0; 9] = Some [1; 2; 3; 16] /\
  to_coefficient 40 [(17, [9; 3; 0; 9])] = Some [(17, [1; 2; 3; 16])].
Proof.
  assert (F : Forall (fun x => 0 <= x < 17) [1; 2; 3; 16]) by (repeat constructor; lia).
  split; [split; [lia|reflexivity]|]. split; [split; [reflexivity|exact F]|]. vm_compute. auto.
Qed.
Example C15_friendly : ntt_friendly 3 17.
Proof.
  split; [|split; [reflexivity|exists 1; reflexivity]].
  apply prime_intro; [lia|]. intros n Hn. apply Zgcd_1_rel_prime.
  assert (H : In n (map Z.of_nat (seq 1 16))).
  { apply in_map_iff. exists (Z.to_nat n). split; [lia|]. apply in_seq. lia. }
  cbn in H. repeat destruct H as [<- |H]; try reflexivity. destruct H.
Qed.

(** ** C16 *)

(** Transforming both factors, multiplying pointwise and transforming back. *)
Theorem C16_ntt_product q k root a b :
  1 < q < 2 ^ 64 -> Z.odd q = true -> Z.of_nat (2 ^ k) < q ->
  root_of q (2 ^ k) root -> poly q (2 ^ k) a -> poly q (2 ^ k) b ->
  exists ra rb rc c, ntt_in_place q root a = Some ra /\ ntt_in_place q root b = Some rb /\
    omap (fun uv => mulmod64 (fst uv) (snd uv) q) (combine ra rb) = Some rc /\
    intt_in_place q root rc = Some c /\ ring_product q (2 ^ k) a b c.
Proof.
  intros Hq Ho Hn Hr [La Ca] [Lb Cb].
  pose proof (root_of_cong q _ root ltac:(lia) Hr) as Hc. destruct Hr as [Hr _].
  destruct (ntt_mul q Hq k root Hc Hr Ho Hn a b La Lb Ca Cb) as (ra & rb & rc & H1 & H2 & _ & _ & H3 & _ & H4).
  exists ra, rb, rc, (nega_list q a b). repeat (split; [assumption|]). apply nega_list_product; auto; lia.
Qed.
Print Assumptions C16_ntt_product.

(** RNSPolynomial::mul in coefficient form is the ring product in every limb. *)
Theorem C16_rns_product k ms p1 p2 :
  Forall (ntt_friendly k) ms -> rns_poly k ms p1 -> rns_poly k ms p2 ->
  exists fuel0, forall fuel, (fuel0 <= fuel)%nat ->
  exists r, rns_mul_coeff fuel p1 p2 = Some r /\ rns_poly k ms r /\
    forall i m a b c, nth_error p1 i = Some (m, a) -> nth_error p2 i = Some (m, b) ->
      nth_error r i = Some (m, c) -> ring_product m (2 ^ k) a b c.
Proof.
  intros Hm H1 H2.
  pose proof (rns_good _ _ _ Hm H1) as G1. pose proof (rns_good _ _ _ Hm H2) as G2.
  destruct H1 as [M1 P1], H2 as [M2 P2].
  assert (Hlen : length p1 = length p2) by (rewrite <- (map_length fst p1), <- (map_length fst p2); congruence).
  assert (HC : Forall (limb_pair_ok k) (combine p1 p2) /\
    map fst (map (fun xy : (Z * list Z) * (Z * list Z) =>
        (fst (fst xy), nega_list (fst (fst xy)) (snd (fst xy)) (snd (snd xy)))) (combine p1 p2)) = ms).
  { clear P1 P2 Hm. revert ms p2 M1 M2 G1 G2 Hlen.
    induction p1 as [|x p1 IH]; intros ms [|y p2] M1 M2 G1 G2 Hlen; try discriminate; cbn [combine map] in *.
    - split; auto.
    - subst ms. injection M2 as M2 M3. inversion G1; inversion G2; subst.
      destruct (IH (map fst p1) p2) as [I1 I2]; auto.
      cbn [map fst snd]. split; [|rewrite I2; auto]. constructor; auto. split; [auto|split; [auto|cbn [fst]; auto]]. }
  destruct HC as [HC HM].
  destruct (rns_mul_ok k p1 p2 Hlen HC) as [f Hf]. exists f. intros f' Hf'. rewrite (Hf f' Hf').
  eexists. split; [reflexivity|]. split; [split; [exact HM|]|].
  - intros m a Hin. apply in_map_iff in Hin as ([[m1 a1] [m2 a2]] & E & Hin). cbn [fst snd] in E.
    injection E as <- <-. apply in_combine_l in Hin. rewrite Forall_forall in G1.
    destruct (G1 _ Hin) as (Hp & _ & _ & L & _). cbn [fst snd] in *.
    apply prime_ge_2 in Hp. apply nega_list_product with (n := (2 ^ k)%nat); auto; lia.
  - intros i m a b c E1 E2 E3. rewrite nth_error_map in E3.
    assert (EC : forall (l1 l2 : rnspoly) i x y, nth_error l1 i = Some x -> nth_error l2 i = Some y ->
      nth_error (combine l1 l2) i = Some (x, y)).
    { clear. induction l1; intros [|] [|i] x y; cbn; intros; try discriminate; try congruence. auto. }
    rewrite (EC _ _ _ _ _ E1 E2) in E3. cbn [option_map fst snd] in E3. injection E3 as <-.
    apply nth_error_In in E1. rewrite Forall_forall in G1.
    destruct (G1 _ E1) as (Hp & _ & _ & L & _). cbn [fst snd] in *.
    apply prime_ge_2 in Hp. apply nega_list_product; auto; lia.
Qed.
Print Assumptions C16_rns_product.

(** Addition (moduli up to 2^63) and subtraction of RNS polynomials. *)
Definition coeffwise (g : Z -> Z -> Z) (p1 p2 : rnspoly) : rnspoly :=
  map (fun xy => (fst (fst xy), map (fun uv => g (fst uv) (snd uv) mod (fst (fst xy)))
                                  (combine (snd (fst xy)) (snd (snd xy))))) (combine p1 p2).
Lemma zip_pairs k ms p1 p2 : (forall m, In m ms -> 0 < m) -> rns_poly k ms p1 -> rns_poly k ms p2 ->
  length p1 = length p2 /\
  forall x y, In (x, y) (combine p1 p2) -> fst x = fst y /\ length (snd x) = length (snd y) /\ In (fst x) ms /\
     forall a b, In (a, b) (combine (snd x) (snd y)) -> can (fst x) a /\ can (fst x) b.
Proof.
  intros Hm [M1 P1] [M2 P2].
  assert (Hlen : length p1 = length p2) by (rewrite <- (map_length fst p1), <- (map_length fst p2); congruence).
  split; auto. intros [m a] [m' b] Hin.
  assert (E : m = m' /\ In m ms).
  { clear P1 P2 Hm. revert ms p2 M1 M2 Hlen Hin. induction p1 as [|[mx x] p1 IH]; intros ms [|[my y] p2] M1 M2 Hlen Hin; try (destruct Hin; fail).
    cbn [combine map fst] in *. subst ms. injection M2 as M2 M3. destruct Hin as [E|Hin].
    - injection E as <- <- <- <-. split; [auto|left; auto].
    - destruct (IH (map fst p1) p2) as [I1 I2]; auto. split; [auto|right; auto]. }
  destruct E as [<- Hin']. cbn [fst snd].
  destruct (P1 m a (in_combine_l _ _ _ _ Hin)) as [A1 A2]. destruct (P2 m b (in_combine_r _ _ _ _ Hin)) as [B1 B2].
  split; auto. split; [lia|]. split; auto. intros u v Huv. rewrite Forall_forall in A2, B2.
  split; [apply A2; eapply in_combine_l; eauto|apply B2; eapply in_combine_r; eauto].
Qed.
Theorem C16_rns_add k ms p1 p2 :
  (forall m, In m ms -> 0 < m <= 2 ^ 63) -> rns_poly k ms p1 -> rns_poly k ms p2 ->
  rns_add p1 p2 = Some (coeffwise Z.add p1 p2).
Proof.
  intros Hm H1 H2. destruct (zip_pairs k ms p1 p2) as [Hl HZ]; auto.
  { intros m Hin. apply Hm in Hin. lia. }
  unfold rns_add, coeffwise. rewrite (rns_zip_ok _ (fun m a b => (a + b) mod m)); auto.
  intros x y Hin. destruct (HZ x y Hin) as (A & B & C & D). split; auto. split; auto.
  intros a b Hab. destruct (D a b Hab). rewrite add64_ok; auto.
Qed.
Print Assumptions C16_rns_add.
Theorem C16_rns_sub k ms p1 p2 :
  (forall m, In m ms -> 0 < m < 2 ^ 64) -> rns_poly k ms p1 -> rns_poly k ms p2 ->
  rns_sub p1 p2 = Some (coeffwise Z.sub p1 p2).
Proof.
  intros Hm H1 H2. destruct (zip_pairs k ms p1 p2) as [Hl HZ]; auto.
  { intros m Hin. apply Hm in Hin. lia. }
  unfold rns_sub, coeffwise. rewrite (rns_zip_ok _ (fun m a b => (a - b) mod m)); auto.
  intros x y Hin. destruct (HZ x y Hin) as (A & B & C & D). split; auto. split; auto.
  intros a b Hab. destruct (D a b Hab). rewrite sub64_ok; auto.
Qed.
Print Assumptions C16_rns_sub.
(** Above 2^63 the sum of two residues wraps around 64 bits before it is reduced. *)
Theorem C16_rns_add_refuted : exists m p1 p2,
  0 < m < 2 ^ 64 /\ rns_poly 0 [m] p1 /\ rns_poly 0 [m] p2 /\
  rns_add p1 p2 <> Some (coeffwise Z.add p1 p2).
Proof.
  exists (2 ^ 64 - 59), [(2 ^ 64 - 59, [2 ^ 64 - 60])], [(2 ^ 64 - 59, [2 ^ 64 - 60])].
  assert (Hp : rns_poly 0 [2 ^ 64 - 59] [(2 ^ 64 - 59, [2 ^ 64 - 60])]).
  { split; [reflexivity|]. intros m a [E|[]]. injection E as <- <-. split; [reflexivity|].
    constructor; [|constructor]. split; [discriminate|reflexivity]. }
  split; [lia|]. split; auto. split; auto. vm_compute. discriminate.
Qed.
Print Assumptions C16_rns_add_refuted.

Example C16_nonvacuous :
  rns_mul_coeff 40 [(17, [1; 2; 3; 4]); (97, [5; 6; 7; 8])] [(17, [0; 1; 0; 0]); (97, [0; 1; 0; 0])]
  = Some [(17, [13; 1; 2; 3]); (97, [89; 5; 6; 7])] /\
  map (ring_coeff 4 [1; 2; 3; 4] [0; 1; 0; 0]) [0; 1; 2; 3]%nat = [-4; 1; 2; 3] /\
  rns_poly 2 [17; 97] [(17, [1; 2; 3; 4]); (97, [5; 6; 7; 8])].
Proof.
  split; [vm_compute; reflexivity|]. split; [vm_compute; reflexivity|]. split; [reflexivity|].
  intros m a [E|[E|[]]]; injection E as <- <-; (split; [reflexivity|repeat constructor; lia]).
Qed.

(** ** C17 *)

(** The tensor code emitted for polynomial.ntt: values at the odd powers of the root, natural order. *)
Theorem C17_lowered_ntt_evaluates w q k root a :
  accepted_type w q -> 1 < q -> root_of q (2 ^ k) root -> poly q (2 ^ k) a ->
  exists r, lowered_ntt w q root a = Some r /\ poly q (2 ^ k) r /\
  forall i, (i < 2 ^ k)%nat -> nth i r 0 = value q a (root ^ Z.of_nat (2 * i + 1)).
Proof.
  intros Ht Hq Hr [La Ca]. pose proof (accepted_bound _ _ Ht) as Hb. destruct Ht as [Hw _].
  pose proof (root_of_cong q _ root Hq Hr) as Hc. destruct Hr as [Hr _].
  destruct (lowered_eval w q Hw ltac:(lia) k root a La Ca Hr Hc) as (r & H1 & H2 & H3 & H4).
  exists r. split; [auto|split; [split; auto|]]. intros i Hi. rewrite value_nth, La. auto.
Qed.
Print Assumptions C17_lowered_ntt_evaluates.

(** The code emitted for polynomial.intt with the inverse root attribute undoes it. *)
Theorem C17_lowered_round_trip w q k root rinv a :
  accepted_type w q -> 1 < q -> Z.odd q = true -> Z.of_nat (2 ^ k) < q ->
  0 <= root < q -> 0 <= rinv < q -> (root * rinv) mod q = 1 -> poly q (2 ^ k) a ->
  exists r, lowered_ntt w q root a = Some r /\ poly q (2 ^ k) r /\ lowered_intt w q rinv r = Some a.
Proof.
  intros Ht Hq Ho Hn Hr Hri Hinv [La Ca]. pose proof (accepted_bound _ _ Ht) as Hb. destruct Ht as [Hw _].
  destruct (lowered_round_trip w q Hw ltac:(lia) k root rinv a La Ca Hr Hri) as (r & H1 & H2 & H3 & H4); auto.
  { apply eq_cong. rewrite Hinv. rewrite Z.mod_small; lia. }
  exists r. split; [auto|split; [split; auto|auto]].
Qed.
Print Assumptions C17_lowered_round_trip.
Example C17_nonvacuous :
  accepted_type 8 17 /\ root_of 17 4 9 /\ (9 * 2) mod 17 = 1 /\
  lowered_ntt 8 17 9 [1; 2; 3; 4] = Some [16; 11; 13; 15] /\ value 17 [1; 2; 3; 4] (9 ^ 3) = 11 /\
  lowered_intt 8 17 2 [16; 11; 13; 15] = Some [1; 2; 3; 4].
Proof. repeat split; try lia; vm_compute; auto. Qed.

(** ** C18 *)

(** The folded transform holds the lowered one in bit-reversed order. *)
Theorem C18_fold_is_permuted w q k root a :
  accepted_type w q -> 1 < q < 2 ^ 64 -> root_of q (2 ^ k) root -> poly q (2 ^ k) a ->
  exists rf rl, folded_ntt q root a = Some rf /\ lowered_ntt w q root a = Some rl /\
  length rf = (2 ^ k)%nat /\ length rl = (2 ^ k)%nat /\
  forall i, (i < 2 ^ k)%nat -> nth (bitrev k i) rf 0 = nth i rl 0.
Proof.
  intros Ht Hq Hr Hp.
  destruct (C15_ntt_evaluates q k root a Hq Hr Hp) as (rf & F1 & [F2 _] & F3).
  destruct (C17_lowered_ntt_evaluates w q k root a Ht ltac:(lia) Hr Hp) as (rl & L1 & [L2 _] & L3).
  exists rf, rl. unfold folded_ntt. destruct Hp as [La _]. rewrite La, pow2_len.
  repeat (split; [assumption|]). intros i Hi. rewrite F3, L3; auto.
Qed.
Print Assumptions C18_fold_is_permuted.
(** Hence they agree up to length two. *)
Theorem C18_fold_small_degree_partial w q k root a : (k <= 1)%nat ->
  accepted_type w q -> 1 < q < 2 ^ 64 -> root_of q (2 ^ k) root -> poly q (2 ^ k) a ->
  folded_ntt q root a = lowered_ntt w q root a.
Proof.
  intros Hk Ht Hq Hr Hp.
  destruct (C18_fold_is_permuted w q k root a Ht Hq Hr Hp) as (rf & rl & -> & -> & L1 & L2 & H).
  f_equal. apply (list_eq_nth 0); [lia|]. intros i Hi. rewrite L1 in Hi.
  specialize (H i Hi). rewrite <- H. f_equal.
  destruct k as [|[|]]; [| |lia]; cbn in Hi; destruct i as [|[|]]; try lia; reflexivity.
Qed.
Print Assumptions C18_fold_small_degree_partial.
(** From length four on they differ. *)
Theorem C18_ntt_fold_refuted : exists w q k root a,
  accepted_type w q /\ 1 < q < 2 ^ 64 /\ root_of q (2 ^ k) root /\ poly q (2 ^ k) a /\
  folded_ntt q root a <> lowered_ntt w q root a /\
  (exists r, folded_ntt q root a = Some r) /\ (exists r, lowered_ntt w q root a = Some r).
Proof.
  exists 8, 17, 2%nat, 9, [1; 2; 3; 4].
  assert (F : Forall (fun x => 0 <= x < 17) [1; 2; 3; 4]) by (repeat constructor; lia).
  split; [repeat split; auto; lia|]. split; [lia|]. split; [split; [lia|reflexivity]|].
  split; [split; [reflexivity|exact F]|]. split; [vm_compute; discriminate|].
  split; eexists; vm_compute; reflexivity.
Qed.
Print Assumptions C18_ntt_fold_refuted.
(** polynomial.intt carries the inverse root (as AttachNTTRoots attaches it, and as the lowering
    needs, C17), but the folder inverts it again; already wrong at length two. *)
Theorem C18_intt_fold_refuted : exists w q k root rinv a,
  accepted_type w q /\ 1 < q < 2 ^ 64 /\ root_of q (2 ^ k) root /\ (root * rinv) mod q = 1 /\
  0 <= rinv < q /\ poly q (2 ^ k) a /\
  folded_intt q rinv a <> lowered_intt w q rinv a /\
  (exists r, folded_intt q rinv a = Some r) /\ (exists r, lowered_intt w q rinv a = Some r).
Proof.
  exists 8, 17, 1%nat, 4, 13, [1; 2].
  assert (F : Forall (fun x => 0 <= x < 17) [1; 2]) by (repeat constructor; lia).
  split; [repeat split; auto; lia|]. split; [lia|]. split; [split; [lia|reflexivity]|].
  split; [reflexivity|]. split; [lia|]. split; [split; [reflexivity|exact F]|].
  split; [vm_compute; discriminate|]. split; eexists; vm_compute; reflexivity.
Qed.
Print Assumptions C18_intt_fold_refuted.
Example C18_nonvacuous : folded_ntt 17 4 [3; 5] = Some [6; 0] /\ lowered_ntt 8 17 4 [3; 5] = Some [6; 0] /\
  root_of 17 2 4.
Proof. repeat split; try lia; vm_compute; auto. Qed.
