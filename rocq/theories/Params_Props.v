(** * C96: generated RLWE parameters

    Parameters for BGV and CKKS consist of the ring dimension, the primes of the
    ciphertext modulus and the special primes for key switching. *)
From Coq Require Import ZArith List Bool Lia Znumtheory.
From Verif Require Import Params_Spec Params_Primes Params_Model Params_Proofs.
Import ListNotations.
Open Scope Z_scope.

(** Primes of BGV parameters: one per requested size, all of them larger than
    requested and than [2 ^ 20]; as many special primes as the largest digit has
    primes; all have a number theoretic transform, are pairwise distinct and
    differ from the plaintext modulus. The ring has the slots asked for. *)
Theorem C96_primes first next fuel rounds sizes t minSlotCount par :
  returns_primes first next ->
  bgvConcreteSchemeParam first next fuel rounds sizes t minSlotCount = Some par ->
  (Forall2 (fun s q => 2 ^ s < q /\ 2 ^ 20 < q) sizes (qi par)) /\
  Z.of_nat (length (qi par)) = level par + 1 /\
  1 <= dnum par /\
  Z.of_nat (length (qi par)) <= Z.of_nat (length (pi par)) * dnum par
    < Z.of_nat (length (qi par)) + dnum par /\
  NoDup (qi par ++ pi par) /\
  (forall q, In q (qi par ++ pi par) -> ntt_prime (ringDim par) q /\ (t <> 0 -> q <> t)) /\
  In (ringDim par) (map fst max_log_modulus) /\ 2 * minSlotCount <= ringDim par.
Proof.
  intros ext H. unfold bgvConcreteSchemeParam in H.
  destruct (concrete_inv _ _ _ _ _ _ _ _ H) as (mx & e & e' & Hm & Hn & Hl & Hd & Hq & Hp & Hr).
  assert (Hsz : forall s, In s (sanitize sizes) -> 0 <= s) by (intros s Hs; apply sanitize_ge in Hs; lia).
  destruct (find_primes_ok _ _ ext fuel (ringDim par) ltac:(lia) _ _ _ _ Hsz Hq) as (Q1 & Q2 & Q3 & Q4 & Q5).
  assert (Hmx : 0 <= mx).
  { destruct (sanitize sizes) as [|s l] eqn:Es; [discriminate|].
    pose proof (max_element_ge _ _ s Hm (or_introl eq_refl)). specialize (Hsz s (or_introl eq_refl)). lia. }
  assert (Hpz : forall s, In s (repeat mx (Z.to_nat (num_special (Z.of_nat (length sizes)) (dnum par)))) -> 0 <= s)
    by (intros s Hs; apply repeat_spec in Hs; lia).
  destruct (find_primes_ok _ _ ext fuel (ringDim par) ltac:(lia) _ _ _ _ Hpz Hp) as (P1 & P2 & P3 & P4 & P5).
  pose proof (Forall2_sanitize _ _ Q2) as Q6.
  pose proof (Forall2_len _ _ _ Q6) as Ql. pose proof (Forall2_len _ _ _ P2) as Pl. rewrite repeat_length in Pl.
  pose proof (dnum_pos (level_of sizes)) as Hd1. rewrite <- Hd in Hd1.
  split; auto. split; [rewrite Hl; unfold level_of; lia|]. split; auto. split.
  { rewrite <- Pl, <- Ql. unfold num_special.
    assert (0 <= (Z.of_nat (length sizes) + dnum par - 1) / dnum par) by (apply Z.div_pos; lia).
    rewrite Z2Nat.id by auto.
    pose proof (Z.div_mod (Z.of_nat (length sizes) + dnum par - 1) (dnum par) ltac:(lia)).
    pose proof (Z.mod_pos_bound (Z.of_nat (length sizes) + dnum par - 1) (dnum par) ltac:(lia)). nia. }
  split.
  { apply nodup_app_intro; auto. intros x Hx C. apply (P5 x Hx). rewrite Q1. apply in_or_app. auto. }
  split.
  { intros q Hin. apply in_app_or in Hin as [Hin|Hin]; split; auto; intros Ht ->.
    - apply (Q5 t Hin). apply Z.eqb_neq in Ht. rewrite Ht. left. auto.
    - apply (P5 t Hin). rewrite Q1. apply Z.eqb_neq in Ht. rewrite Ht. left. auto. }
  destruct (ring_dim_ok _ _ _ Hr) as (R1 & k & R2 & _). split; auto.
  apply in_map_iff. exists (ringDim par, k). auto.
Qed.
Print Assumptions C96_primes.

(** The product of the special primes of BGV parameters exceeds the product of
    any digit, that is of any moduli at most as many as special primes. *)
Theorem C96_special first next limit fuel rounds sizes t minSlotCount par digit :
  returns_primes first next -> returns_least limit first next ->
  bgvConcreteSchemeParam first next fuel rounds sizes t minSlotCount = Some par ->
  incl digit (qi par) -> (length digit <= length (pi par))%nat ->
  product digit < product (pi par).
Proof.
  intros ext least H Hi Hlen. pose proof H as Hall. apply C96_primes in Hall; auto.
  destruct Hall as (_ & Hlv & Hdn & Hnp & _ & Hntt & _).
  unfold bgvConcreteSchemeParam in H.
  destruct (concrete_inv _ _ _ _ _ _ _ _ H) as (mx & e & e' & Hm & Hn & Hl & Hd & Hq & Hp & Hr).
  assert (Hpos : forall q, In q (qi par ++ pi par) -> 1 < q).
  { intros q Hin. destruct (Hntt q Hin) as ((Hpr & _) & _). apply prime_alt in Hpr as (Hpr & _). auto. }
  assert (Hlq : (0 < length (qi par))%nat).
  { destruct sizes as [|s l]; [discriminate Hm|]. rewrite Hl in Hlv. unfold level_of in Hlv. cbn [length] in Hlv. lia. }
  apply product_less; auto.
  - intros a b Ha Hb. apply Hi in Ha.
    split; [specialize (Hpos a (in_or_app _ _ _ (or_introl Ha))); lia|].
    (* [b] was found with all of the moduli existing *)
    assert (Hs : forall x, In x (sanitize sizes) -> 0 <= x <= mx).
    { intros x Hx. split; [apply sanitize_ge in Hx; lia|]. eapply max_element_ge; eauto. }
    assert (G : forall k e1 ps e2, (forall x, In x e -> In x e1) ->
      find_primes first next fuel (ringDim par) (repeat mx k) e1 = Some (ps, e2) -> In b ps -> a < b).
    { induction k as [|k IH]; intros e1 ps e2 He1 Hf Hbp; cbn [repeat find_primes] in Hf.
      - injection Hf as <- <-. destruct Hbp.
      - destruct (findPrime _ _ _ mx _ _) as [p|] eqn:Ep; [|discriminate].
        destruct (find_primes _ _ _ _ (repeat mx k) _) as [[ps' e3]|] eqn:Er; [|discriminate].
        injection Hf as <- <-. destruct Hbp as [<-|Hbp].
        + eapply (find_primes_step first next ext limit least fuel (ringDim par) ltac:(lia)); eauto.
        + eapply IH; [|exact Er|exact Hbp]. intros x Hx. apply in_or_app. auto. }
    eapply G; eauto.
  - intros C. rewrite C in Hnp. cbn in Hnp. lia.
  - intros b Hb. apply Hpos. apply in_or_app. auto.
Qed.
Print Assumptions C96_special.

(** The modulus has at most one bit more than the guidelines allow for 128 bits
    of security. Missing: that it has no more bits than allowed. *)
Theorem C96_security_partial first next fuel rounds sizes t minSlotCount par :
  returns_primes first next ->
  bgvConcreteSchemeParam first next fuel rounds sizes t minSlotCount = Some par ->
  exists bits, In (ringDim par, bits) max_log_modulus /\
    product (qi par ++ pi par) < 2 ^ (bits + 1).
Proof.
  intros ext H. pose proof H as Hall. apply C96_primes in Hall; auto.
  destruct Hall as (_ & _ & _ & _ & _ & Hntt & _).
  unfold bgvConcreteSchemeParam in H.
  destruct (concrete_inv _ _ _ _ _ _ _ _ H) as (mx & e & e' & Hm & Hn & Hl & Hd & Hq & Hp & Hr).
  destruct (ring_dim_ok _ _ _ Hr) as (_ & k & R2 & R3). exists k. split; auto.
  apply log_total_bound; auto. intros q Hin.
  destruct (Hntt q Hin) as ((Hpr & _) & _). apply prime_alt in Hpr as (Hpr & _). lia.
Qed.
Print Assumptions C96_security_partial.

(** The modulus may exceed the bits allowed: the logarithm of the modulus is
    truncated to an integer before it is compared. *)
Theorem C96_security_refuted : exists first next limit fuel rounds sizes t minSlotCount par bits,
  returns_primes first next /\ returns_least limit first next /\
  bgvConcreteSchemeParam first next fuel rounds sizes t minSlotCount = Some par /\
  In (ringDim par, bits) max_log_modulus /\ 2 ^ bits < product (qi par ++ pi par).
Proof.
  exists first24, next24, limit24, 20%nat, 5%nat, [20; 20; 22], 65537, 1024,
    (Params 4096 2 [1073153; 1097729; 4300801] 2 [4366337; 4423681]), 106.
  split; [apply generators24|]. split; [apply generators24|]. split; [vm_compute; reflexivity|].
  split; [cbn; auto 10|]. vm_compute. reflexivity.
Qed.
Print Assumptions C96_security_refuted.

(** Sizes from the noise analysis: if moduli are reduced at exactly the levels
    1 to L, there are L + 1 sizes, each at least one more than every gap of its
    level, and the first two more than every bound at level 0. *)
Theorem C96_gap_sizes reductions bounds0 L :
  (forall k, In k (map fst reductions) <-> 1 <= k <= Z.of_nat L) ->
  exists sizes, sizes_by_gap reductions bounds0 = Some sizes /\ length sizes = S L /\
    (forall k g, In (k, g) reductions -> 1 + g <= nth (Z.to_nat k) sizes 0) /\
    (forall b, In b bounds0 -> 2 + b <= nth 0 sizes 0).
Proof. apply gap_sizes_ok. Qed.
Print Assumptions C96_gap_sizes.

(** If some level below the first has no modulus reduction, the sizes are
    written out of bounds. *)
Theorem C96_gap_refuted : exists reductions bounds0,
  (forall k g, In (k, g) reductions -> 1 <= k) /\ reductions <> [] /\
  sizes_by_gap reductions bounds0 = None.
Proof.
  exists [(2, 30); (2, 28)], [10]. split; [|split; [discriminate|reflexivity]].
  intros k g [H|[H|[]]]; injection H as <- <-; lia.
Qed.
Print Assumptions C96_gap_refuted.

(** Primes of CKKS parameters: one for the first modulus and one per level, all
    of them with a number theoretic transform and pairwise distinct; special
    primes of at least 61 bits. The ring has the slots asked for. The modulus is
    bounded as for BGV. [target] stands for the floating-point scaling factors. *)
Theorem C96_ckks first next prev last target reducedError fuel rounds logFirstMod logDefaultScale L minSlotCount par :
  returns_primes first next -> returns_primes_below prev last ->
  ckksConcreteSchemeParam first next prev last target reducedError fuel rounds logFirstMod logDefaultScale L minSlotCount = Some par ->
  length (qi par) = S L /\
  NoDup (qi par ++ pi par) /\
  (forall q, In q (qi par ++ pi par) -> ntt_prime (ringDim par) q) /\
  (forall p, In p (pi par) -> 2 ^ 60 < p) /\
  2 * minSlotCount <= ringDim par /\
  exists bits, In (ringDim par, bits) max_log_modulus /\ product (qi par ++ pi par) < 2 ^ (bits + 1).
Proof.
  intros ext ext2 H. unfold ckksConcreteSchemeParam in H. cbn zeta in H.
  destruct (computeRingDim _ _) as [n0|] eqn:En; [|discriminate].
  destruct (fit_ckks _ _ _ _ _ _ _ _ _ _ _ _ _ _) as [[[n qs] ps]|] eqn:Ef; [|discriminate].
  injection H as <-. cbn [ringDim qi pi].
  destruct (fit_ckks_ok _ _ _ _ ext ext2 target reducedError fuel _ _ _ _
    (fun x Hx => eq_ind_r (fun y => 0 <= y) (Pos2Z.is_nonneg 60) (repeat_spec _ _ _ Hx)) _ _ _ _ _ _
    (ring_dim_pos _ _ _ En) Ef) as (H1 & H2 & H3 & H4 & H5).
  destruct (ring_dim_ok _ _ _ H5) as (R1 & k & R2 & R3).
  split; auto. split; auto. split; auto. split.
  { clear - H2. revert ps H2. induction (Z.to_nat _) as [|c IH]; cbn [repeat]; intros ps H2 p Hp;
      inversion H2; subst; [destruct Hp|]. destruct Hp as [<-|Hp]; auto. eapply IH; eauto. }
  split; auto. exists k. split; auto.
  apply log_total_bound; auto. intros q Hq. destruct (H4 q Hq) as (Hpr & _).
  apply prime_alt in Hpr as (Hpr & _). lia.
Qed.
Print Assumptions C96_ckks.

(** CKKS parameters do not keep the relation of level and moduli that BGV
    parameters keep (C96_primes): there are as many moduli as levels. *)
Theorem C96_ckks_level_refuted : exists first next prev last target reducedError fuel rounds logFirstMod logDefaultScale L minSlotCount par,
  returns_primes first next /\ returns_primes_below prev last /\
  ckksConcreteSchemeParam first next prev last target reducedError fuel rounds logFirstMod logDefaultScale L minSlotCount = Some par /\
  Z.of_nat (length (qi par)) <> level par + 1.
Proof.
  exists first35, next35, prev35, last35, (fun _ => 0), false, 5%nat, 5%nat, 35, 35, 4%nat, 1024, ckks35.
  split; [apply generators35|]. split; [apply generators35|]. split; [vm_compute; reflexivity|].
  vm_compute. discriminate.
Qed.
Print Assumptions C96_ckks_level_refuted.

(** The special primes of CKKS parameters may be smaller than a digit, unlike
    those of BGV parameters (C96_special): their number is computed from the
    mean of the digits. Digits have the number of moduli over [dnum], rounded
    up. *)
Theorem C96_ckks_special_refuted : exists first next prev last target reducedError fuel rounds logFirstMod logDefaultScale L minSlotCount par digit,
  returns_primes first next /\ returns_primes_below prev last /\
  ckksConcreteSchemeParam first next prev last target reducedError fuel rounds logFirstMod logDefaultScale L minSlotCount = Some par /\
  incl digit (qi par) /\ NoDup digit /\
  Z.of_nat (length digit) * dnum par < Z.of_nat (length (qi par)) + dnum par /\
  product (pi par) < product digit.
Proof.
  exists first35, next35, prev35, last35, (fun _ => 0), false, 5%nat, 5%nat, 35, 35, 4%nat, 1024, ckks35, (firstn 2 (qi ckks35)).
  split; [apply generators35|]. split; [apply generators35|]. split; [vm_compute; reflexivity|].
  split; [intros x Hx; cbn in Hx |- *; tauto|].
  split; [cbn; repeat constructor; cbn; [intros [C|[]]; discriminate C|intros []]|].
  split; vm_compute; reflexivity.
Qed.
Print Assumptions C96_ckks_special_refuted.

(** ** Examples *)

Example C96_ckks_nonvacuous :
  returns_primes first35 next35 /\ returns_primes_below prev35 last35 /\
  ckksConcreteSchemeParam first35 next35 prev35 last35 (fun _ => 0) false 5 5 35 35 4 1024 = Some ckks35 /\
  ringDim ckks35 = 16384.
Proof.
  split; [apply generators35|]. split; [apply generators35|].
  split; vm_compute; reflexivity.
Qed.

(** The prime tried first at level 1 is a modulus already and is skipped. *)
Example C96_reduced_nonvacuous :
  let target (above : list Z) := match above with [_; _] => 34362359808 - 32768 | _ => 34362359808 + 32768 end in
  ckksConcreteSchemeParam first35 next35 prev35 last35 target true 5 5 35 35 4 1024 = Some ckks35.
Proof. vm_compute. reflexivity. Qed.

Example C96_nonvacuous :
  exists par, returns_primes first24 next24 /\ returns_least limit24 first24 next24 /\
    bgvConcreteSchemeParam first24 next24 20 5 [18; 20; 21] 65537 1024 = Some par /\
    length (pi par) = 2%nat /\ product [nth 0 (qi par) 0; nth 2 (qi par) 0] < product (pi par).
Proof.
  exists (Params 4096 2 [1073153; 1097729; 2236417] 2 [2277377; 2424833]).
  split; [apply generators24|]. split; [apply generators24|]. split; [vm_compute; reflexivity|].
  split; vm_compute; reflexivity.
Qed.

Example C96_gap_nonvacuous :
  (forall k, In k (map fst [(2, 30); (1, 28); (2, 33)]) <-> 1 <= k <= Z.of_nat 2) /\
  sizes_by_gap [(2, 30); (1, 28); (2, 33)] [10; 12] = Some [14; 29; 34].
Proof. split; [|reflexivity]. intros k. cbn. lia. Qed.
