From Coq Require Import ZArith QArith List Bool Lia Lqa.
Import ListNotations.
From Verif Require Import Noise_Spec Noise_Model Noise_Proofs.
Open Scope Z_scope.

(** C93: the bounds of the worst case noise model of BGV are bounds of the noise of the ciphertexts *)

(** the situation of the theorems: power of two ring dimension, ternary secret key, special modulus prime to t, centred
    plaintexts, special primes and digits as the parameters say *)
Definition setting {N : positive} (p : params) (logN P alpha : Z) (s : elt N) (plains : nat -> nat -> elt N) (lev : nat -> nat)
    (qinv : nat -> Z) : Prop :=
  ringDim p = Z.pos N /\ Z.pos N = 2 ^ logN /\ 0 < logN /\ 0 < plaintextModulus p /\ (forall i, 0 < qi p i) /\ 0 < P /\
  Z.gcd (plaintextModulus p) P = 1 /\ (forall k, Z.abs (s k) <= 1) /\
  (forall j k i, 2 * Z.abs (plains j k i) <= plaintextModulus p) /\
  (forall l, (plaintextModulus p | qinv l * qi p l - 1)) /\
  exists level, (forall i, (lev i <= level)%nat) /\ dnum p = computeDnum (Z.of_nat level) /\ alpha = special_primes (Z.of_nat level).
(** value number i of the inputs is a fresh encryption of its message, with errors at most 19.2 = 6 * 3.2 *)
Definition fresh {N : positive} (p : params) (s : elt N) (lev : nat -> nat) (cs : list (nat -> ct N)) (ms : list (nat -> elt N)) : Prop :=
  length cs = length ms /\ forall i k, (i < length cs)%nat ->
  (forall j, 2 * Z.abs (nth i ms (nomsg (N := N)) k j) <= plaintextModulus p) /\
  (if usePublicKey p then encrypted_pk else encrypted_sk)
    (modulus_at (qi p) (lev i)) (plaintextModulus p) s (96 # 5)%Q (nth i ms (nomsg (N := N)) k) (nth i cs (nocts (N := N)) k).

(** the number of digits used by the model is not too small for the parameters that the compiler generates *)
Theorem C93_digits : forall (level : nat) (p : params) (l : nat), (l <= level)%nat -> dnum p = computeDnum (Z.of_nat level) ->
  digits (special_primes (Z.of_nat level)) l <= currentNumDigit p l.
Proof.
  intros L p l H D. unfold currentNumDigit, digits, special_primes, ceil_div. rewrite D. unfold computeDnum.
  destruct (Z.ltb_spec 3 (Z.of_nat L)) as [H3|H3].
  - assert (A : 2 <= (Z.of_nat L + 1 + 3 - 1) / 3 /\ Z.of_nat L + 1 <= 3 * ((Z.of_nat L + 1 + 3 - 1) / 3)).
    { pose proof (Z.div_mod (Z.of_nat L + 1 + 3 - 1) 3 ltac:(lia)). pose proof (Z.mod_pos_bound (Z.of_nat L + 1 + 3 - 1) 3 ltac:(lia)). lia. }
    set (a := (Z.of_nat L + 1 + 3 - 1) / 3) in *. clearbody a.
    pose proof (Z.div_mod (Z.of_nat l + 1 + 3 - 1) 3 ltac:(lia)). pose proof (Z.mod_pos_bound (Z.of_nat l + 1 + 3 - 1) 3 ltac:(lia)).
    set (b := (Z.of_nat l + 1 + 3 - 1) / 3) in *. clearbody b.
    destruct (Z.le_gt_cases (Z.of_nat l) 2) as [S|S].
    + assert (1 <= b) by lia. enough ((Z.of_nat l + 1 + a - 1) / a <= 2) by lia. apply Z.lt_succ_r. apply Z.div_lt_upper_bound; lia.
    + assert (2 <= b) by lia. enough ((Z.of_nat l + 1 + a - 1) / a <= 3) by lia. apply Z.lt_succ_r. apply Z.div_lt_upper_bound; nia.
  - destruct (Z.ltb_spec 0 (Z.of_nat L)) as [H0|H0].
    + assert (C : (L = 1 \/ L = 2 \/ L = 3)%nat) by lia.
      destruct C as [->|[->| ->]]; assert (E : (l = 0 \/ l = 1 \/ l = 2 \/ l = 3)%nat) by lia;
        destruct E as [->|[->|[->| ->]]]; try lia; vm_compute; discriminate.
    + assert (L = 0%nat) by lia. assert (l = 0%nat) by lia. subst. vm_compute. discriminate.
Qed.
Print Assumptions C93_digits.

(** ... but it is for parameters given by an attribute: ten primes and one special prime make ten digits *)
Theorem C93_digits_refuted : exists (nq np : Z) (p : params) (l : nat), dnum p = dnumFromAttr nq np /\ Z.of_nat l < nq /\
  currentNumDigit p l < digits np l.
Proof.
  exists 10, 1, {| ringDim := 4; plaintextModulus := 17; qi := fun _ => 97; dnum := 10; usePublicKey := true; extended := false |}, 9%nat.
  repeat split; reflexivity.
Qed.
Print Assumptions C93_digits_refuted.

Section Sound.
  Context {N : positive}.
  Variables (p : params) (logN P alpha : Z) (s : elt N) (plains : nat -> nat -> elt N) (lev : nat -> nat) (dim : nat -> Z) (qinv : nat -> Z).
  Notation t := (plaintextModulus p).
  Notation q := (qi p).

  Lemma setting_digits : setting p logN P alpha s plains lev qinv -> (forall i, digits alpha (lev i) <= currentNumDigit p (lev i)) /\ 0 < alpha /\
    bounded s 1%Q /\ (2 | Z.pos N).
  Proof.
    intros (_ & H2 & H3 & _ & _ & _ & _ & H4 & _ & _ & L & H5 & H6 & ->). split; [|split; [|split]].
    - intros i. apply C93_digits; [apply H5|exact H6].
    - unfold special_primes, ceil_div. assert (1 <= computeDnum (Z.of_nat L)) by (unfold computeDnum; destruct (_ <? _); [lia|]; destruct (_ <? _); lia).
      apply Z.div_str_pos. lia.
    - intros k. change 1%Q with (inject_Z 1). rewrite <- Zle_Qle. apply H4.
    - rewrite H2. exists (2 ^ (logN - 1)). rewrite Z.mul_comm, <- Z.pow_succ_r by lia. f_equal. lia.
  Qed.
  Lemma setting_good cs ms bs : setting p logN P alpha s plains lev qinv -> extended p = false -> fresh p s lev cs ms ->
    map Some bs = map (fun i => evalEncrypt p (lev i) (dim i)) (seq 0 (length cs)) ->
    good p s lev cs ms bs /\ forall i, (i < length cs)%nat -> nth i bs 0%Q = (if usePublicKey p then evalEncryptPk p else evalEncryptSk).
  Proof.
    intros S E (F1 & F2) B. assert (L : length bs = length cs) by (apply (f_equal (@length _)) in B; rewrite !map_length, seq_length in B; exact B).
    assert (V : forall i, (i < length cs)%nat -> nth i bs 0%Q = (if usePublicKey p then evalEncryptPk p else evalEncryptSk)).
    { intros i Hi. apply (f_equal (fun l => nth i l None)) in B. 
      rewrite (nth_indep _ None (Some 0%Q)) in B by (rewrite map_length; lia). rewrite map_nth in B.
      rewrite (nth_indep _ None (evalEncrypt p (lev 0%nat) (dim 0%nat))) in B by (rewrite map_length, seq_length; lia).
      rewrite (map_nth (fun i => evalEncrypt p (lev i) (dim i))) in B. unfold evalEncrypt in B. rewrite E in B. injection B as ->. reflexivity. }
    split; [|exact V]. split; [lia|split; [lia|]]. intros i k Hi. rewrite L in Hi. rewrite V by exact Hi. specialize (F2 i k Hi) as [F2 F3].
    destruct (setting_digits S) as (_ & _ & Hs & _). destruct S as (S1 & _ & _ & S4 & _).
    destruct (usePublicKey p).
    - unfold evalEncryptPk, expansionFactor, boundKey. rewrite S1. apply holds_pk; assumption.
    - apply holds_sk; assumption.
  Qed.

  (** A straight-line program of additions, subtractions, multiplications (also with plaintexts), rotations, relinearizations, scale
      adjustments and level reductions, started from fresh encryptions: every ciphertext holds the message that the program computes
      without encryption, with noise at most what the analysis says; and if t times the noise bound plus t/2 is below half of the
      modulus, decryption yields this message.  Missing: modulus reductions, inserted slices, arguments of a secret.generic that
      are not fresh, extended encryption (see the refutations and C93_repaired); the average case variant. *)
Theorem C93_sound_partial : forall ins msgs bs os cs' bs', setting p logN P alpha s plains lev qinv -> extended p = false ->
    fresh p s lev ins msgs -> map Some bs = map (fun i => evalEncrypt p (lev i) (dim i)) (seq 0 (length ins)) ->
    Forall (fun o => match o with ModReduce _ | InsertSlice _ _ _ => False | BlockArg i => (i < length ins)%nat | _ => True end) os ->
    runs t q P alpha s (96 # 5)%Q plains lev ins os cs' -> analyse p lev dim bs os = Some bs' ->
    length cs' = length bs' /\
    forall i k, (i < length cs')%nat ->
      holds (modulus_at q (lev i)) t s (nth i cs' (nocts (N := N)) k) (nth i (clear_all plains lev qinv msgs os) (nomsg (N := N)) k) (nth i bs' 0%Q) /\
      ((nth i bs' 0 + (1 # 2)) * inject_Z t < inject_Z (modulus_at q (lev i)) / 2 ->
        forall j, (t | decrypt (modulus_at q (lev i)) t s (nth i cs' (nocts (N := N)) k) j - nth i (clear_all plains lev qinv msgs os) (nomsg (N := N)) k j))%Q.
  Proof.
    intros ins msgs bs os cs' bs' S E F B C R A. destruct (setting_good _ _ _ S E F B) as [G V].
    destruct (setting_digits S) as (D1 & D2 & D3 & D4). pose proof S as (S1 & S2 & S3 & S4 & S5 & S6 & S7 & S8 & S9 & S10 & _).
    pose proof (sound p S1 D4 S4 logN S2 P alpha s plains lev dim qinv S5 S6 S7 D3 S9 D1 D2 E (length ins) os ins msgs bs cs' bs' G R) as X.
    destruct G as (G1 & G2 & G3). specialize (X ltac:(lia)). destruct X as (X1 & X2 & X3).
    - intros i Hi. rewrite V by exact Hi. apply Qle_refl.
    - exact C.
    - exact A.
    - split; [exact X1|]. intros i k Hi. specialize (X3 i k ltac:(lia)). split; [exact X3|]. intros Hb j.
      eapply (decrypt_sound p S4); [eapply modulus_pos; eassumption|exact X3|exact Hb].
  Qed.

  (** With the rounding of the message in a modulus reduction accounted for by (1 + 1/q) / 2, the larger noise taken for inserted
      slices, and arguments of a secret.generic given the noise of its operands, the analysis is sound for all programs. *)
Theorem C93_repaired : forall ins msgs bs os cs' bs', setting p logN P alpha s plains lev qinv -> extended p = false ->
    fresh p s lev ins msgs -> map Some bs = map (fun i => evalEncrypt p (lev i) (dim i)) (seq 0 (length ins)) ->
    runs t q P alpha s (96 # 5)%Q plains lev ins os cs' -> analyse_repaired p lev dim bs os = Some bs' ->
    length cs' = length bs' /\
    forall i k, (i < length cs')%nat ->
      holds (modulus_at q (lev i)) t s (nth i cs' (nocts (N := N)) k) (nth i (clear_all plains lev qinv msgs os) (nomsg (N := N)) k) (nth i bs' 0%Q) /\
      ((nth i bs' 0 + (1 # 2)) * inject_Z t < inject_Z (modulus_at q (lev i)) / 2 ->
        forall j, (t | decrypt (modulus_at q (lev i)) t s (nth i cs' (nocts (N := N)) k) j - nth i (clear_all plains lev qinv msgs os) (nomsg (N := N)) k j))%Q.
  Proof.
    intros ins msgs bs os cs' bs' S E F B R A. destruct (setting_good _ _ _ S E F B) as [G V].
    destruct (setting_digits S) as (D1 & D2 & D3 & D4). pose proof S as (S1 & S2 & S3 & S4 & S5 & S6 & S7 & S8 & S9 & S10 & _).
    destruct (sound_repaired p S1 D4 S4 logN S2 P alpha s plains lev dim qinv S5 S6 S7 D3 S9 S10 D1 D2 E os ins msgs bs cs' bs' G R A) as (X1 & X2 & X3).
    split; [exact X1|]. intros i k Hi. specialize (X3 i k ltac:(lia)). split; [exact X3|]. intros Hb j.
    eapply (decrypt_sound p S4); [eapply modulus_pos; eassumption|exact X3|exact Hb].
  Qed.
End Sound.
Print Assumptions C93_sound_partial.
Print Assumptions C93_repaired.

(** what the validation ensures: with half a message of room added to the bound, an accepted ciphertext is decrypted correctly *)
Theorem C93_validated : forall (N : positive) (p : params) (s : elt N) (c : ct N) (m : elt N) (B : Q) (level : nat),
  0 < plaintextModulus p -> (forall i, 0 < qi p i) -> Z.odd (modulus_at (qi p) level) = true ->
  holds (modulus_at (qi p) level) (plaintextModulus p) s c m B -> validated p level (B + (1 # 2))%Q = true ->
  forall k, (plaintextModulus p | decrypt (modulus_at (qi p) level) (plaintextModulus p) s c k - m k).
Proof.
  intros N p s c m B level Ht Hq HO H V k. eapply (decrypt_odd p Ht); [eapply modulus_pos; eassumption|exact HO|exact H|].
  apply Qle_bool_iff in V. exact V.
Qed.
Print Assumptions C93_validated.
Example C93_validated_nonvacuous : exists (c : ct 2) (m : elt 2) (B : Q) (p : params),
  (forall k, 2 * Z.abs (m k) <= plaintextModulus p) /\ encrypted_sk (modulus_at (qi p) 0) (plaintextModulus p) (zero : elt 2) (96 # 5)%Q m c /\
  evalEncrypt p 0 2 = Some B /\ validated p 0 (B + (1 # 2))%Q = true /\ validated p 0 (B + (3 # 1))%Q = false /\ m 0 = 2.
Proof.
  assert (A : forall k, one (N := 2) k = 0 \/ Z.abs (one (N := 2) k) = 1).
  { intros k. cbn [one coef]. destruct (_ =? 0); [right; destruct (Z.even _); reflexivity|left; reflexivity]. }
  exists [plus (plus (opp (mult zero zero)) (scale 2 one)) (scale 5 zero); zero], (scale 2 one). eexists.
  exists {| ringDim := 2; plaintextModulus := 5; qi := fun _ => 199; dnum := 1; usePublicKey := false; extended := false |}.
  split; [|split; [|split; [reflexivity|split; [reflexivity|split; reflexivity]]]].
  - intros k. cbn [plaintextModulus coef scale]. specialize (A k). lia.
  - exists zero, zero. split; [intros k; vm_compute; discriminate|]. constructor; [intros k; exists 0; cbn [plaintextModulus]; ring|].
    constructor; [apply cong_refl|constructor].
Qed.

(** concrete elements of Z[X]/(X^2+1) *)
Lemma pair_anti a b k : (if Z.even ((k + 2) / 2) then 1 else -1) * (if (k + 2) mod 2 =? 0 then a else b) =
  - ((if Z.even (k / 2) then 1 else -1) * (if k mod 2 =? 0 then a else b)).
Proof.
  replace (k + 2) with (k + 1 * 2) by ring. rewrite Z.mod_add, Z.div_add by lia. rewrite Z.add_1_r, Z.even_succ, <- Z.negb_even.
  destruct (Z.even _); destruct (_ =? 0); cbn [negb]; ring.
Qed.
Definition pair (a b : Z) : elt 2 := Elt 2 _ (pair_anti a b).
Lemma two (z : elt 2) k : (z k = z 0 \/ z k = - z 0) \/ (z k = z 1 \/ z k = - z 1).
Proof.
  rewrite (Z.div_mod k 4) by lia. rewrite Z.add_comm. replace (4 * (k / 4)) with (2 * (k / 4) * Z.pos 2) by ring.
  rewrite anti_even. pose proof (Z.mod_pos_bound k 4 ltac:(lia)). pose proof (anti 2 z 0) as A0. pose proof (anti 2 z 1) as A1. cbn in A0, A1.
  assert (C : k mod 4 = 0 \/ k mod 4 = 1 \/ k mod 4 = 2 \/ k mod 4 = 3) by lia. destruct C as [->|[->|[->| ->]]]; lia.
Qed.
Lemma two_cong M (x y : elt 2) : (M | x 0 - y 0) -> (M | x 1 - y 1) -> cong M x y.
Proof.
  intros [a Ha] [b Hb] k. destruct (two (plus x (opp y)) k) as [[E|E]|[E|E]]; cbn [coef plus opp] in E.
  - exists a. lia.
  - exists (- a). lia.
  - exists b. lia.
  - exists (- b). lia.
Qed.
Lemma two_small c (x : elt 2) : Z.abs (x 0) <= c -> Z.abs (x 1) <= c -> forall k, Z.abs (x k) <= c.
Proof. intros H H' k. destruct (two x k) as [[E|E]|[E|E]]; rewrite E, ?Z.abs_opp; assumption. Qed.
Lemma two_bounded c (x : elt 2) : Z.abs (x 0) <= c -> Z.abs (x 1) <= c -> bounded x (inject_Z c).
Proof. intros H H' k. rewrite <- Zle_Qle. apply two_small; assumption. Qed.
Lemma two_same (x y : elt 2) : x 0 = y 0 -> x 1 = y 1 -> same x y.
Proof. intros H H' k. destruct (two (plus x (opp y)) k) as [[E|E]|[E|E]]; cbn [coef plus opp] in E; lia. Qed.
Ltac concrete := first [exists 0; vm_compute; reflexivity|vm_compute; reflexivity|vm_compute; discriminate].

(** a modulus reduction leaves more noise than the model says: t = 7, q = 13, key 1 - X, noise 2 becomes 2 > 2/13 + 3/2 *)
Theorem C93_mod_reduce_refuted : exists (p : params) (s m : elt 2) (c c' : ct 2) (x : Q) (B : Q) (M q qinv : Z),
  ringDim p = 2 /\ (forall k, Z.abs (s k) <= 1) /\ qi p 1%nat = q /\ Z.gcd q (plaintextModulus p) = 1 /\
  (plaintextModulus p | qinv * q - 1) /\
  holds (q * M) (plaintextModulus p) s c m x /\ mod_reduced M q (plaintextModulus p) c c' /\
  evalModReduce p 1 2 x = Some B /\ ~ holds M (plaintextModulus p) s c' (scale qinv m) B.
Proof.
  exists {| ringDim := 2; plaintextModulus := 7; qi := fun l => match l with O => 1009 | _ => 13 end; dnum := 2; usePublicKey := true; extended := false |}.
  exists (pair 1 (-1)), (pair 3 0), [pair 101 0; pair (-42) (-42)], [pair 11 0; pair 0 0], 2%Q. eexists. exists 1009, 13, 6.
  cbn [plaintextModulus qi ringDim]. split; [reflexivity|]. split; [apply two_small; concrete|]. split; [reflexivity|]. split; [reflexivity|].
  split; [exists 11; reflexivity|].
  split; [exists (pair 3 0), (pair 2 0); split; [apply two_cong; concrete|split; [apply cong_refl|split; [|apply (two_bounded 2); concrete]]]|].
  { intros k. enough (Z.abs (pair 3 0 k) <= 3) by lia. apply two_small; concrete. }
  split; [constructor; [|constructor; [|constructor]]|].
  - exists (pair 42 0). split; [apply two_cong; concrete|split].
    + intros k. 
      pose proof (two_cong 7 (pair 42 0) zero ltac:(exists 6; reflexivity) ltac:(exists 0; reflexivity) k) as D. cbn [coef zero] in D. rewrite Z.sub_0_r in D. exact D.
    + intros k. enough (Z.abs (pair 42 0 k) <= 42) by lia. apply two_small; concrete.
  - exists (pair 42 42). split; [apply two_cong; concrete|split].
    + intros k. pose proof (two_cong 7 (pair 42 42) zero ltac:(exists 6; reflexivity) ltac:(exists 6; reflexivity) k) as D. cbn [coef zero] in D. rewrite Z.sub_0_r in D. exact D.
    + intros k. enough (Z.abs (pair 42 42 k) <= 42) by lia. apply two_small; concrete.
  - split; [reflexivity|]. intros (m & v & H1 & H2 & H3 & H4). specialize (H1 0). specialize (H2 0). specialize (H3 0). specialize (H4 0).
    change (phase (pair 1 (-1)) [pair 11 0; pair 0 0] 0) with 11 in H1. cbn [coef plus scale] in H1.
    change (scale 6 (pair 3 0) 0) with 18 in H2. destruct H1 as [a Ha], H2 as [b Hb].
    assert (V : Z.abs (v 0) <= 1).
    { apply Z.lt_succ_r. rewrite Zlt_Qlt. eapply Qle_lt_trans; [exact H4|]. reflexivity. }
    lia.
Qed.
Print Assumptions C93_mod_reduce_refuted.

(** a bound that is validated does not make decryption correct: t = 5, modulus 193, message 2, noise 19 *)
Theorem C93_budget_refuted : exists (p : params) (s m : elt 2) (c : ct 2) (B : Q), ringDim p = 2 /\ extended p = false /\
  (forall k, Z.abs (s k) <= 1) /\ (forall k, 2 * Z.abs (m k) <= plaintextModulus p) /\
  usePublicKey p = false /\ encrypted_sk (modulus_at (qi p) 0) (plaintextModulus p) s (96 # 5)%Q m c /\
  evalEncrypt p 0 2 = Some B /\ validated p 0 B = true /\
  ~ (plaintextModulus p | decrypt (modulus_at (qi p) 0) (plaintextModulus p) s c 0 - m 0).
Proof.
  exists {| ringDim := 2; plaintextModulus := 5; qi := fun _ => 193; dnum := 1; usePublicKey := false; extended := false |}.
  exists (pair 1 (-1)), (pair 2 0), [pair 97 0; pair 0 0]. eexists. cbn [plaintextModulus qi ringDim extended usePublicKey].
  split; [reflexivity|]. split; [reflexivity|]. split; [apply two_small; concrete|].
  split. { intros k. enough (Z.abs (pair 2 0 k) <= 2) by lia. apply two_small; concrete. }
  split; [reflexivity|]. split.
  { exists (pair 0 0), (pair 19 0). split.
    - intros k. pose proof (two_bounded 19 (pair 19 0) ltac:(concrete) ltac:(concrete) k) as D. eapply Qle_trans; [exact D|]. vm_compute. discriminate.
    - constructor; [apply two_cong; concrete|constructor; [apply two_cong; concrete|constructor]]. }
  split; [reflexivity|]. split; [reflexivity|].
  change (decrypt (modulus_at (fun _ => 193) 0) 5 (pair 1 (-1)) [pair 97 0; pair 0 0] 0 - pair 2 0 0) with (-3). intros [a Ha]. lia.
Qed.
Print Assumptions C93_budget_refuted.

(** two programs: a sum of two fresh encryptions, its result a destination of an insertion or an operand of a second secret.generic *)
Definition demo : params := {| ringDim := 2; plaintextModulus := 5; qi := fun _ => 1000006; dnum := 1; usePublicKey := false; extended := false |}.
Definition demo_key : elt 2 := pair 1 (-1).
Definition demo_in : nat -> ct 2 := fun _ => [pair 95 0; pair 0 0].
Definition demo_sum : nat -> ct 2 := fun _ => [pair 190 0; pair 0 0].
Definition nolev : nat -> nat := fun _ => 0%nat.
Definition noplains : nat -> nat -> elt 2 := fun _ _ => zero.

Lemma demo_setting : setting demo 1 7 1 demo_key noplains nolev (fun _ => 1).
Proof.
  split; [reflexivity|]. split; [reflexivity|]. split; [lia|]. split; [reflexivity|]. split; [reflexivity|]. split; [reflexivity|].
  split; [reflexivity|]. split; [apply two_small; concrete|]. split; [intros; vm_compute; discriminate|].
  split; [intros l; exists 200001; reflexivity|]. exists 0%nat. split; [intros; apply le_n|split; reflexivity].
Qed.
Lemma demo_fresh : fresh demo demo_key nolev [demo_in] [fun _ => zero].
Proof.
  split; [reflexivity|]. intros i k Hi. cbn in Hi. assert (i = 0%nat) by lia. subst i. split; [intros; vm_compute; discriminate|].
  exists (pair 0 0), (pair 19 0). split.
  - intros j. pose proof (two_bounded 19 (pair 19 0) ltac:(concrete) ltac:(concrete) j) as D. eapply Qle_trans; [exact D|]. vm_compute. discriminate.
  - constructor; [apply two_cong; concrete|constructor; [apply two_cong; concrete|constructor]].
Qed.
Lemma demo_noise : ~ holds (modulus_at (qi demo) 0) 5 demo_key (demo_sum 1%nat) zero (96 # 5)%Q.
Proof.
  intros (m & v & H1 & H2 & H3 & H4). specialize (H1 0). specialize (H2 0). specialize (H3 0). specialize (H4 0).
  change (phase demo_key (demo_sum 1%nat) 0) with 190 in H1. cbn [coef plus scale zero modulus_at qi demo] in H1, H2. destruct H1 as [a Ha], H2 as [b Hb].
  assert (V : Z.abs (v 0) <= 19).
  { apply Z.lt_succ_r. rewrite Zlt_Qlt. eapply Qle_lt_trans; [exact H4|]. reflexivity. }
  lia.
Qed.
Theorem C93_insert_slice_refuted : exists os cs' bs' (i k : nat),
  setting demo 1 7 1 demo_key noplains nolev (fun _ => 1) /\ fresh demo demo_key nolev [demo_in] [fun _ => zero] /\
  runs 5 (qi demo) 7 1 demo_key (96 # 5)%Q noplains nolev [demo_in] os cs' /\
  analyse demo nolev (fun _ => 2) [evalEncryptSk] os = Some bs' /\ (i < length cs')%nat /\
  ~ holds (modulus_at (qi demo) 0) 5 demo_key (nth i cs' nocts k) (nth i (clear_all noplains nolev (fun _ => 1) [fun _ => zero] os) nomsg k) (nth i bs' 0%Q).
Proof.
  exists [AddI (Sec 0) (Sec 0); InsertSlice 0 1 (fun k => if Nat.eqb k 0 then Some 0%nat else None)].
  eexists. eexists. exists 2%nat, 1%nat. split; [exact demo_setting|]. split; [exact demo_fresh|]. split; [|split; [reflexivity|]].
  - econstructor; [|econstructor; [|constructor]].
    + split; [split; [cbn; lia|reflexivity]|]. split; [split; [cbn; lia|reflexivity]|]. intros k. instantiate (1 := demo_sum).
      constructor; [apply two_cong; concrete|constructor; [apply two_cong; concrete|constructor]].
    + split; [cbn; lia|]. split; [cbn; lia|]. split; [reflexivity|]. split; [reflexivity|]. intros k. reflexivity.
  - split; [cbn; lia|]. intros H. apply demo_noise. destruct H as (m & v & H1 & H2 & H3 & H4). exists m, v. split; [exact H1|]. split; [|split; assumption].
    eapply cong_trans; [exact H2|]. intros k. exists 0. reflexivity.
Qed.
Print Assumptions C93_insert_slice_refuted.
Theorem C93_generic_refuted : exists os cs' bs' (i k : nat),
  setting demo 1 7 1 demo_key noplains nolev (fun _ => 1) /\ fresh demo demo_key nolev [demo_in] [fun _ => zero] /\
  Forall (fun o => match o with ModReduce _ | InsertSlice _ _ _ => False | _ => True end) os /\
  runs 5 (qi demo) 7 1 demo_key (96 # 5)%Q noplains nolev [demo_in] os cs' /\
  analyse demo nolev (fun _ => 2) [evalEncryptSk] os = Some bs' /\ (i < length cs')%nat /\
  ~ holds (modulus_at (qi demo) 0) 5 demo_key (nth i cs' nocts k) (nth i (clear_all noplains nolev (fun _ => 1) [fun _ => zero] os) nomsg k) (nth i bs' 0%Q).
Proof.
  exists [AddI (Sec 0) (Sec 0); BlockArg 1].
  eexists. eexists. exists 2%nat, 1%nat. split; [exact demo_setting|]. split; [exact demo_fresh|]. split; [repeat constructor|]. split; [|split; [reflexivity|]].
  - econstructor; [|econstructor; [|constructor]].
    + split; [split; [cbn; lia|reflexivity]|]. split; [split; [cbn; lia|reflexivity]|]. intros k. instantiate (1 := demo_sum).
      constructor; [apply two_cong; concrete|constructor; [apply two_cong; concrete|constructor]].
    + split; [cbn; lia|]. split; [reflexivity|]. intros k. reflexivity.
  - split; [cbn; lia|]. intros H. apply demo_noise. destruct H as (m & v & H1 & H2 & H3 & H4). exists m, v. split; [exact H1|]. split; [|split; assumption].
    eapply cong_trans; [exact H2|]. intros k. exists 0. reflexivity.
Qed.
Print Assumptions C93_generic_refuted.

(** a program with a multiplication, a relinearization and a rotation that meets the hypotheses of C93_sound_partial *)
Lemma mult_same_zero (x : elt 2) k : mult x zero k = 0.
Proof. rewrite (mult_comm x zero k). transitivity (sum 2 (fun _ => 0)); [|apply sum_zero]. apply sum_ext. intros. apply Z.mul_0_l. Qed.
Lemma switch_demo (M P t : Z) (B : Q) (s' s c : elt 2) : 2 <= P -> 0 <= t -> (0 <= B)%Q -> key_switched M P t B s' s 1 c (mult c s') zero.
Proof.
  intros HP Ht HB. exists [(one, c, (mult (scale P c) s', zero), zero)]. cbn [map sum_elts fold_right length].
  split; [reflexivity|]. split; [|split; [|split]].
  - intros k. exists 0. cbn [plus coef zero]. rewrite (mult_one c k). cbn. ring.
  - intros d g b a e [E|[]]. injection E as <- <- <- <- <-. split; [|split].
    + intros k. enough (Z.abs (one (N := 2) k) <= 1) by lia. apply two_small; concrete.
    + intros k. cbn. exact HB.
    + intros k. exists 0. cbn [plus coef scale zero]. rewrite (mult_comm zero s k), mult_same_zero. ring.
  - exists zero. split; [|split].
    + intros k. exists 0. cbn [plus coef scale zero]. rewrite (mult_one _ k), (scale_mult P c s' k). cbn [coef scale]. ring.
    + intros k. exists 0. reflexivity.
    + intros k. cbn. nia.
  - exists zero. split; [|split].
    + intros k. exists 0. cbn [plus coef scale zero]. rewrite mult_same_zero. ring.
    + intros k. exists 0. reflexivity.
    + intros k. cbn. nia.
Qed.
Definition demo2 : params := {| ringDim := 2; plaintextModulus := 5; qi := fun _ => 1000006; dnum := 1; usePublicKey := false; extended := false |}.
Definition demo2_plains : nat -> nat -> elt 2 := fun _ _ => pair 1 (-2).
Example C93_nonvacuous : exists ins msgs bs os cs' bs',
  setting demo2 1 7 1 demo_key demo2_plains nolev (fun _ => 1) /\ fresh demo2 demo_key nolev ins msgs /\
  map Some bs = map (fun i => evalEncrypt demo2 (nolev i) 2) (seq 0 (length ins)) /\
  os = [MulI (Sec 0) (Sec 0); Relinearize 1; Rotate 2 1; AddI (Sec 3) (Pln 0)] /\
  runs 5 (qi demo2) 7 1 demo_key (96 # 5)%Q demo2_plains nolev ins os cs' /\
  analyse demo2 nolev (fun _ => 2) bs os = Some bs' /\ (4 < length cs')%nat /\
  ((nth 4 bs' 0 + (1 # 2)) * inject_Z 5 < inject_Z (modulus_at (qi demo2) (nolev 4)) / 2)%Q /\
  map (decrypt 1000006 5 demo_key (nth 4 cs' nocts 0%nat)) [0; 1] = [-2; -1] /\
  map (nth 4 (clear_all demo2_plains nolev (fun _ => 1) msgs os) nomsg 0%nat) [0; 1] = [-2; -6].
Proof.
  set (c1 := [pair 15 3; pair 1 0]). exists [fun _ => c1], [fun _ => pair 1 2], [evalEncryptSk].
  set (c2 := ct_mul c1 c1).
  set (c3 := [plus (nth 0 c2 zero) (mult (nth 2 c2 zero) (mult demo_key demo_key)); plus (nth 1 c2 zero) zero]).
  set (c4 := [plus (auto 1 (nth 0 c3 zero)) (mult (auto 1 (nth 1 c3 zero)) (auto 1 demo_key)); zero]).
  exists [MulI (Sec 0) (Sec 0); Relinearize 1; Rotate 2 1; AddI (Sec 3) (Pln 0)]. exists [fun _ => c1; fun _ => c2; fun _ => c3; fun _ => c4; fun _ => ct_add c4 [pair 1 (-2)]]. eexists.
  split.
  { destruct demo_setting as (S1 & S2 & S3 & S4 & S5 & S6 & S7 & S8 & S9 & S10). repeat (split; [assumption|]). split; [|exact S10].
    intros j k i. change (2 * Z.abs (pair 1 (-2) i) <= 5). enough (Z.abs (pair 1 (-2) i) <= 2) by lia. apply two_small; concrete. }
  split.
  { split; [reflexivity|]. intros i k Hi. cbn in Hi. assert (i = 0%nat) by lia. subst i. split.
    - intros j. change (2 * Z.abs (pair 1 2 j) <= 5). enough (Z.abs (pair 1 2 j) <= 2) by lia. apply two_small; concrete.
    - exists (pair 1 0), (pair 3 0). split.
      + intros j. pose proof (two_bounded 3 (pair 3 0) ltac:(concrete) ltac:(concrete) j) as D. eapply Qle_trans; [exact D|]. vm_compute. discriminate.
      + constructor; [apply two_cong; concrete|constructor; [apply two_cong; concrete|constructor]]. }
  split; [reflexivity|]. split; [reflexivity|]. split; [|split; [reflexivity|split; [cbn; lia|split; [reflexivity|split; reflexivity]]]].
  apply (runs_cons _ _ _ _ _ _ _ _ _ _ _ (fun _ => c2)).
  { split; [split; [cbn; lia|reflexivity]|]. split; [split; [cbn; lia|reflexivity]|]. intros k. apply ct_cong_refl. }
  apply (runs_cons _ _ _ _ _ _ _ _ _ _ _ (fun _ => c3)).
  { split; [cbn; lia|]. split; [reflexivity|]. intros k. eexists. eexists. eexists. eexists. eexists. split; [reflexivity|].
    split; [apply switch_demo; [lia|cbn; lia|discriminate]|]. apply ct_cong_refl. }
  apply (runs_cons _ _ _ _ _ _ _ _ _ _ _ (fun _ => c4)).
  { split; [cbn; lia|]. split; [reflexivity|]. intros k. eexists. eexists. eexists. eexists. split; [reflexivity|].
    split; [apply switch_demo; [lia|cbn; lia|discriminate]|]. apply ct_cong_refl. }
  apply (runs_cons _ _ _ _ _ _ _ _ _ _ _ (fun _ => ct_add c4 [pair 1 (-2)])).
  { split; [split; [cbn; lia|reflexivity]|]. split; [exact I|]. intros k. apply ct_cong_refl. }
  constructor.
Qed.
