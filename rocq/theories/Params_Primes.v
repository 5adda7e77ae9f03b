(** * Some primes, for examples of CKKS parameters

    Primality by trial division or by Proth's theorem. *)
From Coq Require Import ZArith List Bool Lia Znumtheory Zpow_facts.
From Verif Require Import ModEq PrimeField Params_Spec.
Import ListNotations.
Open Scope Z_scope.

Lemma odd_part x : forall r, ~ (2 ^ Z.of_nat r | x) ->
  exists j o, (j < r)%nat /\ x = 2 ^ Z.of_nat j * (2 * o + 1).
Proof.
  intros r. revert x. induction r as [|r IH]; intros x H.
  - exfalso. apply H. exists x. cbn. lia.
  - destruct (Z.Even_or_Odd x) as [[y Hy]|[y Hy]].
    + destruct (IH y) as (j & o & Hj & Ho).
      { intros (c & Hc). apply H. exists c. rewrite Nat2Z.inj_succ, Z.pow_succ_r by lia. lia. }
      exists (S j), o. split; [lia|]. rewrite Nat2Z.inj_succ, Z.pow_succ_r by lia. lia.
    + exists O, y. split; [lia|]. cbn [Z.of_nat]. change (2 ^ 0) with 1. lia.
Qed.

Lemma minus_one_odd o : 0 <= o -> (-1) ^ (2 * o + 1) = -1.
Proof. intros H. rewrite Z.pow_add_r, Z.pow_mul_r by lia. change ((-1) ^ 2) with 1. rewrite Z.pow_1_l; lia. Qed.

Lemma pow_split j r : (j < S r)%nat ->
  2 ^ Z.of_nat r = 2 ^ Z.of_nat j * 2 ^ (Z.of_nat r - Z.of_nat j).
Proof. intros H. rewrite <- Z.pow_add_r by lia. f_equal. lia. Qed.

Lemma proth r p a h : 2 < p -> p = h * 2 ^ Z.of_nat (S r) + 1 -> 0 <= h ->
  p <= 2 ^ Z.of_nat (S r) * 2 ^ Z.of_nat (S r) ->
  Zpow_mod a (h * 2 ^ Z.of_nat r) p = p - 1 -> prime p.
Proof.
  intros Hp Hh Hh0 Hr Ha. rewrite Zpow_mod_correct in Ha by lia.
  assert (H2 : 0 < 2 ^ Z.of_nat r) by (apply Z.pow_pos_nonneg; lia).
  assert (HS : 2 ^ Z.of_nat (S r) = 2 * 2 ^ Z.of_nat r) by (rewrite Nat2Z.inj_succ, Z.pow_succ_r by lia; auto).
  assert (D : forall q, prime q -> (q | p) -> (2 ^ Z.of_nat (S r) | q - 1)).
  { intros q Hq Hqp. pose proof (prime_ge_2 q Hq) as Hq2.
    assert (Hm : cong q (a ^ (h * 2 ^ Z.of_nat r)) (-1)).
    { pose proof (Z.div_mod (a ^ (h * 2 ^ Z.of_nat r)) p ltac:(lia)) as E. rewrite Ha in E.
      destruct Hqp as (c & Hc). exists ((a ^ (h * 2 ^ Z.of_nat r) / p + 1) * c).
      rewrite E at 1. rewrite Hc at 1 3. ring. }
    assert (Hne : q <> 2).
    { intros ->. destruct Hqp as (c & Hc). lia. }
    destruct (Zdivide_dec (2 ^ Z.of_nat (S r)) (q - 1)) as [|Hn]; auto. exfalso.
    destruct (odd_part _ _ Hn) as (j & o & Hj & Ho).
    assert (Hj2 : 0 < 2 ^ Z.of_nat j) by (apply Z.pow_pos_nonneg; lia).
    assert (Ho0 : 0 <= o) by nia.
    assert (Ha0 : ~ cong q a 0).
    { intros C. assert (C1 : cong q (-1) 0).
      { rewrite <- Hm. destruct (Z.eq_dec h 0) as [->|]; [lia|].
        rewrite C. rewrite Z.pow_0_l by nia. reflexivity. }
      destruct C1 as (k & Hk). assert (q * k = -1) by lia.
      assert (k < 0) by nia. nia. }
    assert (E : a ^ (h * 2 ^ Z.of_nat r * (2 * o + 1)) = (a ^ (q - 1)) ^ (h * 2 ^ (Z.of_nat r - Z.of_nat j))).
    { assert (0 <= h * 2 ^ (Z.of_nat r - Z.of_nat j)) by (apply Z.mul_nonneg_nonneg; [lia|apply Z.pow_nonneg; lia]).
      rewrite <- Z.pow_mul_r by lia.
      f_equal. rewrite Ho, (pow_split j r Hj). ring. }
    assert (Hx : 0 <= h * 2 ^ Z.of_nat r) by (apply Z.mul_nonneg_nonneg; [exact Hh0|apply Z.lt_le_incl; exact H2]).
    assert (Ho1 : 0 <= 2 * o + 1) by (clear - Ho0; lia).
    assert (C : cong q 1 (-1)).
    { rewrite <- (minus_one_odd o Ho0) at 1. rewrite <- Hm. rewrite <- Z.pow_mul_r by assumption. rewrite E.
      rewrite (fermat_cong q Hq a Ha0). rewrite Z.pow_1_l; [reflexivity|].
      apply Z.mul_nonneg_nonneg; [exact Hh0|apply Z.pow_nonneg; clear; lia]. }
    destruct C as (k & Hk). clear - Hk Hq2 Hne. assert (k * q = 2) by lia. assert (k = 1) by nia. lia. }
  apply prime_alt. split; [lia|].
  assert (S : forall n, 1 < n -> n * n <= p -> ~ (n | p)).
  { intros n Hn Hnn C. destruct (exists_prime_divisor n ltac:(lia)) as (q & Hq & Hqn).
    pose proof (prime_ge_2 q Hq) as Hq2.
    assert (Hle : q <= n) by (apply Z.divide_pos_le; [lia|exact Hqn]).
    assert (D1 := D q Hq (Z.divide_trans _ _ _ Hqn C)).
    apply Z.divide_pos_le in D1; [|lia]. nia. }
  intros n Hn C. pose proof C as (c & Hc).
  destruct (Z_le_dec n c).
  - apply (S n); [lia|nia|auto].
  - apply (S c); [nia|nia|]. exists n. lia.
Qed.

Fixpoint nodiv (fuel : nat) (k p : Z) : bool :=
  if k * k >? p then true
  else if p mod k =? 0 then false
  else match fuel with O => false | S fuel => nodiv fuel (k + 1) p end.

Lemma nodiv_sound fuel : forall k p, 0 < k -> nodiv fuel k p = true ->
  forall n, k <= n -> n * n <= p -> ~ (n | p).
Proof.
  induction fuel as [|fuel IH]; intros k p Hk H n Hn Hp; cbn [nodiv] in H;
    destruct (Z.gtb_spec (k * k) p); try nia; destruct (Z.eqb_spec (p mod k) 0); try discriminate.
  destruct (Z.eq_dec n k) as [->|]; [|apply (IH (k + 1) p); auto; lia].
  intros C. apply Z.mod_divide in C; lia.
Qed.

Lemma nodiv_complete fuel : forall k p, 1 < k -> prime p -> p < (k + Z.of_nat fuel) * (k + Z.of_nat fuel) ->
  nodiv fuel k p = true.
Proof.
  induction fuel as [|fuel IH]; intros k p Hk Hp Hf; cbn [nodiv];
    destruct (Z.gtb_spec (k * k) p); auto; [exfalso; nia|].
  destruct (Z.eqb_spec (p mod k) 0) as [E|E].
  - exfalso. apply Z.mod_divide in E; [|lia]. apply prime_alt in Hp as (_ & Hp). apply (Hp k); [nia|auto].
  - apply IH; [lia|auto|nia].
Qed.

Lemma prime_a : prime 34362359809. Proof. apply (proth 17 _ 11 131082); vm_compute; congruence. Qed.
Lemma prime_b : prime 34359214081. Proof. apply (proth 17 _ 7 131070); vm_compute; congruence. Qed.
Lemma prime_c : prime 34367864833. Proof. apply (proth 17 _ 5 131103); vm_compute; congruence. Qed.
Lemma prime_d : prime 34357116929. Proof. apply (proth 17 _ 3 131062); vm_compute; congruence. Qed.
Lemma prime_e : prime 34375729153. Proof. apply (proth 17 _ 5 131133); vm_compute; congruence. Qed.

Lemma prime_p : prime 1152921513196781569.
Proof. apply (proth 30 _ 7 536870916); vm_compute; congruence. Qed.

(** Generators that return these primes. *)
Definition lookup (l : list (Z * Z)) (x m : Z) : option Z :=
  if m =? 32768 then option_map snd (List.find (fun e => fst e =? x) l) else None.

Definition first35 := lookup [(35, 34362359809); (60, 1152921513196781569)].
Definition next35 := lookup [(34362359809, 34367864833); (34367864833, 34375729153)].
Definition prev35 := lookup [(34362359809, 34359214081); (34359214081, 34357116929)].
Definition last35 := lookup [].

Lemma lookup_some l x m p : lookup l x m = Some p -> m = 32768 /\ In (x, p) l.
Proof.
  unfold lookup. destruct (Z.eqb_spec m 32768); [|discriminate]. intros H. split; auto.
  destruct (List.find _ l) as [[x' p']|] eqn:E; [|discriminate]. cbn in H. injection H as <-.
  apply find_some in E as (E1 & E2). cbn in E2. apply Z.eqb_eq in E2. congruence.
Qed.

Lemma generators35 : returns_primes first35 next35 /\ returns_primes_below prev35 last35.
Proof.
  split; split.
  - intros b m p _ H. apply lookup_some in H as (-> & [H|[H|[]]]); injection H as <- <-.
    + split; [apply prime_a|]. split; reflexivity.
    + split; [apply prime_p|]. split; reflexivity.
  - intros d m p _ _ H. apply lookup_some in H as (-> & [H|[H|[]]]); injection H as <- <-.
    + split; [apply prime_c|]. split; reflexivity.
    + split; [apply prime_e|]. split; reflexivity.
  - intros d m p _ _ H. apply lookup_some in H as (-> & [H|[H|[]]]); injection H as <- <-.
    + split; [apply prime_b|]. split; reflexivity.
    + split; [apply prime_d|]. split; reflexivity.
  - intros b m p _ H. apply lookup_some in H as (_ & []).
Qed.
