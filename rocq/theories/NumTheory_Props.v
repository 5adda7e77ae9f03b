(** Properties C10-C14 and C51: number-theoretic helpers. *)
From Coq Require Import ZArith Znumtheory List Bool Lia Sorted.
From Verif Require Import Words PrimeField NumTheory_Model NumTheory_Proofs.
Import ListNotations.
Open Scope Z_scope.

(** ** C10: x and m are APInts of width w, x < m *)
Theorem C10_multiplicative_inverse w m x : 1 <= w -> is_word w m -> 0 <= x < m ->
  exists y, multiplicative_inverse w x m = Some y /\
   (Z.gcd x m = 1 -> 0 <= y < m /\ (x * y) mod m = 1 mod m) /\
   (Z.gcd x m <> 1 -> y = 0).
Proof. intros Hw [_ Hm] Hx. apply multiplicative_inverse_ok; lia. Qed.
Print Assumptions C10_multiplicative_inverse.
(** the largest 8-bit prime, whose inverses use the sign bit *)
Example C10_nonvacuous : is_word 8 251 /\ 0 <= 2 < 251 /\
  multiplicative_inverse 8 2 251 = Some 126 /\ multiplicative_inverse 8 3 251 = Some 84 /\
  multiplicative_inverse 8 6 9 = Some 0 /\ multiplicative_inverse 8 250 251 = Some 250.
Proof. unfold is_word. vm_compute. intuition congruence. Qed.

(** ** C11 *)
Theorem C11_modular_multiplication w a b m : 0 <= w -> is_word w m -> 0 < m ->
  is_word w a -> is_word w b -> modular_multiplication w a b m = Some ((a * b) mod m).
Proof. intros Hw [_ ?] ? ? ?. apply modular_multiplication_ok; auto. Qed.
Theorem C11_modular_exponentiation w base we e m : 0 <= w -> is_word w m -> 1 < m ->
  is_word w base -> is_word we e ->
  modular_exponentiation w base we e m = Some (base ^ e mod m).
Proof. intros Hw [_ ?] ? ? ?. apply modular_exponentiation_ok; auto. Qed.
(** for modulus one and exponent zero the code returns 1 instead of 0 *)
Theorem C11_modulus_one_refuted : exists w base we e m, is_word w m /\ 0 < m /\ is_word w base /\
  is_word we e /\ modular_exponentiation w base we e m <> Some (base ^ e mod m).
Proof. exists 8, 5, 8, 0, 1. unfold is_word. vm_compute. intuition congruence. Qed.
Print Assumptions C11_modular_multiplication.
Print Assumptions C11_modular_exponentiation.
Print Assumptions C11_modulus_one_refuted.
Example C11_nonvacuous : is_word 8 251 /\ is_word 8 200 /\ is_word 16 1023 /\
  modular_exponentiation 8 200 16 1023 251 = Some (200 ^ 1023 mod 251).
Proof. unfold is_word. vm_compute. intuition congruence. Qed.

(** ** C12: any result is exactly the increasing list of the prime divisors, and
    the loops terminate (with the wrap-around of the 64-bit counter) *)
Theorem C12_factorize w n : 0 <= w -> is_word w n -> 0 < n ->
  (exists fuel, factorize fuel w n <> None) /\
  (forall fuel l, factorize fuel w n = Some l ->
     (forall p, In p l <-> prime p /\ (p | n)) /\ StronglySorted Z.lt l).
Proof.
  intros Hw [_ Hn] H0. destruct (factorize_ok w n Hw ltac:(lia)) as [H1 H2]. split; auto.
  intros f l Hl. destruct (H2 f l Hl) as (A & B & _). auto.
Qed.
Print Assumptions C12_factorize.
Example C12_nonvacuous : is_word 32 7560 /\ factorize 100 32 7560 = Some [2; 3; 5; 7] /\
  factorize 100 128 (2 ^ 70 * 3 ^ 2 * 97) = Some [2; 3; 97].
Proof. unfold is_word. vm_compute. intuition congruence. Qed.

(** ** C13: q prime, at most 64 bits *)
Theorem C13_primitive_root w q : 0 <= w -> is_word w q -> q <= 2 ^ 64 -> prime q ->
  (exists fuel g, find_primitive_root fuel w q = Some (Some g)) /\
  (forall fuel r, find_primitive_root fuel w q = Some r ->
     exists g, r = Some g /\ 0 < g < q /\ g ^ (q - 1) mod q = 1 /\
               forall k, 0 < k < q - 1 -> g ^ k mod q <> 1).
Proof.
  intros Hw [_ Hqw] H64 Hp. split.
  - destruct (find_primitive_root_terminates w q Hw Hqw H64 Hp) as [f Hf].
    exists f. apply Hf. auto.
  - intros f r Hr. apply find_primitive_root_sound in Hr; auto.
    destruct Hr as (g & -> & Hg & Hk). exists g. split; auto. split; auto. split; auto.
    apply fermat; auto.
Qed.
Theorem C13_primitive_2nth_root w q n : 0 <= w -> is_word w q -> q <= 2 ^ 64 -> prime q ->
  1 <= n < 2 ^ 63 -> is_word w (2 * n) ->
  (forall fuel r, find_primitive_2nth_root fuel w q n = Some (Some r) ->
     0 <= r < q /\ r ^ n mod q = q - 1 /\ r ^ (2 * n) mod q = 1) /\
  (exists fuel,
    ((2 * n | q - 1) -> exists r, find_primitive_2nth_root fuel w q n = Some (Some r)) /\
    (~ (2 * n | q - 1) -> find_primitive_2nth_root fuel w q n = Some None)).
Proof.
  intros Hw [_ Hqw] H64 Hp Hn [_ Hnw]. split.
  - intros f r. apply find_2nth_sound; auto.
  - destruct (find_2nth_terminates w q Hw Hqw H64 Hp n Hn Hnw) as [f [H1 H2]].
    assert (Hiff : (2 * n | q - 1) <-> q mod (2 * n) = 1).
    { split.
      - intros [c Hc]. replace q with (1 + c * (2 * n)) by lia. rewrite Z_mod_plus_full.
        apply Z.mod_1_l; lia.
      - intros E. exists (q / (2 * n)). pose proof (Z.div_mod q (2 * n)). lia. }
    exists f. rewrite Hiff. auto.
Qed.
Print Assumptions C13_primitive_root.
Print Assumptions C13_primitive_2nth_root.
Lemma prime_17 : prime 17.
Proof.
  apply prime_alt. split; [lia|]. intros n Hn.
  assert (H : In n [2;3;4;5;6;7;8;9;10;11;12;13;14;15;16]) by (simpl; lia).
  intros Hd. apply Z.mod_divide in Hd; [|lia]. simpl in H.
  repeat (destruct H as [<-|H]; [vm_compute in Hd; discriminate|]). destruct H.
Qed.
Example C13_nonvacuous : is_word 32 17 /\ 17 <= 2 ^ 64 /\ prime 17 /\
  find_primitive_root 20 32 17 = Some (Some 3) /\
  find_primitive_2nth_root 20 32 17 4 = Some (Some 9) /\
  find_primitive_2nth_root 20 32 17 16 = Some None.
Proof. unfold is_word. repeat (match goal with |- prime _ => exact prime_17 | |- _ /\ _ => split | _ => vm_compute; congruence end). Qed.

(** ** C14 *)
Theorem C14_isPrime_accepts_primes w n : 0 <= w -> is_word w n -> prime n ->
  is_prime w n = Some true.
Proof. exact (is_prime_ok w n). Qed.
Print Assumptions C14_isPrime_accepts_primes.
Example C14_nonvacuous : is_prime 64 65537 = Some true /\ is_prime 64 65535 = Some false /\
  is_prime 64 (2 ^ 61 - 1) = Some true /\ is_prime 64 3215031751 = Some false /\
  is_word 8 17 /\ prime 17.
Proof. unfold is_word. repeat (match goal with |- prime _ => exact prime_17 | |- _ /\ _ => split | _ => vm_compute; congruence end). Qed.

(** ** C51 *)
Theorem C51_is_power_of_two n : - 2 ^ 63 <= n < 2 ^ 63 ->
  (is_power_of_two n = true <-> exists k, 0 <= k /\ n = 2 ^ k).
Proof. intros. apply is_power_of_two_ok; lia. Qed.
Theorem C51_next_power_of_two v : 1 <= v <= 2 ^ 63 ->
  exists k, 0 <= k <= 63 /\ next_power_of_two v = 2 ^ k /\ v <= 2 ^ k /\
    (forall j, 0 <= j -> v <= 2 ^ j -> k <= j).
Proof. exact (next_power_of_two_ok v). Qed.
Print Assumptions C51_is_power_of_two.
Print Assumptions C51_next_power_of_two.
Example C51_nonvacuous : next_power_of_two 1 = 1 /\ next_power_of_two 1000 = 1024 /\
  next_power_of_two (2 ^ 63) = 2 ^ 63 /\ is_power_of_two 1024 = true /\ is_power_of_two 12 = false.
Proof. vm_compute. intuition congruence. Qed.
