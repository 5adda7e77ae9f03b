(** Lemmas about the number-theory helpers. *)
From Coq Require Import ZArith Znumtheory List Bool Lia Sorted.
From Coq Require Import ZifyBool.
From Verif Require Import Words ModArith_Proofs NumTheory_Model.
From Verif Require Import PrimeField.
Import ListNotations.
Open Scope Z_scope.

(** ** multiplicativeInverse *)

Section Inverse.
Variables w m x : Z.
Hypothesis Hw : 1 <= w.
Hypothesis Hm : 1 <= m < 2 ^ w.
Hypothesis Hx : 0 <= x < m.

(** integer (unwrapped) invariant of the loop *)
Definition mi_inv (r0 r1 T0 T1 : Z) : Prop :=
  0 <= r1 < r0 /\ r0 * Z.abs T1 + r1 * Z.abs T0 = m /\ T0 * T1 <= 0 /\
  (m | T0 * x - r0) /\ (m | T1 * x - r1) /\ 2 * Z.abs T0 <= m /\
  Z.gcd r0 r1 = Z.gcd m x.

Lemma mi_inv_step r0 r1 T0 T1 : r1 <> 0 -> mi_inv r0 r1 T0 T1 ->
  mi_inv r1 (r0 mod r1) T1 (T0 - T1 * (r0 / r1)).
Proof.
  intros Hr1 (H1 & H2 & H3 & H4 & H5 & H6 & H7).
  pose proof (Z.div_mod r0 r1 ltac:(lia)) as Hd.
  pose proof (Z.mod_pos_bound r0 r1 ltac:(lia)) as Hb.
  assert (Hq : 0 <= r0 / r1) by (apply Z.div_pos; lia).
  set (q := r0 / r1) in *. set (s := r0 mod r1) in *.
  assert (Hneg : T1 * (T0 - T1 * q) <= 0) by nia.
  assert (Habs : Z.abs (T0 - T1 * q) = Z.abs T0 + q * Z.abs T1).
  { destruct (Z.abs_spec T0) as [[? ->]|[? ->]]; destruct (Z.abs_spec T1) as [[? ->]|[? ->]];
    destruct (Z.abs_spec (T0 - T1 * q)) as [[? ->]|[? ->]]; nia. }
  repeat split; try lia.
  - exact H5.
  - destruct H4 as [a Ha], H5 as [b Hbb]. exists (a - b * q).
    replace s with (r0 - r1 * q) by lia.
    replace ((T0 - T1 * q) * x - (r0 - r1 * q)) with ((T0 * x - r0) - q * (T1 * x - r1)) by ring.
    rewrite Ha, Hbb. ring.
  - nia.
  - rewrite <- H7. unfold s. rewrite Z.gcd_comm. rewrite Z.gcd_mod by lia.
    apply Z.gcd_comm.
Qed.

Lemma mi_loop_ok fuel : forall r0 r1 t0 t1 T0 T1,
  mi_inv r0 r1 T0 T1 -> t0 = wrap w T0 -> t1 = wrap w T1 ->
  r0 * r1 < 2 ^ Z.of_nat fuel ->
  exists r T, mi_loop fuel w r0 r1 t0 t1 = Some (r, wrap w T) /\
    r = Z.gcd m x /\ (m | T * x - r) /\ 2 * Z.abs T <= m.
Proof.
  induction fuel as [|f IH]; intros r0 r1 t0 t1 T0 T1 HI Ht0 Ht1 Hf; cbn [mi_loop].
  - destruct (Z.eqb_spec r1 0) as [->|Hr1].
    + destruct HI as (H1 & H2 & H3 & H4 & H5 & H6 & H7).
      exists r0, T0. rewrite Ht0. rewrite Z.gcd_0_r in H7. repeat split; auto. lia.
    + destruct HI as (H1 & _). simpl in Hf. nia.
  - destruct (Z.eqb_spec r1 0) as [->|Hr1].
    + destruct HI as (H1 & H2 & H3 & H4 & H5 & H6 & H7).
      exists r0, T0. rewrite Ht0. rewrite Z.gcd_0_r in H7. repeat split; auto. lia.
    + pose proof (mi_inv_step _ _ _ _ Hr1 HI) as HI'.
      apply IH with (T0 := T1) (T1 := T0 - T1 * (r0 / r1)); auto.
      * subst t0 t1. unfold wrap.
        rewrite Zminus_mod_idemp_l, Zminus_mod_idemp_r.
        rewrite <- (Zminus_mod_idemp_r _ (T1 mod 2 ^ w * _)).
        rewrite Z.mul_mod_idemp_l by (pose proof (pow2_pos w); lia).
        rewrite Zminus_mod_idemp_r. reflexivity.
      * destruct HI as (H1 & _).
        pose proof (Z.div_mod r0 r1 ltac:(lia)) as Hd.
        pose proof (Z.mod_pos_bound r0 r1 ltac:(lia)) as Hb.
        assert (1 <= r0 / r1) by (apply Z.div_le_lower_bound; lia).
        rewrite Nat2Z.inj_succ, Z.pow_succ_r in Hf by lia. nia.
Qed.

Lemma multiplicative_inverse_ok :
  exists y, multiplicative_inverse w x m = Some y /\
   (Z.gcd x m = 1 -> 0 <= y < m /\ (x * y) mod m = 1 mod m) /\
   (Z.gcd x m <> 1 -> y = 0).
Proof.
  unfold multiplicative_inverse. replace (x <? m) with true by lia. cbn [negb].
  P2 w.
  assert (HI : mi_inv m x 0 1).
  { unfold mi_inv. repeat split; try lia.
    - exists (-1). lia.
    - exists 0. lia. }
  destruct (mi_loop_ok (Z.to_nat (2 * w + 1)) m x 0 (wrap w 1) 0 1 HI) as (r & T & E & Hr & HT & HB); auto.
  { rewrite Z2Nat.id by lia. rewrite Z.pow_add_r by lia.
    replace (2 * w) with (w + w) by lia. rewrite Z.pow_add_r by lia. nia. }
  rewrite E. cbn [bind].
  rewrite (Z.gcd_comm x m). rewrite <- Hr.
  destruct (Z.eqb_spec r 1) as [->|Hne]; cbn [negb].
  2:{ eexists; split; [reflexivity|]. split; intros; [congruence|auto]. }
  eexists; split; [reflexivity|]. split; [intros _|congruence].
  assert (Hcong : forall k, (x * (T + k * m)) mod m = 1 mod m).
  { intros k. destruct HT as [c Hc].
    replace (x * (T + k * m)) with (1 + (c + x * k) * m) by lia.
    apply Z_mod_plus_full. }
  destruct (Z.ltb_spec T 0) as [Hneg|Hpos].
  - assert (Ew : wrap w T = T + 2 ^ w).
    { unfold wrap. rewrite <- (Z_mod_plus_full T 1). rewrite Z.mod_small; lia. }
    rewrite Ew. replace (2 ^ (w - 1) <=? T + 2 ^ w) with true by lia.
    unfold addi, wrap. replace (T + 2 ^ w + m) with (T + m + 1 * 2 ^ w) by lia.
    rewrite Z_mod_plus_full, Z.mod_small by lia.
    split; [lia|]. specialize (Hcong 1). rewrite Z.mul_1_l in Hcong. auto.
  - assert (Ew : wrap w T = T) by (apply wrap_small; lia).
    rewrite Ew. replace (2 ^ (w - 1) <=? T) with false by lia.
    specialize (Hcong 0). rewrite Z.mul_0_l, Z.add_0_r in Hcong.
    split; auto. split; auto.
    destruct (Z.eq_dec m 1); [|lia].
    assert (T = 0) by lia. lia.
Qed.
End Inverse.

(** ** modularMultiplication, modularExponentiation *)
Lemma modular_multiplication_ok w a b m : 0 <= w -> 0 < m < 2 ^ w ->
  0 <= a < 2 ^ w -> 0 <= b < 2 ^ w ->
  modular_multiplication w a b m = Some ((a * b) mod m).
Proof.
  intros. unfold modular_multiplication. rewrite remui_pos by lia. cbn [bind].
  unfold muli, trunci. assert (2 ^ (2 * w) = 2 ^ w * 2 ^ w)
    by (rewrite <- Z.pow_add_r by lia; f_equal; lia).
  rewrite (wrap_small (2 * w)) by nia.
  pose proof (Z.mod_pos_bound (a * b) m). rewrite wrap_small by lia. auto.
Qed.

Lemma pow_mod_l a n m : 0 < m -> ((a mod m) ^ n) mod m = (a ^ n) mod m.
Proof.
  intros Hm. destruct (Z.ltb_spec n 0); [rewrite !Z.pow_neg_r; auto|].
  pattern n. apply natlike_ind; auto.
  - intros k Hk IH. rewrite !Z.pow_succ_r by lia.
    rewrite Zmult_mod, IH, Z.mod_mod by lia. rewrite <- Zmult_mod. auto.
Qed.

Lemma me_loop_ok w m : 0 <= w -> 0 < m < 2 ^ w ->
  forall fuel res b e, 0 <= res < 2 ^ w -> res mod m = res \/ 0 < e -> 0 <= b < m ->
  0 <= e < 2 ^ Z.of_nat fuel ->
  exists r, me_loop fuel w m res b e = Some r /\ r mod m = (res * b ^ e) mod m /\
    (e = 0 -> r = res) /\ (0 < e -> 0 <= r < m).
Proof.
  intros Hw Hm. induction fuel as [|f IH]; intros res b e Hres Hc Hb He.
  - cbn [me_loop]. replace (0 <? e) with false by (simpl in He; lia). cbn [negb].
    exists res. simpl in He. assert (e = 0) by lia. subst. rewrite Z.pow_0_r, Z.mul_1_r.
    repeat split; auto; lia.
  - cbn [me_loop]. destruct (Z.ltb_spec 0 e) as [Hpos|]; cbn [negb].
    2:{ exists res. assert (e = 0) by lia. subst. rewrite Z.pow_0_r, Z.mul_1_r.
        repeat split; auto; lia. }
    rewrite Nat2Z.inj_succ, Z.pow_succ_r in He by lia.
    pose proof (Z.div_mod e 2 ltac:(lia)) as Hd. pose proof (Z.mod_pos_bound e 2 ltac:(lia)) as Hmb.
    assert (Hodd : e mod 2 = if Z.odd e then 1 else 0) by apply Zmod_odd.
    set (res' := if Z.odd e then (res * b) mod m else res).
    assert (Er : (if Z.odd e then modular_multiplication w res b m else Some res) = Some res').
    { unfold res'. destruct (Z.odd e); auto. rewrite modular_multiplication_ok; auto; lia. }
    rewrite Er. cbn [bind]. rewrite modular_multiplication_ok by lia. cbn [bind].
    assert (Hpow : b ^ e = (b * b) ^ (e / 2) * (if Z.odd e then b else 1)).
    { rewrite Hd at 1. rewrite Z.pow_add_r by lia. rewrite Z.pow_mul_r by lia.
      rewrite Z.pow_2_r. f_equal. rewrite Hodd.
      destruct (Z.odd e); [apply Z.pow_1_r | apply Z.pow_0_r]. }
    assert (Hbb : 0 <= (b * b) mod m < m) by (apply Z.mod_pos_bound; lia).
    assert (Hr' : 0 <= res' < 2 ^ w).
    { unfold res'. destruct (Z.odd e); auto. pose proof (Z.mod_pos_bound (res * b) m); lia. }
    destruct (IH res' ((b * b) mod m) (e / 2)) as (r & H1 & H2 & H3 & H4); auto; [|lia|].
    { destruct (Z.eq_dec (e / 2) 0) as [E0|]; [left|right; lia].
      unfold res'. assert (Z.odd e = true) as -> by (destruct (Z.odd e); auto; lia).
      apply Z.mod_mod. lia. }
    exists r. split; auto. split.
    { rewrite H2. rewrite Zmult_mod, pow_mod_l by lia. rewrite <- Zmult_mod.
      rewrite Hpow. unfold res'. destruct (Z.odd e).
      - rewrite Z.mul_mod_idemp_l by lia. f_equal. ring.
      - f_equal. ring. }
    split; [lia|]. intros _.
    destruct (Z.eq_dec (e / 2) 0) as [E0|]; [|apply H4; lia].
    rewrite (H3 E0). unfold res'. assert (Z.odd e = true) as -> by (destruct (Z.odd e); auto; lia).
    apply Z.mod_pos_bound. lia.
Qed.

Lemma modular_exponentiation_ok w base we e m : 0 <= w -> 1 < m < 2 ^ w ->
  0 <= e < 2 ^ we ->
  modular_exponentiation w base we e m = Some (base ^ e mod m).
Proof.
  intros Hw Hm He. unfold modular_exponentiation. rewrite remui_pos by lia. cbn [bind].
  destruct (Z.ltb_spec we 0); [rewrite Z.pow_neg_r in He by lia; lia|].
  pose proof (Z.mod_pos_bound base m ltac:(lia)).
  rewrite (wrap_small w 1) by lia.
  destruct (me_loop_ok w m ltac:(lia) ltac:(lia) (Z.to_nat we) 1 (base mod m) e) as (r & H1 & H2 & H3 & H4); try lia.
  - left. apply Z.mod_1_l; lia.
  - rewrite Z2Nat.id by lia. auto.
  - rewrite H1. f_equal. rewrite Z.mul_1_l, pow_mod_l in H2 by lia.
    destruct (Z.eq_dec e 0) as [->|].
    + rewrite H3 by auto. rewrite Z.pow_0_r, Z.mod_1_l; lia.
    + rewrite <- H2. rewrite Z.mod_small; auto. apply H4. lia.
Qed.

(** ** isPrime *)
Lemma pos_ctz_spec p : exists o, Zpos p = 2 ^ Z.of_nat (pos_ctz p) * (2 * o + 1) /\ 0 <= o.
Proof.
  induction p as [p _|p [o [IH Ho]]|]; cbn [pos_ctz].
  - exists (Zpos p). rewrite Z.pow_0_r. lia.
  - exists o. rewrite Nat2Z.inj_succ, Z.pow_succ_r by lia. split; auto. rewrite Pos2Z.inj_xO. lia.
  - exists 0. simpl. lia.
Qed.

Lemma prime_sqrt_one p y : prime p -> (y * y) mod p = 1 -> y mod p = 1 \/ y mod p = p - 1.
Proof.
  intros Hp H. assert (1 < p) by (destruct Hp; auto).
  assert (Hd : (p | (y - 1) * (y + 1))).
  { exists (y * y / p). pose proof (Z.div_mod (y * y) p). lia. }
  apply prime_mult in Hd; auto. destruct Hd as [[k Hk]|[k Hk]].
  - left. replace y with (1 + k * p) by lia. rewrite Z_mod_plus_full. apply Z.mod_1_l; lia.
  - right. replace y with (p - 1 + (k - 1) * p) by lia. rewrite Z_mod_plus_full.
    apply Z.mod_small. lia.
Qed.

Lemma mr_squares_ok w n : prime n -> 0 <= w -> n < 2 ^ w ->
  forall k x, 0 <= x < n -> x <> 1 -> x <> n - 1 -> x ^ (2 ^ Z.of_nat (S k)) mod n = 1 ->
  mr_squares k w n x = Some true.
Proof.
  intros Hp Hw Hn. assert (1 < n) by (destruct Hp; auto).
  induction k as [|k IH]; intros x Hx H1 H2 H3.
  - exfalso. change (2 ^ Z.of_nat 1) with 2 in H3. rewrite Z.pow_2_r in H3.
    apply prime_sqrt_one in H3; auto. rewrite Z.mod_small in H3 by lia. lia.
  - cbn [mr_squares]. rewrite modular_multiplication_ok by lia. cbn [bind].
    destruct (Z.eqb_spec ((x * x) mod n) (n - 1)); auto.
    assert (0 <= (x * x) mod n < n) by (apply Z.mod_pos_bound; lia).
    apply IH; auto.
    + intros E. apply prime_sqrt_one in E; auto. rewrite Z.mod_small in E by lia. lia.
    + rewrite pow_mod_l by lia. rewrite <- Z.pow_2_r, <- Z.pow_mul_r by lia.
      rewrite <- Z.pow_succ_r by lia. rewrite <- Nat2Z.inj_succ. auto.
Qed.

Lemma is_prime_ok w n : 0 <= w -> 0 <= n < 2 ^ w -> prime n -> is_prime w n = Some true.
Proof.
  intros Hw Hn Hp. assert (1 < n) by (destruct Hp; auto).
  unfold is_prime. replace (n <? 2) with false by lia.
  destruct (Z.ltb_spec n 4); auto.
  destruct (Z.odd n) eqn:Eo; cbn [negb].
  2:{ exfalso. assert (n mod 2 = 0) by (rewrite Zmod_odd, Eo; auto).
      assert ((2 | n)) by (apply Z.mod_divide; lia).
      apply prime_divisors in H2; auto. lia. }
  set (s := ctz (n - 1)). set (d := (n - 1) / 2 ^ Z.of_nat s).
  assert (Hd : n - 1 = 2 ^ Z.of_nat s * d /\ (1 <= s)%nat /\ 0 < d).
  { unfold d, s. destruct (n - 1) as [|p|p] eqn:E; try lia. cbn [ctz].
    destruct (pos_ctz_spec p) as (o & Ho & Ho0).
    assert (0 < 2 ^ Z.of_nat (pos_ctz p)) by (apply pow2_pos; lia).
    assert (Zpos p / 2 ^ Z.of_nat (pos_ctz p) = 2 * o + 1).
    { rewrite Ho at 1. rewrite Z.mul_comm, Z.div_mul; lia. }
    rewrite H2. split; auto. split; [|lia].
    destruct (pos_ctz p) eqn:Ec; [|lia].
    change (2 ^ Z.of_nat 0) with 1 in Ho. assert (n = 2 * (o + 1)) by lia. subst n.
    rewrite Z.odd_mul in Eo. simpl in Eo. discriminate. }
  destruct Hd as (Hd & Hs & Hd0).
  assert (Hdlt : d < 2 ^ w).
  { assert (0 < 2 ^ Z.of_nat s) by (apply pow2_pos; lia). nia. }
  assert (Hb : Forall (fun a => 1 < a) mr_base_list) by (repeat constructor).
  induction Hb as [|a l Ha _ IH]; cbn [mr_bases]; auto.
  destruct (Z.leb_spec n a); auto.
  rewrite wrap_small by lia.
  rewrite modular_exponentiation_ok by lia. cbn [bind].
  assert (HF := fermat _ Hp _ (conj (Z.lt_trans _ _ _ Z.lt_0_1 Ha) H1)). rewrite Hd in HF.
  set (x := a ^ d mod n).
  assert (0 <= x < n) by (apply Z.mod_pos_bound; lia).
  destruct (Z.eqb_spec x 1); cbn [orb]; auto.
  destruct (Z.eqb_spec x (n - 1)); cbn [orb]; auto.
  rewrite mr_squares_ok; auto; try lia.
  unfold x. rewrite pow_mod_l by lia. rewrite <- Z.pow_mul_r by lia.
  replace (S (s - 1)) with s by lia. rewrite Z.mul_comm. auto.
Qed.

(** ** factorize *)
(** v has no divisor in [2, d) *)
Definition no_small (d v : Z) : Prop := forall k, 2 <= k < d -> ~ (k | v).

Lemma no_small_prime d v : 2 <= v -> v < d * d -> 2 <= d -> no_small d v -> prime v.
Proof.
  intros Hv Hd Hd2 Hn. apply prime_alt. split; [lia|]. intros k Hk [c Hc].
  destruct (Z.ltb_spec k d).
  - apply (Hn k); [lia|]. exists c; auto.
  - apply (Hn c); [nia|]. exists k; lia.
Qed.

Lemma no_small_divisor_prime d v : 2 <= d -> no_small d v -> (d | v) -> prime d.
Proof.
  intros Hd Hn Hdv. apply prime_alt. split; [lia|]. intros k Hk Hkd.
  apply (Hn k); [lia|]. eapply Z.divide_trans; eauto.
Qed.

Lemma no_small_ge d v : 2 <= v -> no_small d v -> d <= v.
Proof.
  intros Hv Hn. destruct (Z.ltb_spec v d); [|lia]. exfalso. apply (Hn v); [lia|]. exists 1; lia.
Qed.

Lemma strip_ok fuel : forall d v, 2 <= d -> 1 <= v < 2 ^ Z.of_nat fuel ->
  exists v', strip fuel d v = Some v' /\ 1 <= v' <= v /\ ~ (d | v') /\ (v' | v) /\
    (forall p, prime p -> ((p | v) <-> (p | v') \/ ((d | v) /\ (p | d)))).
Proof.
  induction fuel as [|f IH]; intros d v Hd Hv.
  - simpl in Hv. lia.
  - cbn [strip]. destruct (Z.eqb_spec (v mod d) 0) as [E|E].
    + apply Z.mod_divide in E; [|lia]. destruct E as [c Hc].
      assert (v / d = c) by (rewrite Hc; apply Z.div_mul; lia).
      rewrite H. assert (1 <= c) by nia.
      rewrite Nat2Z.inj_succ, Z.pow_succ_r in Hv by lia.
      destruct (IH d c Hd) as (v' & H1 & H2 & H3 & H4 & H5); [nia|].
      exists v'. split; auto. split; [nia|]. split; auto.
      split; [subst; apply Z.divide_mul_l; auto|].
      intros p Hp. split.
      * intros Hpv. rewrite Hc in Hpv. apply prime_mult in Hpv; auto.
        destruct Hpv as [Hpc|Hpd].
        -- apply H5 in Hpc; auto. destruct Hpc as [|[_ ?]]; [left; auto|right].
           split; auto. exists c; auto.
        -- right. split; auto. exists c; auto.
      * intros [Hpv|[_ Hpd]].
        -- subst v. apply Z.divide_mul_l. eapply Z.divide_trans; eauto.
        -- subst v. apply Z.divide_mul_r. auto.
    + exists v. split; auto. split; [lia|].
      assert (~ (d | v)) by (intros Hdv; apply Z.mod_divide in Hdv; lia).
      split; auto. split; [exists 1; lia|]. intros p Hp. tauto.
Qed.

(** the primes of v, in increasing order, all at least d *)
Definition primes_of (d v : Z) (l : list Z) : Prop :=
  (forall p, In p l <-> prime p /\ (p | v)) /\ StronglySorted Z.lt l /\ Forall (fun p => d <= p) l.

Lemma primes_of_one d : primes_of d 1 [].
Proof.
  split; [|split; constructor]. intros p; split; [intros []|].
  intros [Hp H1]. apply Z.divide_1_r_nonneg in H1; destruct Hp; lia.
Qed.

Lemma primes_of_prime d v : d <= v -> prime v -> primes_of d v [v].
Proof.
  intros Hd Hv. split; [|split; repeat constructor; auto].
  intros p; split.
  - intros [<-|[]]. split; auto. exists 1; lia.
  - intros [Hp Hpv]. left. apply prime_div_prime in Hpv; auto.
Qed.

Lemma primes_of_cons d v v' l : 2 <= d -> prime d -> (d | v) -> ~ (d | v') -> (v' | v) ->
  (forall p, prime p -> ((p | v) <-> (p | v') \/ ((d | v) /\ (p | d)))) ->
  primes_of (d + 1) v' l -> primes_of d v (d :: l).
Proof.
  intros Hd Hpd Hdv Hdv' Hv'v Hp (H1 & H2 & H3). split; [|split].
  - intros p; split.
    + intros [<-|Hin]; auto. apply H1 in Hin as [Hpp Hpv']. split; auto.
      eapply Z.divide_trans; eauto.
    + intros [Hpp Hpv]. apply Hp in Hpv; auto. destruct Hpv as [|[_ Hpd']].
      * right. apply H1. auto.
      * left. symmetry. apply prime_div_prime; auto.
  - constructor; auto. eapply Forall_impl; [|exact H3]. simpl; lia.
  - constructor; [lia|]. eapply Forall_impl; [|exact H3]. simpl; lia.
Qed.

Lemma no_small_S d v v' : no_small d v -> (v' | v) -> ~ (d | v') -> no_small (d + 1) v'.
Proof.
  intros Hn Hv Hd k Hk Hkv. destruct (Z.eq_dec k d) as [->|]; auto.
  apply (Hn k); [lia|]. eapply Z.divide_trans; eauto.
Qed.

Lemma fact64_one fuel : forall d l, 0 <= d -> fact64 fuel d 1 = Some l -> l = [].
Proof.
  induction fuel as [|f IH]; intros d l Hd H; cbn [fact64] in H; [discriminate|].
  destruct (wrap 64 (d * d) <=? 1) eqn:E; cbn [negb] in H.
  2:{ simpl in H. congruence. }
  destruct (Z.eqb_spec d 0); [discriminate|].
  assert (0 <= wrap 64 (d + 1)) by (apply Z.mod_pos_bound; lia).
  destruct (Z.eqb_spec (1 mod d) 0) as [E1|E1].
  - assert (d = 1).
    { apply Z.mod_divide in E1; auto. apply Z.divide_1_r_nonneg in E1; lia. }
    subst. vm_compute in H. discriminate.
  - eapply IH; eauto.
Qed.

Lemma fact64_sound fuel : forall d v l, 2 <= d -> 2 <= v < 2 ^ 64 -> no_small d v ->
  fact64 fuel d v = Some l -> primes_of d v l.
Proof.
  induction fuel as [|f IH]; intros d v l Hd Hv Hn H; cbn [fact64] in H; [discriminate|].
  pose proof (no_small_ge d v ltac:(lia) Hn) as Hdv.
  destruct (wrap 64 (d * d) <=? v) eqn:E; cbn [negb] in H.
  2:{ replace (1 <? v) with true in H by lia. injection H as <-.
      apply primes_of_prime; auto. apply (no_small_prime d); auto; try lia.
      assert (wrap 64 (d * d) <= d * d) by (apply Z.mod_le; nia). lia. }
  replace (d =? 0) with false in H by lia.
  destruct (Z.eqb_spec (v mod d) 0) as [E1|E1].
  - apply Z.mod_divide in E1; [|lia].
    assert (Hpd : prime d) by (eapply no_small_divisor_prime; eauto).
    destruct (strip_ok 64 d v Hd) as (v' & S1 & S2 & S3 & S4 & S5); [simpl Z.of_nat; lia|].
    rewrite S1 in H. cbn [bind] in H.
    destruct (fact64 f (wrap 64 (d + 1)) v') as [r|] eqn:ER; [|discriminate].
    cbn [bind] in H. injection H as <-.
    eapply primes_of_cons; eauto.
    destruct (Z.eq_dec v' 1) as [->|Hne].
    + apply fact64_one in ER; [|apply Z.mod_pos_bound; lia]. subst. apply primes_of_one.
    + assert (no_small (d + 1) v') by (eapply no_small_S; eauto).
      pose proof (no_small_ge (d + 1) v' ltac:(lia) H).
      rewrite wrap_small in ER by lia. eapply IH; eauto; lia.
  - assert (Hnd : ~ (d | v)) by (intros Hdiv; apply Z.mod_divide in Hdiv; lia).
    assert (Hns : no_small (d + 1) v) by (eapply no_small_S; eauto; exists 1; lia).
    pose proof (no_small_ge (d + 1) v ltac:(lia) Hns).
    rewrite wrap_small in H by lia.
    apply IH in H; auto; try lia. destruct H as (A & B & C). split; [auto|split; auto].
    eapply Forall_impl; [|exact C]. simpl; lia.
Qed.

Lemma fact64_one_terminates : forall k d, (Z.to_nat (2 ^ 64 - d) <= k)%nat -> 2 <= d <= 2 ^ 64 - 2 ->
  exists fuel, fact64 fuel d 1 <> None.
Proof.
  induction k as [|k IH]; intros d Hk Hd; [lia|].
  destruct (Z.eq_dec d (2 ^ 64 - 2)) as [->|].
  - exists 1%nat. vm_compute. discriminate.
  - destruct (IH (d + 1)) as [f Hf]; [lia|lia|]. exists (S f). cbn [fact64].
    destruct (negb (wrap 64 (d * d) <=? 1)); [discriminate|].
    replace (d =? 0) with false by lia. rewrite Z.mod_1_l by lia. simpl (1 =? 0).
    rewrite wrap_small by lia. auto.
Qed.

Lemma fact64_terminates : forall k d v, (Z.to_nat (2 ^ 64 - d) <= k)%nat -> 2 <= d ->
  2 <= v < 2 ^ 64 -> no_small d v -> exists fuel, fact64 fuel d v <> None.
Proof.
  induction k as [|k IH]; intros d v Hk Hd Hv Hn.
  { pose proof (no_small_ge d v ltac:(lia) Hn). lia. }
  pose proof (no_small_ge d v ltac:(lia) Hn) as Hdv.
  destruct (Z.eqb_spec (v mod d) 0) as [E1|E1].
  - apply Z.mod_divide in E1; [|lia].
    assert (Hpd : prime d) by (eapply no_small_divisor_prime; eauto).
    destruct (strip_ok 64 d v Hd) as (v' & S1 & S2 & S3 & S4 & S5); [simpl Z.of_nat; lia|].
    assert (exists f, fact64 f (wrap 64 (d + 1)) v' <> None) as [f Hf].
    { destruct (Z.eq_dec v' 1) as [->|Hne].
      - assert (d <= 2 ^ 64 - 3).
        { destruct (Z.leb_spec d (2 ^ 64 - 3)); auto. exfalso.
          assert (d = 2 ^ 64 - 2 \/ d = 2 ^ 64 - 1) as [->| ->] by lia.
          - assert ((2 | 2 ^ 64 - 2)) as H0 by (exists (2 ^ 63 - 1); reflexivity).
            apply prime_divisors in H0; auto. lia.
          - assert ((3 | 2 ^ 64 - 1)) as H0 by (exists 6148914691236517205; reflexivity).
            apply prime_divisors in H0; auto. lia. }
        rewrite wrap_small by lia. eapply fact64_one_terminates; [reflexivity|lia].
      - assert (Hns : no_small (d + 1) v') by (eapply no_small_S; eauto).
        pose proof (no_small_ge (d + 1) v' ltac:(lia) Hns).
        rewrite wrap_small by lia. apply IH; auto; lia. }
    exists (S f). cbn [fact64]. destruct (negb _); [discriminate|].
    replace (d =? 0) with false by lia.
    replace (v mod d =? 0) with true by (apply Z.mod_divide in E1; lia).
    rewrite S1. cbn [bind]. destruct (fact64 f _ v'); [discriminate|congruence].
  - assert (Hnd : ~ (d | v)) by (intros Hdiv; apply Z.mod_divide in Hdiv; lia).
    assert (Hns : no_small (d + 1) v) by (eapply no_small_S; eauto; exists 1; lia).
    pose proof (no_small_ge (d + 1) v ltac:(lia) Hns).
    destruct (IH (d + 1) v) as [f Hf]; auto; try lia.
    exists (S f). cbn [fact64]. destruct (negb _); [discriminate|].
    replace (d =? 0) with false by lia. replace (v mod d =? 0) with false by lia.
    rewrite wrap_small by lia. auto.
Qed.

Lemma wide_square w d : 0 <= w -> 0 <= d < 2 ^ w -> wrap (2 * w) (d * d) = d * d.
Proof.
  intros. apply wrap_small. replace (2 * w) with (w + w) by lia. rewrite Z.pow_add_r by lia. nia.
Qed.

Lemma factw_ok w : 64 < w -> forall k d v, (Z.to_nat (v + 1 - d) <= k)%nat -> 2 <= d < 2 ^ w - 1 ->
  1 <= v < 2 ^ w -> no_small d v ->
  (exists fuel, factw fuel w d v <> None) /\
  (forall fuel l, factw fuel w d v = Some l -> primes_of d v l).
Proof.
  intros Hw. induction k as [|k IH]; intros d v Hk Hd Hv Hn.
  - assert (v < d) by lia.
    destruct (Z.eq_dec v 1) as [->|].
    2:{ pose proof (no_small_ge d v ltac:(lia) Hn). lia. }
    split.
    + exists 1%nat. cbn [factw]. rewrite wide_square by lia.
      replace (1 <? d * d) with true by nia. discriminate.
    + intros [|f] l Hl; cbn [factw] in Hl; [discriminate|].
      rewrite wide_square in Hl by lia. replace (1 <? d * d) with true in Hl by nia.
      simpl in Hl. injection Hl as <-. apply primes_of_one.
  - assert (Hstop : v < d * d -> primes_of d v (if 1 <? v then [v] else [])).
    { intros Hvd. destruct (Z.ltb_spec 1 v).
      - apply primes_of_prime; [eapply no_small_ge; eauto; lia|].
        apply (no_small_prime d); auto; lia.
      - assert (v = 1) by lia. subst. apply primes_of_one. }
    destruct (Z.ltb_spec v (d * d)) as [Hlt|Hge].
    { split.
      - exists 1%nat. cbn [factw]. rewrite wide_square by lia.
        replace (v <? d * d) with true by lia. discriminate.
      - intros [|f] l Hl; cbn [factw] in Hl; [discriminate|].
        rewrite wide_square in Hl by lia. replace (v <? d * d) with true in Hl by lia.
        injection Hl as <-. auto. }
    assert (Hd1 : 2 <= d + 1 < 2 ^ w - 1) by nia.
    destruct (Z.eqb_spec (v mod d) 0) as [E1|E1].
    + assert (E2 : (d | v)) by (apply Z.mod_divide; lia).
      assert (Hpd : prime d) by (eapply no_small_divisor_prime; eauto; lia).
      destruct (strip_ok (Z.to_nat w) d v ltac:(lia)) as (v' & S1 & S2 & S3 & S4 & S5);
        [rewrite Z2Nat.id; lia|].
      destruct (IH (d + 1) v') as [[f Hf] Hs]; auto; try lia.
      { eapply no_small_S; eauto. }
      split.
      * exists (S f). cbn [factw]. rewrite wide_square by lia.
        replace (v <? d * d) with false by lia. replace (d =? 0) with false by lia.
        replace (v mod d =? 0) with true by lia. rewrite S1. cbn [bind].
        rewrite wrap_small by lia. destruct (factw f w (d + 1) v'); [discriminate|congruence].
      * intros [|f'] l Hl; cbn [factw] in Hl; [discriminate|].
        rewrite wide_square in Hl by lia.
        replace (v <? d * d) with false in Hl by lia. replace (d =? 0) with false in Hl by lia.
        replace (v mod d =? 0) with true in Hl by lia. rewrite S1 in Hl. cbn [bind] in Hl.
        rewrite wrap_small in Hl by lia.
        destruct (factw f' w (d + 1) v') as [r|] eqn:ER; [|discriminate].
        injection Hl as <-. eapply primes_of_cons; eauto; lia.
    + assert (Hnd : ~ (d | v)) by (intros Hdiv; apply Z.mod_divide in Hdiv; lia).
      assert (Hns : no_small (d + 1) v) by (eapply no_small_S; eauto; exists 1; lia).
      destruct (IH (d + 1) v) as [[f Hf] Hs]; auto; try lia.
      split.
      * exists (S f). cbn [factw]. rewrite wide_square by lia.
        replace (v <? d * d) with false by lia. replace (d =? 0) with false by lia.
        replace (v mod d =? 0) with false by lia. rewrite wrap_small by lia. auto.
      * intros [|f'] l Hl; cbn [factw] in Hl; [discriminate|].
        rewrite wide_square in Hl by lia.
        replace (v <? d * d) with false in Hl by lia. replace (d =? 0) with false in Hl by lia.
        replace (v mod d =? 0) with false in Hl by lia.
        rewrite wrap_small in Hl by lia.
        apply Hs in Hl. destruct Hl as (A & B & C). split; [auto|split; auto].
        eapply Forall_impl; [|exact C]. simpl; lia.
Qed.

Lemma no_small_2 v : no_small 2 v.
Proof. intros k Hk. lia. Qed.

Lemma factorize_ok w n : 0 <= w -> 0 < n < 2 ^ w ->
  (exists fuel, factorize fuel w n <> None) /\
  (forall fuel l, factorize fuel w n = Some l -> primes_of 2 n l).
Proof.
  intros Hw Hn. unfold factorize. destruct (Z.ltb_spec n 2).
  { split; [exists 0%nat; discriminate|]. intros _ l [= <-]. assert (n = 1) by lia. subst.
    apply primes_of_one. }
  destruct (Z.leb_spec (active_bits n) 64) as [Hb|Hb].
  - apply active_bits_bound in Hb; try lia. split.
    + eapply fact64_terminates; eauto using no_small_2; lia.
    + intros fuel l. apply fact64_sound; auto using no_small_2; lia.
  - assert (64 < w).
    { destruct (Z.ltb_spec 64 w); auto. exfalso.
      assert (active_bits n <= 64); [|lia].
      apply active_bits_bound; try lia. eapply Z.lt_le_trans; [apply Hn|].
      apply Z.pow_le_mono_r; lia. }
    eapply (factw_ok w); eauto using no_small_2; try lia.
    assert (2 ^ 64 <= 2 ^ w) by (apply Z.pow_le_mono_r; lia). lia.
Qed.

(** ** roots of unity *)
Lemma pow_one_mul g q a k : 1 < q -> 0 <= a -> 0 <= k -> g ^ a mod q = 1 -> g ^ (a * k) mod q = 1.
Proof.
  intros Hq Ha Hk H. rewrite Z.pow_mul_r by lia. rewrite <- pow_mod_l by lia. rewrite H.
  rewrite Z.pow_1_l by lia. apply Z.mod_1_l; lia.
Qed.

Lemma pow_one_mod g q a b : 1 < q -> 0 <= a -> 0 < b ->
  g ^ a mod q = 1 -> g ^ b mod q = 1 -> g ^ (a mod b) mod q = 1.
Proof.
  intros Hq Ha Hb H1 H2. pose proof (Z.div_mod a b ltac:(lia)) as Hd.
  pose proof (Z.mod_pos_bound a b Hb). assert (0 <= a / b) by (apply Z.div_pos; lia).
  rewrite Hd in H1. rewrite Z.pow_add_r in H1 by nia. rewrite Zmult_mod in H1.
  rewrite pow_one_mul in H1 by (auto; lia). rewrite Z.mul_1_l, Z.mod_mod in H1 by lia. auto.
Qed.

Lemma pow_one_gcd g q a b : 1 < q -> 0 <= a -> 0 <= b ->
  g ^ a mod q = 1 -> g ^ b mod q = 1 -> g ^ (Z.gcd a b) mod q = 1.
Proof.
  intros Hq Ha Hb. revert a Ha. assert (H : forall k b, (Z.to_nat b <= k)%nat -> 0 <= b -> forall a, 0 <= a ->
    g ^ a mod q = 1 -> g ^ b mod q = 1 -> g ^ (Z.gcd a b) mod q = 1).
  { clear b Hb. induction k as [|k IH]; intros b Hk Hb a Ha H1 H2.
    - assert (b = 0) by lia. subst. rewrite Z.gcd_0_r, Z.abs_eq; auto.
    - destruct (Z.eq_dec b 0) as [-> |]; [rewrite Z.gcd_0_r, Z.abs_eq; auto|].
      pose proof (Z.mod_pos_bound a b ltac:(lia)).
      rewrite Z.gcd_comm, <- Z.gcd_mod by lia. rewrite Z.gcd_comm.
      apply IH; try lia; auto. apply pow_one_mod; auto; lia. }
  eapply H; eauto.
Qed.

Lemma order_exact g q phi : 1 < q -> 0 < phi -> g ^ phi mod q = 1 ->
  (forall p, prime p -> (p | phi) -> g ^ (phi / p) mod q <> 1) ->
  forall k, 0 < k < phi -> g ^ k mod q <> 1.
Proof.
  intros Hq Hphi H1 H k Hk E.
  pose proof (pow_one_gcd g q k phi Hq ltac:(lia) ltac:(lia) E H1) as Hg.
  set (d := Z.gcd k phi) in *.
  assert (Hdk : (d | k)) by apply Z.gcd_divide_l.
  destruct (Z.gcd_divide_r k phi) as [c Hc]. fold d in Hc.
  assert (0 <= d) by apply Z.gcd_nonneg.
  assert (Hd0 : 0 < d) by (destruct (Z.eq_dec d 0); [rewrite e in Hc; lia|lia]).
  assert (d <= k) by (apply Z.divide_pos_le; auto; lia).
  assert (2 <= c) by nia.
  destruct (exists_prime_divisor c ltac:(lia)) as (p & Hp & [c' Hc']).
  assert (1 < p) by (destruct Hp; auto).
  apply (H p Hp); [exists (c' * d); rewrite Hc, Hc'; ring|].
  replace (phi / p) with (d * c').
  2:{ rewrite Hc, Hc'. replace (c' * p * d) with (d * c' * p) by ring. rewrite Z.div_mul; lia. }
  apply pow_one_mul; auto; nia.
Qed.

Section Roots.
Variables w q : Z.
Hypothesis Hw : 0 <= w.
Hypothesis Hqw : q < 2 ^ w.
Hypothesis Hq64 : q <= 2 ^ 64.
Hypothesis Hprime : prime q.
Let Hq1 : 1 < q.
Proof. destruct Hprime; auto. Qed.

Lemma root_test_ok l g : Forall (fun p => 1 < p) l ->
  exists b, root_test l w g (q - 1) q = Some b /\
   (b = true <-> forall p, In p l -> g ^ ((q - 1) / p) mod q <> 1).
Proof.
  intros Hl. induction Hl as [|p l Hp Hl IH]; cbn [root_test].
  - exists true. split; [reflexivity|]. split; [intros _ p' []|reflexivity].
  - unfold divui. replace (p =? 0) with false by lia. cbn [bind].
    assert (0 <= (q - 1) / p <= q - 1).
    { split; [apply Z.div_pos; lia|]. apply Z.div_le_upper_bound; [lia|nia]. }
    rewrite modular_exponentiation_ok by lia. cbn [bind].
    destruct (Z.eqb_spec (g ^ ((q - 1) / p) mod q) 1).
    + exists false. split; auto. split; [discriminate|]. intros HH. exfalso. apply (HH p); simpl; auto.
    + destruct IH as (b & E & Hb). exists b. split; auto. rewrite Hb. split.
      * intros HH p' [<-|Hin]; auto.
      * intros HH p' Hin. apply HH. right; auto.
Qed.

Lemma root_loop_sound l fuel : Forall (fun p => 1 < p) l -> forall g r,
  2 <= g -> root_loop fuel l w g (q - 1) q = Some (Some r) ->
  g <= r < q /\ forall p, In p l -> r ^ ((q - 1) / p) mod q <> 1.
Proof.
  intros Hl. induction fuel as [|f IH]; intros g r Hg H; cbn [root_loop] in H.
  - destruct (g <? q); discriminate.
  - destruct (Z.ltb_spec g q); [|discriminate]. cbn [negb] in H.
    rewrite wrap_small in H by lia.
    destruct (root_test_ok l g Hl) as (b & E & Hb). rewrite E in H. cbn [bind] in H.
    destruct b.
    + injection H as <-. split; [lia|]. apply Hb; auto.
    + destruct (Z.eq_dec g (2 ^ 64 - 1)) as [-> |].
      * (* the uint64_t counter would wrap: q = 2^64 is not prime *)
        exfalso. assert (q = 2 ^ 64) by lia.
        assert ((2 | q)) by (exists (2 ^ 63); rewrite H1; reflexivity).
        apply prime_divisors in H2; auto. lia.
      * rewrite wrap_small in H by lia. apply IH in H; [|lia]. split; [lia|]. apply H.
Qed.

Lemma root_loop_complete l g0 : Forall (fun p => 1 < p) l -> g0 < q ->
  (forall p, In p l -> g0 ^ ((q - 1) / p) mod q <> 1) ->
  forall k g, (Z.to_nat (g0 - g) <= k)%nat -> 2 <= g <= g0 ->
  forall fuel, (S k <= fuel)%nat -> exists r, root_loop fuel l w g (q - 1) q = Some (Some r).
Proof.
  intros Hl Hg0 H0. induction k as [|k IH]; intros g Hk Hg fuel Hf;
    (destruct fuel as [|f]; [lia|]); cbn [root_loop];
    replace (g <? q) with true by lia; cbn [negb]; rewrite wrap_small by lia;
    destruct (root_test_ok l g Hl) as (b & E & Hb); rewrite E; cbn [bind].
  - assert (g = g0) by lia. subst. assert (b = true) as -> by (apply Hb; auto). eauto.
  - destruct b; eauto.
    destruct (Z.eq_dec g g0) as [-> |]; [assert (false = true) by (apply Hb; auto); discriminate|].
    rewrite wrap_small by lia. apply IH; lia.
Qed.

Lemma find_primitive_root_sound fuel r : find_primitive_root fuel w q = Some r ->
  exists g, r = Some g /\ 0 < g < q /\ forall k, 0 < k < q - 1 -> g ^ k mod q <> 1.
Proof.
  unfold find_primitive_root. replace (q <=? 1) with false by lia.
  destruct (Z.odd q) eqn:Eo; cbn [negb].
  2:{ assert (q = 2).
      { assert (q mod 2 = 0) by (rewrite Zmod_odd, Eo; auto).
        assert ((2 | q)) by (apply Z.mod_divide; lia).
        apply prime_divisors in H0; auto. lia. }
      rewrite H. simpl. intros [= <-]. exists 1.
      rewrite wrap_small by lia. split; auto. split; [lia|]. intros k Hk. lia. }
  destruct (factorize fuel w (q - 1)) as [l|] eqn:EF; [|discriminate]. cbn [bind].
  assert (2 < q) by (destruct (Z.eq_dec q 2) as [E2|]; [rewrite E2 in Eo; discriminate|lia]).
  apply (factorize_ok w (q - 1)) in EF; [|lia|lia].
  destruct EF as (HF & _ & HF2).
  assert (Hl : Forall (fun p => 1 < p) l) by (eapply Forall_impl; [|exact HF2]; simpl; lia).
  intros HL.
  destruct r as [g|].
  - apply root_loop_sound in HL; auto; [|lia]. destruct HL as [Hg HP]. exists g. split; auto.
    split; [lia|]. apply order_exact; try lia.
    + apply fermat; auto. lia.
    + intros p Hp Hd. apply HP. apply HF. auto.
  - exfalso. (* the search does not run off the end *)
    destruct (primitive_root_exists _ Hprime) as (g0 & Hg0 & Hord).
    assert (g0 <> 1). { intros ->. apply (Hord 1); [lia|]. rewrite Z.pow_1_l by lia. apply Z.mod_1_l; lia. }
    assert (HP : forall p, In p l -> g0 ^ ((q - 1) / p) mod q <> 1).
    { intros p Hp. apply HF in Hp as [Hp [c Hc]]. assert (1 < p) by (destruct Hp; auto).
      apply Hord. rewrite Hc, Z.div_mul by lia. nia. }
    assert (Hno : forall fuel g, 2 <= g <= g0 -> root_loop fuel l w g (q - 1) q <> Some None).
    { induction fuel0 as [|f IH]; intros g Hg; cbn [root_loop];
      replace (g <? q) with true by lia; cbn [negb]; [discriminate|].
      rewrite wrap_small by lia.
      destruct (root_test_ok l g Hl) as (b & E & Hb); rewrite E; cbn [bind].
      destruct b; [discriminate|].
      destruct (Z.eq_dec g g0) as [-> |]; [assert (false = true) by (apply Hb; auto); discriminate|].
      rewrite wrap_small by lia. apply IH. lia. }
    eapply Hno; [|exact HL]. lia.
Qed.

Lemma fact64_mono f : forall d v l, fact64 f d v = Some l ->
  forall f', (f <= f')%nat -> fact64 f' d v = Some l.
Proof.
  induction f as [|f IH]; intros d v l H f' Hf; [discriminate|].
  destruct f' as [|f']; [lia|]. cbn [fact64] in *. destruct (negb _); auto.
  destruct (d =? 0); auto. destruct (v mod d =? 0).
  - destruct (strip 64 d v); [|discriminate]. cbn [bind] in *.
    destruct (fact64 f _ _) eqn:E; [|discriminate]. apply IH with (f' := f') in E; [|lia].
    rewrite E. auto.
  - apply IH; auto. lia.
Qed.
Lemma factw_mono f : forall w' d v l, factw f w' d v = Some l ->
  forall f', (f <= f')%nat -> factw f' w' d v = Some l.
Proof.
  induction f as [|f IH]; intros w' d v l H f' Hf; [discriminate|].
  destruct f' as [|f']; [lia|]. cbn [factw] in *. destruct (v <? _); auto.
  destruct (d =? 0); auto. destruct (v mod d =? 0).
  - destruct (strip _ d v); [|discriminate]. cbn [bind] in *.
    destruct (factw f _ _ _) eqn:E; [|discriminate]. apply IH with (f' := f') in E; [|lia].
    rewrite E. auto.
  - apply IH; auto. lia.
Qed.
Lemma factorize_mono f f' w' n l : factorize f w' n = Some l -> (f <= f')%nat ->
  factorize f' w' n = Some l.
Proof.
  unfold factorize. intros H Hf. destruct (n <? 2); auto. destruct (active_bits n <=? 64).
  - eapply fact64_mono; eauto.
  - eapply factw_mono; eauto.
Qed.

Lemma find_primitive_root_terminates : exists fuel, forall fuel', (fuel <= fuel')%nat ->
  exists g, find_primitive_root fuel' w q = Some (Some g).
Proof.
  unfold find_primitive_root. replace (q <=? 1) with false by lia.
  destruct (Z.odd q) eqn:Eo; cbn [negb].
  2:{ assert (q = 2).
      { assert (q mod 2 = 0) by (rewrite Zmod_odd, Eo; auto).
        assert ((2 | q)) by (apply Z.mod_divide; lia).
        apply prime_divisors in H0; auto. lia. }
      rewrite H. simpl. exists 0%nat. eauto. }
  assert (2 < q) by (destruct (Z.eq_dec q 2) as [E2|]; [rewrite E2 in Eo; discriminate|lia]).
  destruct (factorize_ok w (q - 1)) as [[f Hf] Hs]; [lia|lia|].
  destruct (factorize f w (q - 1)) as [l|] eqn:EF; [|congruence].
  destruct (Hs f l EF) as (HF & _ & HF2).
  assert (Hl : Forall (fun p => 1 < p) l) by (eapply Forall_impl; [|exact HF2]; simpl; lia).
  destruct (primitive_root_exists _ Hprime) as (g0 & Hg0 & Hord).
  assert (g0 <> 1). { intros ->. apply (Hord 1); [lia|]. rewrite Z.pow_1_l by lia. apply Z.mod_1_l; lia. }
  assert (HP : forall p, In p l -> g0 ^ ((q - 1) / p) mod q <> 1).
  { intros p Hp. apply HF in Hp as [Hp [c Hc]]. assert (1 < p) by (destruct Hp; auto).
    apply Hord. rewrite Hc, Z.div_mul by lia. nia. }
  exists (Nat.max f (S (Z.to_nat (g0 - 2)))). intros f' Hf'.
  rewrite (factorize_mono f f' w (q - 1) l EF) by lia. cbn [bind].
  apply (root_loop_complete l g0 Hl ltac:(lia) HP (Z.to_nat (g0 - 2))); lia.
Qed.

Variable n : Z.
Hypothesis Hn : 1 <= n < 2 ^ 63.
Hypothesis Hnw : 2 * n < 2 ^ w.

Lemma find_2nth_sound fuel r : find_primitive_2nth_root fuel w q n = Some (Some r) ->
  0 <= r < q /\ r ^ n mod q = q - 1 /\ r ^ (2 * n) mod q = 1.
Proof.
  unfold find_primitive_2nth_root. rewrite (wrap_small 64) by lia. rewrite (wrap_small w) by lia.
  rewrite remui_pos by lia. cbn [bind].
  destruct (Z.eqb_spec (q mod (2 * n)) 1) as [E|E]; cbn [negb]; [|discriminate].
  destruct (find_primitive_root fuel w q) as [g|] eqn:EG; [|discriminate]. cbn [bind].
  apply find_primitive_root_sound in EG. destruct EG as (g' & -> & Hg & Hord).
  unfold divui. replace (2 * n =? 0) with false by lia. cbn [bind].
  pose proof (Z.div_mod q (2 * n) ltac:(lia)) as Hdm. rewrite E in Hdm.
  set (e := q / (2 * n)) in *.
  assert (Ee : (q - 1) / (2 * n) = e).
  { replace (q - 1) with (e * (2 * n)) by lia. apply Z.div_mul; lia. }
  rewrite Ee. assert (0 < e) by nia.
  rewrite modular_exponentiation_ok by nia. cbn [bind]. intros [= <-].
  split; [apply Z.mod_pos_bound; lia|].
  rewrite !pow_mod_l by lia. rewrite <- !Z.pow_mul_r by lia.
  assert (H2n : g' ^ (e * (2 * n)) mod q = 1).
  { replace (e * (2 * n)) with (q - 1) by lia. apply fermat; auto. }
  split; auto.
  assert (Hne : g' ^ (e * n) mod q <> 1) by (apply Hord; nia).
  assert (Hsq : (g' ^ (e * n) * g' ^ (e * n)) mod q = 1).
  { rewrite <- Z.pow_add_r by nia. replace (e * n + e * n) with (e * (2 * n)) by ring. auto. }
  apply prime_sqrt_one in Hsq; auto. tauto.
Qed.

Lemma find_2nth_terminates_mono : exists fuel, forall fuel', (fuel <= fuel')%nat ->
  (q mod (2 * n) = 1 -> exists r, find_primitive_2nth_root fuel' w q n = Some (Some r)) /\
  (q mod (2 * n) <> 1 -> find_primitive_2nth_root fuel' w q n = Some None).
Proof.
  destruct find_primitive_root_terminates as [f Hf]. exists f. intros f' Hle.
  unfold find_primitive_2nth_root. rewrite (wrap_small 64) by lia. rewrite (wrap_small w) by lia.
  rewrite remui_pos by lia. cbn [bind].
  destruct (Z.eqb_spec (q mod (2 * n)) 1) as [E|E]; cbn [negb]; split; intros; try congruence.
  destruct (Hf f' Hle) as [g Hg]. rewrite Hg. cbn [bind].
  unfold divui. replace (2 * n =? 0) with false by lia. cbn [bind].
  assert (0 <= (q - 1) / (2 * n) <= q - 1).
  { split; [apply Z.div_pos; lia|]. apply Z.div_le_upper_bound; nia. }
  rewrite modular_exponentiation_ok by lia. cbn [bind]. eauto.
Qed.
Lemma find_2nth_terminates : exists fuel,
  (q mod (2 * n) = 1 -> exists r, find_primitive_2nth_root fuel w q n = Some (Some r)) /\
  (q mod (2 * n) <> 1 -> find_primitive_2nth_root fuel w q n = Some None).
Proof. destruct find_2nth_terminates_mono as [f Hf]. exists f. apply Hf. lia. Qed.
End Roots.

(** ** powers of two *)
Lemma is_power_of_two_ok n : n < 2 ^ 63 -> - 2 ^ 63 <= n ->
  (is_power_of_two n = true <-> exists k, 0 <= k /\ n = 2 ^ k).
Proof.
  intros _ _. unfold is_power_of_two. split.
  - intros H. apply andb_prop in H as [H1 H2]. apply Z.ltb_lt in H1. apply Z.eqb_eq in H2.
    exists (Z.log2 n). split; [apply Z.log2_nonneg|].
    destruct (Z.log2_spec n H1) as [Hlo Hhi].
    destruct (Z.eq_dec n (2 ^ Z.log2 n)); auto. exfalso.
    set (k := Z.log2 n) in *.
    assert (Hk : 0 <= k) by apply Z.log2_nonneg.
    assert (Hb : Z.testbit (Z.land n (n - 1)) k = true).
    { rewrite Z.land_spec. apply andb_true_intro. split.
      - apply Z.bit_log2. auto.
      - replace k with (Z.log2 (n - 1)); [apply Z.bit_log2; pose proof (pow2_pos k Hk); lia|].
        apply Z.log2_unique; lia. }
    rewrite H2, Z.bits_0 in Hb. discriminate.
  - intros (k & Hk & ->). pose proof (pow2_pos k Hk).
    replace (0 <? 2 ^ k) with true by lia. cbn [andb]. apply Z.eqb_eq.
    rewrite <- Z.ones_equiv || idtac. apply Z.bits_inj'. intros i Hi. rewrite Z.land_spec, Z.bits_0.
    rewrite Z.pow2_bits_eqb by lia. destruct (Z.eqb_spec k i); auto. subst.
    replace (2 ^ i - 1) with (Z.ones i) by (rewrite Z.ones_equiv; lia).
    rewrite Z.ones_spec_high; auto. lia.
Qed.

Lemma smear_bits x v s :
  0 <= x -> 0 <= v -> 0 < s ->
  (forall i, 0 <= i -> Z.testbit v i = true <-> exists j, 0 <= j < s /\ Z.testbit x (i + j) = true) ->
  0 <= Z.lor v (Z.shiftr v s) /\
  (forall i, 0 <= i -> Z.testbit (Z.lor v (Z.shiftr v s)) i = true <->
    exists j, 0 <= j < 2 * s /\ Z.testbit x (i + j) = true).
Proof.
  intros Hx Hv Hs H. split.
  { apply Z.lor_nonneg. split; auto. apply Z.shiftr_nonneg; auto. }
  intros i Hi. rewrite Z.lor_spec, Z.shiftr_spec by lia. rewrite orb_true_iff.
  rewrite (H i) by lia. rewrite (H (i + s)) by lia. split.
  - intros [(j & Hj & E)|(j & Hj & E)].
    + exists j. split; auto. lia.
    + exists (s + j). split; [lia|]. rewrite Z.add_assoc. auto.
  - intros (j & Hj & E). destruct (Z.ltb_spec j s).
    + left. exists j. split; auto; lia.
    + right. exists (j - s). split; [lia|]. replace (i + s + (j - s)) with (i + j) by lia. auto.
Qed.

Lemma next_power_of_two_ok v : 1 <= v <= 2 ^ 63 ->
  exists k, 0 <= k <= 63 /\ next_power_of_two v = 2 ^ k /\ v <= 2 ^ k /\
    (forall j, 0 <= j -> v <= 2 ^ j -> k <= j).
Proof.
  intros Hv. unfold next_power_of_two. rewrite (wrap_small 64 (v - 1)) by lia.
  set (x := v - 1). assert (Hx : 0 <= x < 2 ^ 63) by lia.
  assert (H0 : forall i, 0 <= i -> Z.testbit x i = true <-> exists j, 0 <= j < 1 /\ Z.testbit x (i + j) = true).
  { intros i Hi. split; [intros; exists 0; rewrite Z.add_0_r; auto with zarith|].
    intros (j & Hj & E). assert (j = 0) by lia. subst. rewrite Z.add_0_r in E. auto. }
  destruct (smear_bits x x 1 ltac:(lia) ltac:(lia) ltac:(lia) H0) as [P1 H1].
  destruct (smear_bits x _ (2 * 1) ltac:(lia) P1 ltac:(lia) H1) as [P2 H2].
  destruct (smear_bits x _ (2 * (2 * 1)) ltac:(lia) P2 ltac:(lia) H2) as [P3 H3].
  destruct (smear_bits x _ (2 * (2 * (2 * 1))) ltac:(lia) P3 ltac:(lia) H3) as [P4 H4].
  destruct (smear_bits x _ (2 * (2 * (2 * (2 * 1)))) ltac:(lia) P4 ltac:(lia) H4) as [P5 H5].
  destruct (smear_bits x _ (2 * (2 * (2 * (2 * (2 * 1))))) ltac:(lia) P5 ltac:(lia) H5) as [P6 H6].
  change (2 * 1) with 2 in *. change (2 * 2) with 4 in *. change (2 * 4) with 8 in *.
  change (2 * 8) with 16 in *. change (2 * 16) with 32 in *. change (2 * 32) with 64 in *.
  cbv zeta.
  match goal with |- context [wrap 64 (?y + 1)] => set (y6 := y) in * end.
  destruct (Z.eq_dec x 0) as [E0|E0].
  - assert (y6 = 0).
    { apply Z.bits_inj'. intros i Hi. rewrite Z.bits_0. apply not_true_is_false. intros HH.
      apply H6 in HH; auto. destruct HH as (j & Hj & E). rewrite E0, Z.bits_0 in E. discriminate. }
    rewrite H. exists 0. repeat split; try lia; try reflexivity.
  - pose proof (Z.log2_spec x ltac:(lia)) as [Hlo Hhi]. set (L := Z.log2 x) in *.
    assert (HL : 0 <= L) by apply Z.log2_nonneg.
    assert (HL62 : L <= 62) by (assert (L < 63) by (apply Z.log2_lt_pow2; lia); lia).
    assert (y6 = Z.ones (L + 1)).
    { apply Z.bits_inj'. intros i Hi. rewrite Z.testbit_ones_nonneg by lia.
      apply eq_true_iff_eq. rewrite H6 by auto. split.
      - intros (j & Hj & E). destruct (Z.ltb_spec i (L + 1)); auto.
        rewrite Z.bits_above_log2 in E; [discriminate| lia | fold L; lia].
      - intros Hlt. exists (L - i). split; [lia|]. replace (i + (L - i)) with L by lia.
        apply Z.bit_log2. lia. }
    rewrite H, Z.ones_equiv. exists (L + 1).
    assert (2 ^ (L + 1) <= 2 ^ 63) by (apply Z.pow_le_mono_r; lia).
    pose proof (pow2_pos (L + 1) ltac:(lia)).
    rewrite wrap_small by lia. rewrite <- Z.add_1_r in Hhi.
    repeat split; try lia.
    intros j Hj Hvj. destruct (Z.leb_spec (L + 1) j); auto. exfalso.
    assert (2 ^ j <= 2 ^ L) by (apply Z.pow_le_mono_r; lia). lia.
Qed.
