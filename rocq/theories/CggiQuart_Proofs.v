(** Lemmas for the chunked arithmetic. *)
From Coq Require Import ZArith List Bool Lia.
From Verif Require Import Words CggiQuart_Model CggiQuart_Spec.
Import ListNotations.
Open Scope Z_scope.

Lemma c_add_eq a b : c_add a b = (a + b) mod 65536. Proof. reflexivity. Qed.
Lemma c_sub_eq a b : c_sub a b = (a - b) mod 65536. Proof. reflexivity. Qed.
Lemma c_mul_eq a b : c_mul a b = (a * b) mod 65536. Proof. reflexivity. Qed.
Lemma c_shr_eq a : c_shr a = a / 256.
Proof. unfold c_shr. change half_width with 8. rewrite Z.shiftr_div_pow2 by lia. reflexivity. Qed.
Lemma c_low_eq a : c_low a = a mod 256.
Proof.
  unfold c_low. change (2 ^ half_width) with 256. change (2 ^ max_int_width) with 65536.
  apply Z.mod_small. pose proof (Z.mod_pos_bound a 256). lia.
Qed.
Lemma nb_chunks_eq w n : 1 <= w <= 64 -> nb_chunks w = Some n <-> 8 * (Z.of_nat n - 1) < w <= 8 * Z.of_nat n.
Proof.
  intros H. unfold nb_chunks. change half_width with 8. destruct (Z.leb_spec w 64); [|lia].
  pose proof (Z.div_mod (w + 8 - 1) 8). pose proof (Z.mod_pos_bound (w + 8 - 1) 8). 
  assert (E : 0 <= (w + 8 - 1) / 8) by (apply Z.div_pos; lia).
  split.
  - intros [= <-]. rewrite Z2Nat.id by lia. lia.
  - intros B. f_equal. apply Nat2Z.inj. rewrite Z2Nat.id by lia. lia.
Qed.

Lemma decode_app a b : decode (a ++ b) = decode a + 256 ^ Z.of_nat (length a) * decode b.
Proof.
  induction a as [|x a IH]; [cbn [decode app length]; change (256 ^ Z.of_nat 0) with 1; lia|].
  cbn [decode app]. rewrite IH. cbn [length]. rewrite Nat2Z.inj_succ, Z.pow_succ_r by lia. lia.
Qed.
Lemma decode_zeros n : decode (repeat 0 n) = 0.
Proof. induction n; cbn [repeat decode]; lia. Qed.
Lemma decode_bound cs : Forall byte cs -> 0 <= decode cs < 256 ^ Z.of_nat (length cs).
Proof.
  induction 1 as [|c cs Hc H IH]; [cbn; lia|]. cbn [decode length]. rewrite Nat2Z.inj_succ, Z.pow_succ_r by lia.
  unfold byte in Hc. lia.
Qed.

(** * addition *)
Section Add.
Variables lhs rhs : list Z.
Definition asum i := c_add (nth i lhs 0) (nth i rhs 0).
Definition aout i := if Nat.eqb i 0 then c_low (asum i) else c_add (c_low (asum i)) (c_shr (asum (i - 1))).
Lemma add_loop k : (k <= length lhs)%nat ->
  fold_left (add_step lhs rhs) (seq 0 k) ([], []) =
  (map (fun i => c_shr (asum i)) (seq 0 (Nat.min k (length lhs - 1))), map aout (seq 0 k)).
Proof.
  induction k as [|k IH]; intros H; [reflexivity|].
  rewrite seq_S, fold_left_app, IH by lia. cbn [fold_left plus]. unfold add_step. fold (asum k).
  assert (E : (if Nat.eqb k (length lhs - 1) then map (fun i => c_shr (asum i)) (seq 0 (Nat.min k (length lhs - 1)))
     else map (fun i => c_shr (asum i)) (seq 0 (Nat.min k (length lhs - 1))) ++ [c_shr (asum k)]) =
     map (fun i => c_shr (asum i)) (seq 0 (Nat.min (S k) (length lhs - 1)))).
  { destruct (Nat.eqb_spec k (length lhs - 1)).
    - f_equal. f_equal. lia.
    - replace (Nat.min k (length lhs - 1)) with k by lia. replace (Nat.min (S k) (length lhs - 1)) with (S k) by lia.
      rewrite seq_S, map_app. reflexivity. }
  rewrite E. f_equal. rewrite map_app. cbn [map]. f_equal. f_equal. unfold aout.
  destruct (Nat.eqb_spec k 0); auto. f_equal.
  rewrite nth_indep with (d' := c_shr (asum 0)) by (rewrite map_length, seq_length; lia).
  rewrite (map_nth (fun i => c_shr (asum i))). rewrite seq_nth by lia. reflexivity.
Qed.
End Add.
Lemma lower_add_eq lhs rhs : length lhs = length rhs ->
  lower_add lhs rhs = Some (map (aout lhs rhs) (seq 0 (length lhs))).
Proof.
  intros H. unfold lower_add. rewrite (proj2 (Nat.eqb_eq _ _) H). rewrite add_loop by lia. reflexivity.
Qed.
Definition loose (c : Z) : Prop := 0 <= c <= 510.
Lemma aout_loose lhs rhs i : loose (aout lhs rhs i).
Proof.
  unfold aout, loose. rewrite c_low_eq.
  pose proof (Z.mod_pos_bound (asum lhs rhs i) 256 ltac:(lia)).
  destruct (Nat.eqb i 0); [lia|]. rewrite c_shr_eq, c_add_eq. set (s := asum lhs rhs (i - 1)).
  assert (0 <= s < 65536) by (apply Z.mod_pos_bound; lia).
  assert (0 <= s / 256 < 256) by (split; [apply Z.div_pos; lia|apply Z.div_lt_upper_bound; lia]).
  rewrite Z.mod_small by lia. lia.
Qed.
Lemma add_loose lhs rhs out : lower_add lhs rhs = Some out -> Forall loose out.
Proof.
  unfold lower_add. destruct (Nat.eqb_spec (length lhs) (length rhs)) as [H|]; [|discriminate].
  rewrite add_loop by lia. intros [= <-]. cbn. apply Forall_map. apply Forall_forall. intros; apply aout_loose.
Qed.
Lemma decode_nth l n : length l = n -> l = map (fun i => nth i l 0) (seq 0 n).
Proof.
  intros <-. induction l as [|x l IH]; [reflexivity|]. cbn [length seq map nth]. f_equal.
  rewrite <- seq_shift, map_map. exact IH.
Qed.
Lemma add_sum lhs rhs k : (forall i, 0 <= nth i lhs 0 < 2 ^ 15) -> (forall i, 0 <= nth i rhs 0 < 2 ^ 15) ->
  decode (map (aout lhs rhs) (seq 0 (S k))) + 256 ^ Z.of_nat (S k) * (asum lhs rhs k / 256) =
  decode (map (fun i => nth i lhs 0) (seq 0 (S k))) + decode (map (fun i => nth i rhs 0) (seq 0 (S k))).
Proof.
  intros HL HR. change (2 ^ 15) with 32768 in *.
  assert (AS : forall i, asum lhs rhs i = nth i lhs 0 + nth i rhs 0).
  { intros i. unfold asum. rewrite c_add_eq, Z.mod_small; auto. specialize (HL i). specialize (HR i). lia. }
  induction k as [|k IH].
  - cbn [seq map decode]. unfold aout. cbn [Nat.eqb]. rewrite c_low_eq. change (256 ^ Z.of_nat 1) with 256.
    pose proof (Z.div_mod (asum lhs rhs 0) 256 ltac:(lia)). rewrite AS in *. lia.
  - rewrite (seq_S (S k)), !map_app, !decode_app, !map_length, !seq_length. cbn [map decode plus].
    assert (E : aout lhs rhs (S k) = asum lhs rhs (S k) mod 256 + asum lhs rhs k / 256).
    { unfold aout. cbn [Nat.eqb]. rewrite c_low_eq, c_shr_eq, c_add_eq. replace (S k - 1)%nat with k by lia. apply Z.mod_small.
      pose proof (Z.mod_pos_bound (asum lhs rhs (S k)) 256 ltac:(lia)). rewrite (AS k). specialize (HL k). specialize (HR k).
      assert (0 <= (nth k lhs 0 + nth k rhs 0) / 256 < 256) by (split; [apply Z.div_pos; lia|apply Z.div_lt_upper_bound; lia]). lia. }
    rewrite E. pose proof (Z.div_mod (asum lhs rhs (S k)) 256 ltac:(lia)) as D. rewrite (AS (S k)) in D at 1.
    replace (256 ^ Z.of_nat (S (S k))) with (256 * 256 ^ Z.of_nat (S k)) by (rewrite (Nat2Z.inj_succ (S k)), Z.pow_succ_r by lia; lia).
    nia.
Qed.
Lemma nth_bound (P : Z -> Prop) l : P 0 -> Forall P l -> forall i, P (nth i l 0).
Proof. intros H0 H i. revert l H. induction i; intros [|x l] H; inversion H; subst; cbn; auto. Qed.
Lemma add_correct lhs rhs n : length lhs = n -> length rhs = n ->
  Forall (fun c => 0 <= c < 2 ^ 15) lhs -> Forall (fun c => 0 <= c < 2 ^ 15) rhs ->
  exists out, lower_add lhs rhs = Some out /\ length out = n /\ Forall loose out /\
  decode out mod 256 ^ Z.of_nat n = (decode lhs + decode rhs) mod 256 ^ Z.of_nat n.
Proof.
  intros L1 L2 HL HR. pose proof (lower_add_eq lhs rhs ltac:(congruence)) as E. eexists. split; [exact E|].
  split; [rewrite map_length, seq_length; auto|]. split; [eapply add_loose; eauto|].
  rewrite L1. destruct n as [|k].
  - destruct lhs, rhs; try discriminate. reflexivity.
  - pose proof (add_sum lhs rhs k (nth_bound (fun c => 0 <= c < 2 ^ 15) lhs ltac:(cbn; lia) HL) (nth_bound (fun c => 0 <= c < 2 ^ 15) rhs ltac:(cbn; lia) HR)) as E2.
    rewrite <- (decode_nth lhs (S k) L1), <- (decode_nth rhs (S k) L2) in E2. rewrite <- E2.
    rewrite (Z.mul_comm (256 ^ _)), Z_mod_plus_full. reflexivity.
Qed.

(** * multiplication *)
Lemma sub2_mod M x y a b : M <> 0 -> ((((x mod M) * (y mod M)) mod M - a mod M) mod M - b mod M) mod M = (x * y - a - b) mod M.
Proof.
  intros H. rewrite <- Zmult_mod, <- (Zminus_mod _ b), (Zminus_mod (x * y - a) b), (Zminus_mod (x * y) a).
  rewrite <- (Zminus_mod (x * y mod M - a mod M) b). reflexivity.
Qed.
Lemma mul_correct a0 a1 a2 a3 b0 b1 b2 b3 :
  exists o0 o1 o2 o3, lower_mul [a0; a1; a2; a3] [b0; b1; b2; b3] = Some [o0; o1; o2; o3] /\
  Forall loose [o0; o1; o2; o3] /\
  decode [o0; o1; o2; o3] mod 2 ^ 32 =
  (decode [a0; a1; a2; a3] * decode [b0; b1; b2; b3] - 2 ^ 16 * (a0 * b0 / 2 ^ 16) - 2 ^ 24 * ((a0 * b1 + a1 * b0) / 2 ^ 16)) mod 2 ^ 32.
Proof.
  cbn [lower_mul]. do 4 eexists. split; [reflexivity|].
  rewrite !c_low_eq, !c_shr_eq, !c_add_eq, !c_sub_eq, !c_mul_eq.
  set (M := 65536).
  assert (R01 : ((((a0 + a1) mod M * ((b0 + b1) mod M)) mod M - (a0 * b0) mod M) mod M - (a1 * b1) mod M) mod M = (a0 * b1 + a1 * b0) mod M).
  { rewrite sub2_mod by lia. f_equal. lia. }
  assert (R1a : ((((a0 + a1) mod M * ((b2 + b3) mod M)) mod M - (a0 * b2) mod M) mod M - (a1 * b3) mod M) mod M = (a0 * b3 + a1 * b2) mod M).
  { rewrite sub2_mod by lia. f_equal. lia. }
  assert (R1b : ((((a2 + a3) mod M * ((b0 + b1) mod M)) mod M - (a2 * b0) mod M) mod M - (a3 * b1) mod M) mod M = (a2 * b1 + a3 * b0) mod M).
  { rewrite sub2_mod by lia. f_equal. lia. }
  rewrite R01, R1a, R1b.
  assert (R2 : (((a0 * b2) mod M + (a2 * b0) mod M) mod M + (a1 * b1) mod M) mod M = (a0 * b2 + a1 * b1 + a2 * b0) mod M).
  { rewrite Zplus_mod_idemp_r, Zplus_mod_idemp_l, <- Z.add_assoc, Zplus_mod_idemp_l. replace ((a2 * b0) mod M + a1 * b1) with (a1 * b1 + (a2 * b0) mod M) by lia. rewrite Z.add_assoc, Zplus_mod_idemp_r. f_equal. }
  assert (R3 : ((a0 * b3 + a1 * b2) mod M + (a2 * b1 + a3 * b0) mod M) mod M = (a0 * b3 + a1 * b2 + a2 * b1 + a3 * b0) mod M).
  { rewrite <- Zplus_mod. f_equal. lia. }
  rewrite R2, R3. clear R01 R1a R1b R2 R3.
  set (p0 := a0 * b0). set (p1 := a0 * b1 + a1 * b0). set (p2 := a0 * b2 + a1 * b1 + a2 * b0).
  set (p3 := a0 * b3 + a1 * b2 + a2 * b1 + a3 * b0).
  assert (B : forall x, 0 <= (x mod M) mod 256 < 256 /\ 0 <= (x mod M) / 256 < 256 /\ x mod M = 256 * ((x mod M) / 256) + (x mod M) mod 256 /\ x = M * (x / M) + x mod M).
  { intros x. pose proof (Z.mod_pos_bound x M ltac:(lia)). split; [apply Z.mod_pos_bound; lia|].
    split; [split; [apply Z.div_pos; lia|apply Z.div_lt_upper_bound; lia]|]. split; apply Z.div_mod; lia. }
  pose proof (B p0) as (B01 & B02 & B03 & B04). pose proof (B p1) as (B11 & B12 & B13 & B14).
  pose proof (B p2) as (B21 & B22 & B23 & B24). pose proof (B p3) as (B31 & B32 & B33 & B34). clear B.
  set (l0 := (p0 mod M) mod 256) in *. set (h0 := p0 mod M / 256) in *.
  set (l1 := (p1 mod M) mod 256) in *. set (h1 := p1 mod M / 256) in *.
  set (l2 := (p2 mod M) mod 256) in *. set (h2 := p2 mod M / 256) in *.
  set (l3 := (p3 mod M) mod 256) in *. set (h3 := p3 mod M / 256) in *.
  rewrite !(Z.mod_small (_ + _) M) by (subst M; lia).
  split; [repeat constructor; unfold loose; lia|].
  cbn [decode]. change (2 ^ 16) with M. change (2 ^ 24) with 16777216. change (2 ^ 32) with 4294967296.
  match goal with |- ?x mod _ = ?y mod _ =>
    replace y with (x + (p2 / M + 256 * (p3 / M) + h3 + (a1 * b3 + a2 * b2 + a3 * b1) + 256 * (a2 * b3 + a3 * b2) + 65536 * (a3 * b3)) * 4294967296) end.
  - rewrite Z_mod_plus_full. reflexivity.
  - subst M. unfold p0, p1, p2, p3 in *. lia.
Qed.

(** * constants and extensions *)
Lemma const_loop_ok w v n : 0 <= v -> (forall i, 0 <= i -> Z.testbit v (8 * i + 7) = false) ->
  forall s, 8 * (Z.of_nat s + Z.of_nat n) <= w ->
  exists cs, const_loop w v (seq s n) = Some cs /\ length cs = n /\ Forall byte cs /\
  decode cs = (v / 256 ^ Z.of_nat s) mod 256 ^ Z.of_nat n.
Proof.
  intros Hv HB. induction n as [|n IH]; intros s Hs.
  - exists []. cbn. repeat split; auto. rewrite Z.mod_1_r. auto.
  - destruct (IH (S s)) as (cs & E & L & F & D); [lia|]. cbn [seq const_loop].
    change half_width with 8. unfold extract_bits. rewrite (proj2 (Z.ltb_lt _ _)) by lia. rewrite (proj2 (Z.leb_le _ _)) by lia.
    cbn [andb bind]. rewrite E. cbn [bind].
    assert (ES : Z.shiftr v (Z.of_nat s * 8) = v / 256 ^ Z.of_nat s).
    { rewrite Z.shiftr_div_pow2 by lia. rewrite Z.mul_comm, Z.pow_mul_r by lia. reflexivity. }
    set (c := Z.shiftr v (Z.of_nat s * 8) mod 2 ^ 8).
    assert (C : 0 <= c < 256) by (apply Z.mod_pos_bound; lia).
    assert (C7 : c < 128).
    { destruct (Z.ltb_spec c 128); auto. exfalso.
      assert (T : Z.testbit c 7 = true).
      { apply Z.testbit_true; [lia|]. replace (c / 2 ^ 7) with 1; [reflexivity|]. apply Z.div_unique with (r := c - 128); change (2 ^ 7) with 128; lia. }
      unfold c in T. rewrite Z.mod_pow2_bits_low in T by lia. rewrite Z.shiftr_spec in T by lia.
      replace (7 + Z.of_nat s * 8) with (8 * Z.of_nat s + 7) in T by lia.
      rewrite HB in T by lia. discriminate. }
    eexists. split; [reflexivity|]. split; [cbn; lia|].
    assert (V : trivial (sext_value 8 c) = c).
    { unfold sext_value. change (2 ^ (8 - 1)) with 128. rewrite (proj2 (Z.ltb_lt _ _)) by lia. unfold trivial. apply Z.mod_small. cbn. lia. }
    rewrite V. split; [constructor; auto|]. cbn [decode]. rewrite D. unfold c. rewrite ES. change (2 ^ 8) with 256.
    rewrite !Nat2Z.inj_succ, !Z.pow_succ_r by lia.
    assert (P1 : 0 < 256 ^ Z.of_nat s) by (apply Z.pow_pos_nonneg; lia).
    assert (P2 : 0 < 256 ^ Z.of_nat n) by (apply Z.pow_pos_nonneg; lia).
    rewrite (Z.rem_mul_r (v / 256 ^ Z.of_nat s)) by lia. rewrite (Z.mul_comm 256 (256 ^ Z.of_nat s)), <- Z.div_div by lia. reflexivity.
Qed.

Lemma pow256 n : 256 ^ Z.of_nat n = 2 ^ (8 * Z.of_nat n).
Proof. rewrite Z.pow_mul_r by lia. reflexivity. Qed.

(** the invariant of the lowering *)
Definition chunks_ok (P : Z -> Prop) (w : Z) (cs : list Z) : Prop :=
  Forall P cs /\ 8 * (Z.of_nat (length cs) - 1) < w <= 8 * Z.of_nat (length cs).

Lemma canonical_ok e : canonical e -> 1 <= width e <= 64 /\ 0 <= sem e < 2 ^ width e /\
  exists cs, lower e = Some cs /\ chunks_ok byte (width e) cs /\ decode cs = sem e.
Proof.
  induction 1 as [w cs Hw HL HB HD|w v Hw H8 Hv HT|w a Ha IH Hw].
  - cbn [width sem lower]. split; auto. pose proof (decode_bound cs HB). rewrite Z.mod_small by lia. split; [lia|].
    exists cs. rewrite (proj2 (nb_chunks_eq w (length cs) Hw) HL). repeat split; auto; lia.
  - cbn [width sem lower]. split; auto. rewrite Z.mod_small by lia. split; auto.
    destruct H8 as [k Hk]. assert (Hk' : w = 8 * Z.of_nat (Z.to_nat k)) by lia.
    unfold lower_const. rewrite (proj2 (nb_chunks_eq w (Z.to_nat k) Hw)) by lia. cbn [bind].
    destruct (const_loop_ok w v (Z.to_nat k) ltac:(lia) HT 0) as (cs & E & L & F & D); [lia|].
    exists cs. split; auto. split; [split; auto; rewrite L; lia|]. rewrite D. change (256 ^ Z.of_nat 0) with 1. rewrite Z.div_1_r.
    apply Z.mod_small. rewrite pow256, <- Hk'. auto.
  - destruct IH as (W & S & cs & E & (F & L) & D). cbn [width sem lower]. split; [lia|]. split.
    { pose proof (Z.pow_le_mono_r 2 (width a) w ltac:(lia) ltac:(lia)). lia. }
    rewrite E. cbn [bind]. unfold lower_ext.
    assert (N : exists m, nb_chunks w = Some m) by (unfold nb_chunks; destruct (Z.leb_spec w 64); [eauto|lia]). destruct N as [m N].
    rewrite N, (proj2 (nb_chunks_eq (width a) (length cs) W) L). cbn [bind].
    apply nb_chunks_eq in N; [|lia].
    eexists. split; [reflexivity|]. split; [split|].
    + apply Forall_app. split; auto. apply Forall_forall. intros x Hx. apply repeat_spec in Hx. subst. unfold byte, trivial. cbn. lia.
    + rewrite app_length, repeat_length. lia.
    + rewrite decode_app. change (trivial 0) with 0. rewrite decode_zeros. lia.
Qed.
Lemma byte_loose cs : Forall byte cs -> Forall loose cs.
Proof. apply Forall_impl. unfold byte, loose. lia. Qed.

Lemma mod_mod_pow a b w n : 0 <= w <= n -> a mod 2 ^ n = b mod 2 ^ n -> a mod 2 ^ w = b mod 2 ^ w.
Proof.
  intros H E. assert (P : 2 ^ n = 2 ^ (n - w) * 2 ^ w) by (rewrite <- Z.pow_add_r by lia; f_equal; lia).
  assert (0 < 2 ^ w) by (apply Z.pow_pos_nonneg; lia). assert (0 < 2 ^ (n - w)) by (apply Z.pow_pos_nonneg; lia).
  assert (forall x, x mod 2 ^ w = (x mod 2 ^ n) mod 2 ^ w).
  { intros x. rewrite (Z.div_mod x (2 ^ n)) at 1 by lia. rewrite P at 1. rewrite Z.add_comm.
    replace (2 ^ (n - w) * 2 ^ w * (x / 2 ^ n)) with (2 ^ (n - w) * (x / 2 ^ n) * 2 ^ w) by lia. apply Z_mod_plus_full. }
  rewrite (H2 a), (H2 b). congruence.
Qed.

Lemma four w (cs : list Z) : 25 <= w <= 32 -> 8 * (Z.of_nat (length cs) - 1) < w <= 8 * Z.of_nat (length cs) ->
  exists c0 c1 c2 c3, cs = [c0; c1; c2; c3].
Proof.
  intros H L. assert (length cs = 4%nat) by lia. destruct cs as [|c0 [|c1 [|c2 [|c3 [|]]]]]; try discriminate; eauto.
Qed.
Lemma bytes01 c0 c1 c2 c3 : Forall byte [c0; c1; c2; c3] ->
  byte0 (decode [c0; c1; c2; c3]) = c0 /\ byte1 (decode [c0; c1; c2; c3]) = c1.
Proof.
  intros F. inversion F as [|? ? H0 F0]; subst. inversion F0 as [|? ? H1 F1]; subst. unfold byte, byte0, byte1 in *. cbn [decode].
  set (r := c2 + 256 * (c3 + 256 * 0)). split.
  - rewrite (Z.mul_comm 256), Z_mod_plus_full. apply Z.mod_small; lia.
  - rewrite (Z.mul_comm 256 (c1 + _)), Z_div_plus_full by lia. rewrite (Z.div_small c0) by lia. rewrite Z.add_0_l.
    rewrite (Z.mul_comm 256), Z_mod_plus_full. apply Z.mod_small; lia.
Qed.
Lemma mul_value w a b xa xb : 25 <= w <= 32 -> chunks_ok loose w a -> chunks_ok loose w b ->
  decode a mod 2 ^ w = xa -> decode b mod 2 ^ w = xb ->
  nth 0 a 0 * nth 0 b 0 < 65536 -> nth 0 a 0 * nth 1 b 0 + nth 1 a 0 * nth 0 b 0 < 65536 ->
  exists cs, lower_mul a b = Some cs /\ chunks_ok loose w cs /\ decode cs mod 2 ^ w = (xa * xb) mod 2 ^ w.
Proof.
  intros W [Fa La] [Fb Lb] Ea Eb P0 P1.
  destruct (four w a W La) as (a0 & a1 & a2 & a3 & ->). destruct (four w b W Lb) as (b0 & b1 & b2 & b3 & ->). cbn [nth] in *.
  destruct (mul_correct a0 a1 a2 a3 b0 b1 b2 b3) as (o0 & o1 & o2 & o3 & E & F & V).
  eexists. split; [exact E|]. split; [split; [exact F|cbn [length]; lia]|].
  assert (N : 0 <= a0 /\ 0 <= a1 /\ 0 <= b0 /\ 0 <= b1).
  { repeat match goal with H : Forall _ (_ :: _) |- _ => inversion H; clear H; subst end. unfold loose in *. lia. }
  change (2 ^ 16) with 65536 in V. rewrite (Z.div_small (a0 * b0)), (Z.div_small (a0 * b1 + a1 * b0)) in V by nia.
  rewrite !Z.mul_0_r, !Z.sub_0_r in V. apply (mod_mod_pow _ _ w 32) in V; [|lia]. rewrite V. subst xa xb. rewrite <- Zmult_mod. reflexivity.
Qed.
Lemma mul_comm_loose w a b : 25 <= w <= 32 -> chunks_ok loose w a -> chunks_ok byte w b ->
  byte0 (decode b) + byte1 (decode b) <= 128 ->
  nth 0 a 0 * nth 0 b 0 < 65536 /\ nth 0 a 0 * nth 1 b 0 + nth 1 a 0 * nth 0 b 0 < 65536.
Proof.
  intros W [Fa La] [Fb Lb] B. destruct (four w a W La) as (a0 & a1 & a2 & a3 & ->). destruct (four w b W Lb) as (b0 & b1 & b2 & b3 & ->).
  destruct (bytes01 _ _ _ _ Fb) as [E0 E1]. rewrite E0, E1 in B. cbn [nth].
  repeat match goal with H : Forall _ (_ :: _) |- _ => inversion H; clear H; subst end. unfold loose, byte in *. nia.
Qed.
Lemma supported_ok e : supported e -> 1 <= width e <= 64 /\
  exists cs, lower e = Some cs /\ chunks_ok loose (width e) cs /\ decode cs mod 2 ^ width e = sem e.
Proof.
  induction 1 as [e He|a b Ha IHa Hb IHb W|a b Ha Hb W W32 B|a b Ha IHa Hb W W32 B|a b Ha IHa Hb W W32 B].
  - destruct (canonical_ok e He) as (W & S & cs & E & (F & L) & D). split; auto. exists cs. split; auto. split; [split; auto; apply byte_loose; auto|].
    rewrite D. apply Z.mod_small; auto.
  - destruct IHa as (Wa & x & Ex & (Fx & Lx) & Dx). destruct IHb as (Wb & y & Ey & (Fy & Ly) & Dy). cbn [width sem lower]. split; auto.
    rewrite Ex, Ey. cbn [bind]. rewrite <- W in *.
    assert (LL : length x = length y) by lia.
    destruct (add_correct x y (length x) eq_refl (eq_sym LL)) as (out & E & L & F & V).
    { eapply Forall_impl; [|exact Fx]. unfold loose. cbn. lia. }
    { eapply Forall_impl; [|exact Fy]. unfold loose. cbn. lia. }
    exists out. split; auto. split; [split; auto; rewrite L; auto|]. rewrite pow256 in V. apply (mod_mod_pow _ _ (width a)) in V; [|lia].
    rewrite V, <- Dx, <- Dy. rewrite <- Zplus_mod. reflexivity.
  - destruct (canonical_ok a Ha) as (Wa & Sa & x & Ex & (Fx & Lx) & Dx). destruct (canonical_ok b Hb) as (Wb & Sb & y & Ey & (Fy & Ly) & Dy).
    cbn [width sem lower]. split; auto. rewrite Ex, Ey. cbn [bind]. rewrite <- W in *.
    apply mul_value; auto; try (split; auto; apply byte_loose; auto).
    + rewrite Dx. apply Z.mod_small; auto.
    + rewrite Dy. apply Z.mod_small; auto.
    + destruct (four _ x W32 Lx) as (a0 & a1 & a2 & a3 & ->). destruct (four _ y W32 Ly) as (b0 & b1 & b2 & b3 & ->). cbn [nth].
      repeat match goal with H : Forall _ (_ :: _) |- _ => inversion H; clear H; subst end. unfold byte in *. nia.
    + destruct (four _ x W32 Lx) as (a0 & a1 & a2 & a3 & ->). destruct (four _ y W32 Ly) as (b0 & b1 & b2 & b3 & ->). cbn [nth].
      rewrite <- Dx, <- Dy in B. destruct (bytes01 _ _ _ _ Fx) as [E0 E1]. destruct (bytes01 _ _ _ _ Fy) as [E2 E3]. rewrite E0, E1, E2, E3 in B. auto.
  - destruct IHa as (Wa & x & Ex & Cx & Dx). destruct (canonical_ok b Hb) as (Wb & Sb & y & Ey & Cy & Dy).
    cbn [width sem lower]. split; auto. rewrite Ex, Ey. cbn [bind]. rewrite <- W in *. rewrite <- Dy in B.
    destruct (mul_comm_loose _ x y W32 Cx Cy B) as [P0 P1].
    apply mul_value; auto. { destruct Cy; split; auto; apply byte_loose; auto. } rewrite Dy. apply Z.mod_small; auto.
  - destruct IHa as (Wa & x & Ex & Cx & Dx). destruct (canonical_ok b Hb) as (Wb & Sb & y & Ey & Cy & Dy).
    cbn [width sem lower]. split; auto. rewrite Ex, Ey. cbn [bind]. rewrite W in *. rewrite <- Dy in B.
    destruct (mul_comm_loose _ x y W32 Cx Cy B) as [P0 P1].
    apply mul_value; auto; try lia. { destruct Cy; split; auto; apply byte_loose; auto. } rewrite Dy. apply Z.mod_small; auto.
Qed.
