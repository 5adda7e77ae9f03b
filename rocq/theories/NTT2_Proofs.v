(** Proofs about the NTT model, continued: lowered transforms, ring product, RNS polynomials. *)
From Coq Require Import ZArith List Bool Arith Lia Znumtheory Zpow_facts Setoid Morphisms.
From Verif Require Import Words ModArith_Model ModArith_Proofs NumTheory_Model NumTheory_Proofs
  ModEq Sums NTT_Model NTT_Proofs.
Import ListNotations.
Open Scope Z_scope.

Section Lowered.
Variables (w q : Z).
Hypothesis Hw : 1 <= w.
Hypothesis Hq : 1 < q < 2 ^ (w - 1).
Variable k : nat.
Let n := (2 ^ k)%nat.

Lemma mul_mod_ap_ok a b : can q a -> can q b -> mul_mod_ap w q a b = Some ((a * b) mod q).
Proof.
  unfold can. intros Ha Hb. unfold mul_mod_ap, muli, trunci. rewrite remui_pos by lia. cbn [bind].
  P2 w. rewrite (wrap_small (2 * w)) by (rewrite (pow2_dbl_width w) by lia; nia).
  rewrite wrap_small; auto. pose proof (Z.mod_pos_bound (a * b) q). lia.
Qed.

Lemma reduce_list l : Forall (can q) l -> omap (lower_reduce w q) l = Some l.
Proof.
  intros H. rewrite (omap_spec _ (fun x => x)).
  - rewrite map_id. auto.
  - intros x Hx. rewrite Forall_forall in H. specialize (H x Hx). unfold can in H.
    P2 w. rewrite lower_reduce_ok by (auto; unfold is_word; lia).
    unfold sgn. replace (x <? 2 ^ (w - 1)) with true by lia. rewrite Z.mod_small; auto.
Qed.

Lemma log2_n : Nat.log2 n = k.
Proof. unfold n. apply Nat.log2_pow2. lia. Qed.

Lemma reverse_ok a : length a = n -> reverse_bit_order a = Some (brl k (fun t => nth t a 0)).
Proof.
  intros Hl. unfold reverse_bit_order. rewrite Hl. unfold n. rewrite pow2b_pow. fold n.
  cbn [negb]. rewrite log2_n. apply omap_spec. intros i Hi.
  apply nth_error_some. rewrite Hl. apply bitrev_lt.
Qed.
Lemma brl_can a : length a = n -> Forall (can q) a -> Forall (can q) (brl k (fun t => nth t a 0)).
Proof.
  intros Hl Ha. apply Forall_forall. intros x Hx. apply in_map_iff in Hx as (t & <- & _).
  apply Forall_nth'; auto. rewrite Hl. apply bitrev_lt.
Qed.

Lemma Tstage_pow root i j : (i < k)%nat -> (j < 2 ^ i)%nat ->
  Tstage (ptab q root n) (2 ^ i) j = ((root ^^ (2 ^ (k - S i))) ^^ (2 * j + 1)) mod q.
Proof.
  intros Hi Hj. unfold Tstage. rewrite ptab_length. unfold n.
  change (2 * 2 ^ i)%nat with (2 ^ S i)%nat. rewrite div_pow by lia.
  rewrite ptab_nth.
  - rewrite Nat.mul_comm, npow_mul. auto.
  - replace k with (k - S i + S i)%nat at 2 by lia. rewrite Nat.pow_add_r, Nat.pow_succ_r'.
    pose proof (pow2_pos_nat (k - S i)). nia.
Qed.

Lemma fwd_model root a : length a = n -> Forall (can q) a -> can q root ->
  lowered_ntt w q root a =
  Some (up (CT q) (Tstage (ptab q root n)) k (brl k (fun t => nth t a 0))).
Proof.
  intros Hl Ha Hr. unfold lowered_ntt. rewrite reverse_ok by auto. cbn [bind].
  set (b := brl k (fun t => nth t a 0)).
  assert (Lb : length b = n) by apply brl_length.
  unfold fast_ntt. rewrite Lb.
  rewrite (root_table_ptab q) by (auto using mul_mod_ap_ok; lia). cbn [bind].
  rewrite reduce_list by (apply brl_can; auto). cbn [bind].
  rewrite log2_n.
  pose proof (stages_up w q Hw Hq (ptab q root n) (ptab_can q root n ltac:(lia)) k 0 b k eq_refl) as HS.
  rewrite ptab_length in HS. cbn [up] in HS.
  change (2 ^ 1)%nat with 2%nat in HS.
  rewrite HS; auto; try reflexivity. apply brl_can; auto.
Qed.

Lemma lowered_eval root a : length a = n -> Forall (can q) a -> can q root ->
  cong q (root ^^ n) (-1) ->
  exists r, lowered_ntt w q root a = Some r /\ length r = n /\ Forall (can q) r /\
  forall i, (i < n)%nat ->
    nth i r 0 = (sumn n (fun j => nth j a 0 * root ^^ ((2 * i + 1) * j))) mod q.
Proof.
  intros Hl Ha Hr Hroot. rewrite fwd_model by auto. eexists. split; [reflexivity|].
  set (r := up _ _ _ _).
  assert (Lr : length r = n) by (unfold r; rewrite up_length; apply brl_length).
  assert (C : Forall (can q) r).
  { apply up_can; [intros; apply CT_can; lia|]. apply brl_can; auto. }
  split; auto. split; auto. intros i Hi.
  rewrite <- (Z.mod_small _ q (Forall_nth' (can q) r i 0 C ltac:(lia))). apply cong_eq.
  unfold r. rewrite (up_eval q k _ (fun i => root ^^ (2 ^ (k - i)))); auto.
  - rewrite Nat.sub_diag. change (2 ^ 0)%nat with 1%nat. rewrite npow_1. fold n. reflexivity.
  - rewrite Nat.sub_0_r. fold n. auto.
  - intros i' Hi'. replace (k - i')%nat with (S (k - S i')) by lia.
    rewrite Nat.pow_succ_r', Nat.mul_comm, npow_mul, npow_2. reflexivity.
  - intros i' j Hi' Hj. rewrite Tstage_pow by auto. apply cong_mod.
Qed.

Lemma pow2_inv (Ho : Z.odd q = true) : Z.of_nat n < q ->
  exists ninv, multiplicative_inverse w (Z.of_nat n) q = Some ninv /\ can q ninv /\
    cong q (Z.of_nat n * ninv) 1.
Proof.
  intros Hnq. P2 w.
  destruct (multiplicative_inverse_ok w q (Z.of_nat n) Hw ltac:(lia) ltac:(lia)) as (y & Hy & Hv & _).
  exists y. split; auto. destruct Hv as [A B].
  - apply Zgcd_1_rel_prime. unfold n.
    rewrite Nat2Z.inj_pow. apply rel_prime_sym, rel_prime_Zpower_r; [lia|].
    apply Zgcd_1_rel_prime. apply Zodd_bool_iff in Ho. destruct (Zodd_ex q Ho) as [m ->].
    rewrite Z.gcd_comm. rewrite <- Z.gcd_mod by lia.
    replace (2 * m + 1) with (1 + m * 2) by lia. rewrite Z_mod_plus_full. reflexivity.
  - split; auto. apply eq_cong; auto.
Qed.

Lemma brl_brl a : length a = n -> brl k (fun t => nth t (brl k (fun t => nth t a 0)) 0) = a.
Proof.
  intros Hl. apply (list_eq_nth 0); rewrite brl_length; auto. intros i Hi.
  unfold brl at 1. rewrite nth_map_seq by auto.
  unfold brl. rewrite nth_map_seq by apply bitrev_lt. rewrite bitrev_invol; auto.
Qed.

Lemma lowered_round_trip root rinv a : length a = n -> Forall (can q) a -> can q root -> can q rinv ->
  cong q (root * rinv) 1 -> Z.odd q = true -> Z.of_nat n < q ->
  exists r, lowered_ntt w q root a = Some r /\ length r = n /\ Forall (can q) r /\
    lowered_intt w q rinv r = Some a.
Proof.
  intros Hl Ha Hr Hri Hinv Ho Hnq. rewrite fwd_model by auto. eexists. split; [reflexivity|].
  set (b := brl k (fun t => nth t a 0)).
  set (r := up _ _ _ _).
  assert (Lr : length r = n) by (unfold r; rewrite up_length; apply brl_length).
  assert (C : Forall (can q) r).
  { apply up_can; [intros; apply CT_can; lia|]. apply brl_can; auto. }
  split; auto. split; auto.
  unfold lowered_intt, fast_ntt. rewrite Lr.
  rewrite (root_table_ptab q) by (auto using mul_mod_ap_ok; lia). cbn [bind].
  rewrite reduce_list by auto. cbn [bind]. rewrite log2_n.
  pose proof (stages_down w q Hw Hq (ptab q rinv n) (ptab_can q rinv n ltac:(lia)) k r k ltac:(lia)) as HS.
  rewrite ptab_length in HS. fold n in HS. rewrite Nat.div_same in HS by (unfold n; apply Nat.pow_nonzero; lia).
  rewrite HS by auto. cbn [bind].
  destruct (pow2_inv Ho Hnq) as (ninv & -> & Cn & Hn). cbn [bind].
  assert (Hpow : forall i, cong q (root ^^ i * rinv ^^ i) 1).
  { intros i. rewrite <- Z.pow_mul_l, Hinv, Z.pow_1_l by lia. reflexivity. }
  assert (Lb : length b = n) by apply brl_length.
  assert (S2 : sc q (2 ^^ k) (down (GS q) (Tstage (ptab q rinv n)) k r) b).
  { unfold r. apply down_up_inv.
    - fold b. rewrite Lb. apply Nat.mod_same. apply Nat.pow_nonzero; lia.
    - intros i j Hi Hj. rewrite !Tstage_pow by auto. rewrite cong_mod, (cong_mod q (_ ^ _)).
      rewrite <- !npow_mul. apply Hpow. }
  destruct S2 as [SL SN].
  set (d := down (GS q) (Tstage (ptab q rinv n)) k r) in *.
  assert (Cd : Forall (can q) d) by (apply down_can; auto; intros; apply GS_can; lia).
  rewrite (omap_spec _ (fun x => (x * ninv) mod q)).
  2:{ intros x Hx. rewrite Forall_forall in Cd. apply lower_mul_ok; try lia.
      - apply Cd; auto.
      - auto. }
  assert (E : map (fun x => (x * ninv) mod q) d = b).
  { apply (list_eq_nth 0); [rewrite map_length; auto|]. rewrite map_length, SL, Lb. intros i Hi.
    rewrite nth_indep with (d' := (0 * ninv) mod q) by (rewrite map_length; lia).
    rewrite (map_nth (fun x => (x * ninv) mod q)).
    apply cong_small.
    - rewrite SN. assert (En : 2 ^^ k = Z.of_nat n) by (unfold n; rewrite Nat2Z.inj_pow; auto).
      rewrite En. replace (Z.of_nat n * nth i b 0 * ninv) with (nth i b 0 * (Z.of_nat n * ninv)) by ring.
      rewrite Hn. exists 0. ring.
    - assert (Cb : Forall (can q) b) by (apply brl_can; auto).
      apply (Forall_nth' (can q)); auto. lia. }
  cbn [bind]. rewrite E. rewrite reverse_ok by auto. unfold b. rewrite brl_brl; auto.
Qed.
End Lowered.

(** ** the ring Z_q[x]/(x^n+1) *)
Definition nega (n : nat) (a b : list Z) (k : nat) : Z :=
  sumn n (fun i => if (i <=? k)%nat then nth i a 0 * nth (k - i) b 0
                   else - (nth i a 0 * nth (n + k - i) b 0)).

Lemma nega_eval q n a b x : cong q (x ^^ n) (-1) ->
  cong q (sumn n (fun k => nega n a b k * x ^^ k))
         (sumn n (fun i => nth i a 0 * x ^^ i) * sumn n (fun j => nth j b 0 * x ^^ j)).
Proof.
  intros Hx. unfold nega.
  rewrite (sumn_ext n _ (fun k => sumn n (fun i => (if (i <=? k)%nat then nth i a 0 * nth (k - i) b 0
                   else - (nth i a 0 * nth (n + k - i) b 0)) * x ^^ k)))
    by (intros; rewrite sumn_scal_r; auto).
  rewrite sumn_swap. rewrite <- sumn_scal_r. apply sumn_cong. intros i Hi.
  (* fixed i *)
  replace n with (i + (n - i))%nat at 1 by lia. rewrite sumn_split.
  assert (E1 : cong q (sumn i (fun k => (if (i <=? k)%nat then nth i a 0 * nth (k - i) b 0
                   else - (nth i a 0 * nth (n + k - i) b 0)) * x ^^ k))
     (nth i a 0 * x ^^ i * sumn i (fun j => nth (n - i + j) b 0 * x ^^ (n - i + j)))).
  { rewrite <- sumn_scal. apply sumn_cong. intros k Hk.
    destruct (Nat.leb_spec i k); [lia|].
    replace (n - i + k)%nat with (n + k - i)%nat by lia.
    assert (E : cong q (x ^^ i * x ^^ (n + k - i)) (- x ^^ k)).
    { rewrite <- npow_add. replace (i + (n + k - i))%nat with (n + k)%nat by lia.
      rewrite npow_add, Hx. exists 0. ring. }
    replace (nth i a 0 * x ^^ i * (nth (n + k - i) b 0 * x ^^ (n + k - i)))
      with (nth i a 0 * nth (n + k - i) b 0 * (x ^^ i * x ^^ (n + k - i))) by ring.
    rewrite E. exists 0. ring. }
  assert (E2 : sumn (n - i) (fun k => (if (i <=? i + k)%nat then nth i a 0 * nth (i + k - i) b 0
                   else - (nth i a 0 * nth (n + (i + k) - i) b 0)) * x ^^ (i + k)) =
     nth i a 0 * x ^^ i * sumn (n - i) (fun j => nth j b 0 * x ^^ j)).
  { rewrite <- sumn_scal. apply sumn_ext. intros k Hk.
    destruct (Nat.leb_spec i (i + k)); [|lia].
    replace (i + k - i)%nat with k by lia. rewrite npow_add. ring. }
  rewrite E1, E2.
  replace (sumn n (fun j => nth j b 0 * x ^^ j)) with
    (sumn (n - i + i) (fun j => nth j b 0 * x ^^ j)) by (f_equal; lia).
  rewrite sumn_split. exists 0. ring.
Qed.

(** transform, multiply pointwise, transform back *)
Definition nega_list (q : Z) (a b : list Z) : list Z :=
  map (fun k => nega (length a) a b k mod q) (seq 0 (length a)).

Section Mul.
Variable q : Z.
Hypothesis Hq : 1 < q < 2 ^ 64.
Variable k : nat.
Let n := (2 ^ k)%nat.
Variable root : Z.
Hypothesis Hroot : cong q (root ^^ n) (-1).
Hypothesis Croot : can q root.
Hypothesis Hodd : Z.odd q = true.
Hypothesis Hnq : Z.of_nat n < q.

Lemma root_coprime : Z.gcd root q = 1.
Proof.
  apply Zgcd_1_rel_prime. apply bezout_rel_prime.
  destruct Hroot as [c Hc]. pose proof (pow2_pos_nat k).
  replace n with (S (n - 1)) in Hc by (unfold n; lia). rewrite npow_S in Hc.
  apply Bezout_intro with (u := - root ^^ (n - 1)) (v := c). lia.
Qed.

Lemma odd_pow_root i : cong q ((root ^^ (2 * i + 1)) ^^ n) (-1).
Proof.
  rewrite <- npow_mul. rewrite Nat.mul_comm, npow_mul, Hroot.
  rewrite npow_add, npow_mul, npow_2, npow_1. rewrite Z.pow_1_l by lia. exists 0; ring.
Qed.

Lemma ntt_mul a b : length a = n -> length b = n -> Forall (can q) a -> Forall (can q) b ->
  exists ra rb rc, ntt_in_place q root a = Some ra /\ ntt_in_place q root b = Some rb /\
    length ra = n /\ length rb = n /\
    omap (fun ab => mulmod64 (fst ab) (snd ab) q) (combine ra rb) = Some rc /\
    length rc = n /\ intt_in_place q root rc = Some (nega_list q a b).
Proof.
  intros La Lb Ca Cb.
  destruct (ntt_eval q Hq k root a La Ca Croot Hroot) as (ra & Ha & Lra & Cra & Ea).
  destruct (ntt_eval q Hq k root b Lb Cb Croot Hroot) as (rb & Hb & Lrb & Crb & Eb).
  set (c := nega_list q a b).
  assert (Lc : length c = n) by (unfold c, nega_list; rewrite map_length, seq_length; auto).
  assert (Cc : Forall (can q) c).
  { apply Forall_forall. intros x Hx. apply in_map_iff in Hx as (y & <- & _). apply Z.mod_pos_bound; lia. }
  destruct (ntt_eval q Hq k root c Lc Cc Croot Hroot) as (rc & Hc & Lrc & Crc & Ec).
  destruct (ntt_round_trip q Hq k root c Lc Cc Croot root_coprime Hodd Hnq)
    as (rc' & Hc' & _ & _ & Hback).
  assert (rc' = rc) by congruence. subst rc'.
  exists ra, rb, rc. do 4 (split; auto). split; [|split; auto].
  rewrite (omap_spec _ (fun ab => (fst ab * snd ab) mod q)).
  - f_equal. apply (list_eq_nth 0).
    { fold n in Lra, Lrb, Lrc. rewrite map_length, combine_length. lia. }
    rewrite map_length, combine_length. fold n in Lra, Lrb, Lrc. rewrite Lra, Lrb, Nat.min_id.
    intros t Ht. rewrite (nth_combine_map _ _ _ _ 0 0) by lia. cbn [fst snd].
    rewrite <- (bitrev_invol k t Ht). set (i := bitrev k t).
    assert (Hi : (i < 2 ^ k)%nat) by apply bitrev_lt.
    rewrite (Ea i Hi), (Eb i Hi), (Ec i Hi). apply cong_eq. rewrite cong_mod, cong_mod.
    fold n.
    assert (X : forall l, sumn n (fun j => nth j l 0 * root ^^ ((2 * i + 1) * j)) =
                          sumn n (fun j => nth j l 0 * (root ^^ (2 * i + 1)) ^^ j)).
    { intros l. apply sumn_ext. intros j _. rewrite npow_mul. auto. }
    rewrite !X. rewrite <- (nega_eval q n a b _ (odd_pow_root i)).
    apply sumn_cong. intros j Hj. unfold c, nega_list. rewrite La. fold n.
    rewrite nth_map_seq by auto. rewrite cong_mod. reflexivity.
  - intros [x y] Hin. cbn [fst snd]. rewrite Forall_forall in Cra, Crb.
    pose proof (Cra x (in_combine_l _ _ _ _ Hin)). pose proof (Crb y (in_combine_r _ _ _ _ Hin)).
    unfold can in *. apply mulmod64_ok; lia.
Qed.
End Mul.
