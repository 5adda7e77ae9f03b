(** Lemmas for the shift network: one virtual rotation and one round. *)
From Coq Require Import ZArith List Bool Lia.
From Verif Require Import ShiftNet_Model ShiftNet_Proofs.
Import ListNotations.
Open Scope Z_scope.

Section Kernel.
Variable E : Type.
Variables (zero one : E) (add mul : E -> E -> E).
Hypothesis mul_one : forall x, mul x one = x.
Hypothesis mul_zero : forall x, mul x zero = zero.
Hypothesis add_zero_l : forall x, add zero x = x.
Hypothesis add_zero_r : forall x, add x zero = x.
Variables n k : nat.
Hypothesis Hn : (0 < n)%nat.
Hypothesis Hk : (0 < k)%nat.
Notation N := (Z.of_nat n).
Notation K := (Z.of_nat k).
Notation V := (K * N).
Notation row := (list E).

Definition get (rows : list row) (p : ctslot) : E := nth (Z.to_nat (snd p)) (nth (Z.to_nat (fst p)) rows []) zero.
Definition mget (ms : list (list bool)) (p : ctslot) : bool := nth (Z.to_nat (snd p)) (nth (Z.to_nat (fst p)) ms []) false.
Definition shape {A} (rows : list (list A)) : Prop := length rows = k /\ forall i, (i < k)%nat -> length (nth i rows []) = n.
Definition at_ (i j : nat) : ctslot := (Z.of_nat i, Z.of_nat j).
Lemma get_at rows i j : get rows (at_ i j) = nth j (nth i rows []) zero.
Proof. unfold get, at_; cbn [fst snd]. rewrite !Nat2Z.id. auto. Qed.
Lemma mget_at ms i j : mget ms (at_ i j) = nth j (nth i ms []) false.
Proof. unfold mget, at_; cbn [fst snd]. rewrite !Nat2Z.id. auto. Qed.
Lemma at_range i j : (i < k)%nat -> (j < n)%nat -> in_range N K (at_ i j).
Proof. unfold in_range, at_; cbn. lia. Qed.

Lemma mul_mask_length (ct : row) mask : length mask = length ct -> length (mul_mask E zero one mul ct mask) = length ct.
Proof. intros H. unfold mul_mask. rewrite zip_length. lia. Qed.
Lemma nth_mul_mask (ct : row) mask i : length mask = length ct -> (i < length ct)%nat ->
  nth i (mul_mask E zero one mul ct mask) zero = if nth i mask false then nth i ct zero else zero.
Proof. intros H Hi. unfold mul_mask. rewrite nth_zip with (da := zero) (db := false) by lia. destruct (nth i mask false); auto. Qed.
Lemma all_zero_nth mask i : all_zero mask = true -> nth i mask false = false.
Proof.
  intros H. unfold all_zero in H. rewrite forallb_forall in H. destruct (le_lt_dec (length mask) i); [apply nth_overflow; auto|].
  specialize (H (nth i mask false) (nth_In _ _ l)). destruct (nth i mask false); auto.
Qed.
Lemma all_one_nth mask i : all_one mask = true -> (i < length mask)%nat -> nth i mask false = true.
Proof. intros H Hi. unfold all_one in H. rewrite forallb_forall in H. apply (H (nth i mask false) (nth_In _ _ Hi)). Qed.
Lemma left_rotate_length (ct : row) r : length (left_rotate E zero ct r) = length ct.
Proof. unfold left_rotate. rewrite map_length, seq_length. auto. Qed.
Lemma nth_left_rotate (ct : row) r i : (i < length ct)%nat ->
  nth i (left_rotate E zero ct r) zero = nth (Z.to_nat ((Z.of_nat i + r) mod Z.of_nat (length ct))) ct zero.
Proof. intros H. unfold left_rotate. rewrite nth_map_seq; auto. Qed.
Lemma add_rows_length (a b : row) : length a = n -> length b = n -> length (add_rows E add a b) = n.
Proof. intros H1 H2. unfold add_rows. rewrite zip_length. lia. Qed.
Lemma nth_add_rows (a b : row) j : length a = n -> length b = n -> (j < n)%nat ->
  nth j (add_rows E add a b) zero = add (nth j a zero) (nth j b zero).
Proof. intros H1 H2 Hj. unfold add_rows. apply nth_zip; lia. Qed.
Lemma splat0_length : length (splat0 E zero N) = n.
Proof. unfold splat0. rewrite repeat_length. lia. Qed.
Lemma nth_splat0 j : nth j (splat0 E zero N) zero = zero.
Proof. unfold splat0. apply nth_repeat. Qed.
(** masking, with or without the shortcuts *)
Definition masked (ct : row) (mask : list bool) : row :=
  if all_zero mask then splat0 E zero N else if all_one mask then ct else mul_mask E zero one mul ct mask.
Lemma masked_spec ct mask : length ct = n -> length mask = n -> length (masked ct mask) = n /\
  forall j, (j < n)%nat -> nth j (masked ct mask) zero = if nth j mask false then nth j ct zero else zero.
Proof.
  intros H1 H2. unfold masked. destruct (all_zero mask) eqn:Z0; [|destruct (all_one mask) eqn:O1].
  - split; [apply splat0_length|]. intros j Hj. rewrite (all_zero_nth _ j Z0), nth_splat0. auto.
  - split; auto. intros j Hj. rewrite all_one_nth by (auto; lia). auto.
  - split; [rewrite mul_mask_length; lia|]. intros j Hj. apply nth_mul_mask; lia.
Qed.

(** the slot whose value arrives at slot j of ciphertext i *)
Definition from (r : Z) (i j : nat) : ctslot := unvidx N ((vidx N (at_ i j) + r) mod V).
Lemma from_range r i j : in_range N K (from r i j).
Proof. apply unvidx_range; try lia. apply Z.mod_pos_bound. nia. Qed.
Lemma from_eq r i j p : in_range N K p -> (vidx N (at_ i j) + r) mod V = vidx N p -> from r i j = p.
Proof. intros Hp H. unfold from. rewrite H. apply unvidx_vidx; [lia|apply Hp]. Qed.
Lemma from_whole q i j : 0 <= q -> (i < k)%nat -> (j < n)%nat ->
  from (q * N) i j = at_ (Z.to_nat ((Z.of_nat i + q) mod K)) j.
Proof.
  intros Hq Hi Hj. assert (B : 0 <= (Z.of_nat i + q) mod K < K) by (apply Z.mod_pos_bound; lia).
  apply from_eq; [apply at_range; lia|]. unfold vidx, at_; cbn [fst snd]. rewrite Z2Nat.id by lia.
  pose proof (Z.div_mod (Z.of_nat i + q) K ltac:(lia)) as D.
  replace (Z.of_nat i * N + Z.of_nat j + q * N) with ((Z.of_nat i + q) mod K * N + Z.of_nat j + ((Z.of_nat i + q) / K) * V) by nia.
  rewrite Z.mod_add by nia. apply Z.mod_small. nia.
Qed.
Lemma from_part r i j : 0 < r < N -> (i < k)%nat -> (j < n)%nat ->
  from r i j = if Z.of_nat j + r <? N then (Z.of_nat i, Z.of_nat j + r) else ((Z.of_nat i + 1) mod K, Z.of_nat j + r - N).
Proof.
  intros Hr Hi Hj. assert (B : 0 <= (Z.of_nat i + 1) mod K < K) by (apply Z.mod_pos_bound; lia).
  destruct (Z.ltb_spec (Z.of_nat j + r) N).
  - apply from_eq; [unfold in_range; cbn; lia|]. unfold vidx, at_; cbn [fst snd]. rewrite Z.mod_small; nia.
  - apply from_eq; [unfold in_range; cbn; lia|]. unfold vidx, at_; cbn [fst snd].
    pose proof (Z.div_mod (Z.of_nat i + 1) K ltac:(lia)) as D.
    replace (Z.of_nat i * N + Z.of_nat j + r) with ((Z.of_nat i + 1) mod K * N + (Z.of_nat j + r - N) + ((Z.of_nat i + 1) / K) * V) by nia.
    rewrite Z.mod_add by nia. apply Z.mod_small. nia.
Qed.

(** ** One virtual rotation *)
Section Rotation.
Variables (input : list row) (ms : list (list bool)) (r : Z).
Hypothesis Si : shape input.
Hypothesis Sm : shape ms.
Definition val (i j : nat) : E := if mget ms (from r i j) then get input (from r i j) else zero.
Definition rotated_ok (res : list (option row)) : Prop := length res = k /\ forall i, (i < k)%nat ->
  match nth i res None with
  | Some x => length x = n /\ forall j, (j < n)%nat -> nth j x zero = val i j
  | None => forall j, (j < n)%nat -> mget ms (from r i j) = false
  end.
Lemma rotate_whole_ok q : r = q * N -> 0 <= q -> rotated_ok (rotate_whole E zero one mul N input r ms).
Proof.
  intros Hr Hq. destruct Si as [L1 R1], Sm as [L2 R2]. unfold rotate_whole, rotated_ok. rewrite map_length, seq_length, L1. split; auto.
  intros i Hi. rewrite nth_map_seq by auto. rewrite Hr, Z.quot_mul, Z.rem_mod_nonneg by lia.
  replace (Z.of_nat i + q + K) with (Z.of_nat i + q + 1 * K) by lia. rewrite Z.mod_add by lia.
  set (c := Z.to_nat ((Z.of_nat i + q) mod K)).
  assert (Hc : (c < k)%nat) by (pose proof (Z.mod_pos_bound (Z.of_nat i + q) K); lia).
  rewrite nth_zip with (da := []) (db := []) by lia. fold (masked (nth c input []) (nth c ms [])).
  destruct (masked_spec (nth c input []) (nth c ms [])) as [M1 M2]; auto. split; auto.
  intros j Hj. rewrite M2 by auto. unfold val. rewrite Hr, from_whole by lia. fold c. rewrite get_at, mget_at. auto.
Qed.

Hypothesis Hr : 0 < r < N.
Lemma from_src i j c : (i < k)%nat -> (j < n)%nat -> (c < k)%nat ->
  (fst (from r i j) =? Z.of_nat c) =
  ((i =? Z.to_nat ((Z.of_nat c - 1) mod K))%nat && (N <=? Z.of_nat j + r)) || ((i =? c)%nat && (Z.of_nat j + r <? N)).
Proof.
  intros Hi Hj Hc. rewrite from_part by auto.
  assert (E1 : ((Z.of_nat i + 1) mod K =? Z.of_nat c) = (i =? Z.to_nat ((Z.of_nat c - 1) mod K))%nat).
  { apply eq_true_iff_eq. rewrite Z.eqb_eq, Nat.eqb_eq.
    pose proof (Z.mod_pos_bound (Z.of_nat c - 1) K ltac:(lia)). split; intros H1.
    - assert (H2 : (Z.of_nat c - 1) mod K = Z.of_nat i); [|lia].
      rewrite <- H1, Zminus_mod_idemp_l. replace (Z.of_nat i + 1 - 1) with (Z.of_nat i) by lia. apply Z.mod_small; lia.
    - assert (H2 : (Z.of_nat c - 1) mod K = Z.of_nat i) by lia. rewrite <- H2, Zplus_mod_idemp_l.
      replace (Z.of_nat c - 1 + 1) with (Z.of_nat c) by lia. apply Z.mod_small; lia. }
  destruct (Z.ltb_spec (Z.of_nat j + r) N); cbn [fst].
  - replace (N <=? Z.of_nat j + r) with false by (symmetry; apply Z.leb_gt; lia).
    rewrite andb_false_r, andb_true_r. cbn. apply eq_true_iff_eq. rewrite Z.eqb_eq, Nat.eqb_eq. lia.
  - replace (N <=? Z.of_nat j + r) with true by (symmetry; apply Z.leb_le; lia).
    rewrite andb_false_r, andb_true_r, orb_false_r. auto.
Qed.
Lemma targets c : (c < k)%nat ->
  Z.quot (Z.rem (Z.of_nat c * N + 0 - r + V) V) N = (Z.of_nat c - 1) mod K /\
  Z.quot (Z.rem (Z.of_nat c * N + (N - 1) - r + V) V) N = Z.of_nat c.
Proof.
  intros Hc. pose proof (Z.mod_pos_bound (Z.of_nat c - 1) K ltac:(lia)) as B. pose proof (Z.div_mod (Z.of_nat c - 1) K ltac:(lia)) as D.
  rewrite !Z.rem_mod_nonneg by nia. split.
  - replace (Z.of_nat c * N + 0 - r + V) with ((Z.of_nat c - 1) mod K * N + (N - r) + ((Z.of_nat c - 1) / K + 1) * V) by nia.
    rewrite Z.mod_add by nia. rewrite Z.mod_small by nia. rewrite Z.quot_div_nonneg by nia.
    rewrite Z.add_comm, Z.div_add by lia. rewrite Z.div_small by lia. lia.
  - replace (Z.of_nat c * N + (N - 1) - r + V) with (Z.of_nat c * N + (N - 1 - r) + 1 * V) by lia.
    rewrite Z.mod_add by nia. rewrite Z.mod_small by nia. rewrite Z.quot_div_nonneg by nia.
    rewrite Z.add_comm, Z.div_add by lia. rewrite Z.div_small by lia. lia.
Qed.

Lemma wrap_slot j : (j < n)%nat -> N <= Z.of_nat j + r -> (Z.of_nat j + r) mod N = Z.of_nat j + r - N.
Proof. intros. replace (Z.of_nat j + r) with (Z.of_nat j + r - N + 1 * N) at 1 by lia. rewrite Z.mod_add by lia. apply Z.mod_small. lia. Qed.

Definition Inv (D : nat -> nat -> bool) (res : list (option row)) : Prop := length res = k /\ forall i, (i < k)%nat ->
  match nth i res None with
  | Some x => length x = n /\ forall j, (j < n)%nat -> nth j x zero = if D i j then val i j else zero
  | None => forall j, (j < n)%nat -> D i j = true -> mget ms (from r i j) = false
  end.
Lemma Inv_ext D D' res : (forall i j, (i < k)%nat -> (j < n)%nat -> D i j = D' i j) -> Inv D res -> Inv D' res.
Proof.
  intros H [L I]. split; auto. intros i Hi. specialize (I i Hi). destruct (nth i res None).
  - destruct I as [I1 I2]. split; auto. intros j Hj. rewrite <- H by auto. auto.
  - intros j Hj Hd. rewrite <- H in Hd by auto. auto.
Qed.
Lemma add_result_inv D t (S : nat -> bool) o res : (t < k)%nat ->
  match o with
  | Some x => length x = n /\ forall j, (j < n)%nat -> nth j x zero = if S j then val t j else zero
  | None => forall j, (j < n)%nat -> S j = true -> mget ms (from r t j) = false
  end ->
  (forall j, (j < n)%nat -> S j = true -> D t j = false) -> Inv D res ->
  Inv (fun i j => D i j || ((i =? t)%nat && S j)) (add_result E add t o res).
Proof.
  intros Ht Ho Hd [L I]. destruct o as [x|]; cbn [add_result].
  - destruct Ho as [Lx Hx]. split; [rewrite set_nth_length; auto|]. intros i Hi.
    destruct (Nat.eqb_spec i t) as [->|Ne].
    + rewrite nth_set_nth_eq by lia. specialize (I t Ht). destruct (nth t res None) as [y|].
      * destruct I as [Ly Hy]. split; [apply add_rows_length; auto|]. intros j Hj. rewrite nth_add_rows, Hy, Hx by auto.
        cbn [andb]. destruct (S j) eqn:Sj.
        -- rewrite (Hd j Hj Sj). cbn. apply add_zero_l.
        -- rewrite orb_false_r. apply add_zero_r.
      * split; auto. intros j Hj. rewrite Hx by auto. cbn [andb]. destruct (S j) eqn:Sj.
        -- rewrite orb_true_r. auto.
        -- rewrite orb_false_r. destruct (D t j) eqn:Dj; auto. unfold val. rewrite (I j Hj Dj). auto.
    + rewrite nth_set_nth_neq by auto. specialize (I i Hi). destruct (nth i res None).
      * destruct I as [I1 I2]. split; auto. intros j Hj. cbn [andb]. rewrite orb_false_r. auto.
      * intros j Hj. cbn [andb]. rewrite orb_false_r. auto.
  - split; auto. intros i Hi. specialize (I i Hi). destruct (Nat.eqb_spec i t) as [->|Ne]; cbn [andb].
    + destruct (nth t res None).
      * destruct I as [I1 I2]. split; auto. intros j Hj. rewrite I2 by auto. destruct (D t j) eqn:Dj; auto.
        cbn. destruct (S j) eqn:Sj; auto. unfold val. rewrite (Ho j Hj Sj). auto.
      * intros j Hj Hor. apply orb_true_iff in Hor as [H|H]; auto.
    + destruct (nth i res None).
      * destruct I as [I1 I2]. split; auto. intros j Hj. rewrite orb_false_r. auto.
      * intros j Hj. rewrite orb_false_r. auto.
Qed.

Lemma split_mask (f : nat -> bool -> bool) (mask : list bool) i : length mask = n -> (i < n)%nat ->
  nth i (map (fun ib => f (fst ib) (snd ib)) (combine (seq 0 (length mask)) mask)) false = f i (nth i mask false).
Proof.
  intros L Hi. pose proof (nth_zip f (seq 0 (length mask)) mask i false 0%nat false) as H. unfold zip_with in H.
  rewrite H by (rewrite ?seq_length; lia). rewrite seq_nth by lia. auto.
Qed.
Lemma split_mask_length (f : nat * bool -> bool) (mask : list bool) : length (map f (combine (seq 0 (length mask)) mask)) = length mask.
Proof. rewrite map_length, combine_length, seq_length. lia. Qed.

Lemma part_ok c t (mask' : list bool) (S : nat -> bool) : (c < k)%nat -> length mask' = n ->
  (forall j, (j < n)%nat -> nth (Z.to_nat ((Z.of_nat j + r) mod N)) mask' false = if S j then mget ms (from r t j) else false) ->
  (forall j, (j < n)%nat -> S j = true -> from r t j = at_ c (Z.to_nat ((Z.of_nat j + r) mod N))) ->
  match (if all_zero mask' then None else Some (left_rotate E zero (mul_mask E zero one mul (nth c input []) mask') r)) with
  | Some x => length x = n /\ forall j, (j < n)%nat -> nth j x zero = if S j then val t j else zero
  | None => forall j, (j < n)%nat -> S j = true -> mget ms (from r t j) = false
  end.
Proof.
  intros Hc L Hm Hf. destruct Si as [L1 R1]. pose proof (R1 c Hc) as Lc.
  assert (B : forall j, (Z.to_nat ((Z.of_nat j + r) mod N) < n)%nat) by (intros j; pose proof (Z.mod_pos_bound (Z.of_nat j + r) N); lia).
  destruct (all_zero mask') eqn:Z0.
  - intros j Hj Sj. specialize (Hm j Hj). rewrite Sj in Hm. rewrite <- Hm. apply all_zero_nth; auto.
  - assert (Lm : length (mul_mask E zero one mul (nth c input []) mask') = n) by (rewrite mul_mask_length; lia).
    split; [rewrite left_rotate_length; auto|]. intros j Hj. rewrite nth_left_rotate by lia. rewrite Lm.
    rewrite nth_mul_mask by (rewrite ?Lc; auto). rewrite Hm by auto. destruct (S j) eqn:Sj; auto.
    unfold val. destruct (mget ms (from r t j)); auto. rewrite (Hf j Hj Sj), get_at. auto.
Qed.

Lemma rotate_one_inv c res : (1 < k)%nat -> (c < k)%nat -> Inv (fun i j => fst (from r i j) <? Z.of_nat c) res ->
  exists res', rotate_one E zero one add mul N r input ms c res = Some res' /\
    Inv (fun i j => fst (from r i j) <? Z.of_nat (S c)) res'.
Proof.
  intros K1 Hc I. destruct Si as [L1 R1], Sm as [L2 R2]. destruct (targets c Hc) as [T1 T2].
  pose proof (Z.mod_pos_bound (Z.of_nat c - 1) K ltac:(lia)) as B.
  unfold rotate_one. rewrite L1. cbv zeta. rewrite T1, T2.
  rewrite Z.rem_mod_nonneg, Zplus_mod_idemp_l by lia. replace (Z.of_nat c - 1 + 1) with (Z.of_nat c) by lia.
  rewrite Z.mod_small by lia. rewrite Z.eqb_refl. cbn [negb].
  replace ((Z.of_nat c - 1) mod K =? Z.of_nat c) with false.
  2:{ symmetry. apply Z.eqb_neq. intros H. pose proof (Z.div_mod (Z.of_nat c - 1) K ltac:(lia)) as D. rewrite H in D. destruct (Z_le_gt_dec 0 ((Z.of_nat c - 1) / K)); nia. }
  set (mask := nth c ms []). assert (Lm : length mask = n) by (apply R2; auto).
  set (t1 := Z.to_nat ((Z.of_nat c - 1) mod K)). assert (Ht1 : (t1 < k)%nat) by lia.
  rewrite Nat2Z.id.
  eexists. split; [reflexivity|].
  eapply Inv_ext; cycle 1.
  - apply add_result_inv with (S := fun j => Z.of_nat j + r <? N); auto.
    3: apply add_result_inv with (S := fun j => N <=? Z.of_nat j + r) (D := fun i j => fst (from r i j) <? Z.of_nat c); auto.
    + apply part_ok; auto.
      * rewrite split_mask_length. auto.
      * intros j Hj. rewrite (split_mask (fun i b => if Z.of_nat i <? r then false else b)); auto.
        2:{ pose proof (Z.mod_pos_bound (Z.of_nat j + r) N); lia. }
        pose proof (Z.mod_pos_bound (Z.of_nat j + r) N ltac:(lia)). rewrite Z2Nat.id by lia. rewrite from_part by auto.
        destruct (Z.ltb_spec (Z.of_nat j + r) N) as [HL|HL].
        -- rewrite Z.mod_small by lia. replace (Z.of_nat j + r <? r) with false by (symmetry; apply Z.ltb_ge; lia).
           unfold mget; cbn [fst snd]. rewrite Nat2Z.id. auto.
        -- rewrite wrap_slot by lia.
           replace (_ <? r) with true by (symmetry; apply Z.ltb_lt; lia). auto.
      * intros j Hj Sj. rewrite from_part by auto. rewrite Sj. apply Z.ltb_lt in Sj. rewrite Z.mod_small by lia. unfold at_. f_equal. lia.
    + intros j Hj Sj. cbv beta. rewrite from_part by auto. rewrite Sj. cbn [fst]. rewrite Z.ltb_irrefl. cbn.
      apply Z.ltb_lt in Sj. replace (N <=? _) with false by (symmetry; apply Z.leb_gt; lia). apply andb_false_r.
    + apply part_ok; auto.
      * rewrite split_mask_length. auto.
      * intros j Hj. rewrite (split_mask (fun i b => if Z.of_nat i <? r then b else false)); auto.
        2:{ pose proof (Z.mod_pos_bound (Z.of_nat j + r) N); lia. }
        pose proof (Z.mod_pos_bound (Z.of_nat j + r) N ltac:(lia)). rewrite Z2Nat.id by lia. rewrite from_part by auto.
        destruct (Z.ltb_spec (Z.of_nat j + r) N) as [HL|HL].
        -- rewrite Z.mod_small by lia. replace (Z.of_nat j + r <? r) with false by (symmetry; apply Z.ltb_ge; lia).
           replace (N <=? _) with false by (symmetry; apply Z.leb_gt; lia). auto.
        -- replace (N <=? _) with true by (symmetry; apply Z.leb_le; lia).
           rewrite wrap_slot by lia.
           replace (_ <? r) with true by (symmetry; apply Z.ltb_lt; lia).
           unfold mget; cbn [fst snd]. unfold t1. rewrite Z2Nat.id by lia. rewrite Zplus_mod_idemp_l.
           replace (Z.of_nat c - 1 + 1) with (Z.of_nat c) by lia. rewrite Z.mod_small by lia. rewrite Nat2Z.id. auto.
      * intros j Hj Sj. rewrite from_part by auto. apply Z.leb_le in Sj.
        replace (_ <? N) with false by (symmetry; apply Z.ltb_ge; lia). unfold t1. rewrite Z2Nat.id by lia. rewrite Zplus_mod_idemp_l.
        replace (Z.of_nat c - 1 + 1) with (Z.of_nat c) by lia. rewrite (Z.mod_small (Z.of_nat c)) by lia.
        rewrite wrap_slot by lia.
        unfold at_. f_equal. lia.
    + intros j Hj Sj. apply Z.ltb_ge. pose proof (from_src t1 j c Ht1 Hj Hc) as F. fold t1 in F. rewrite Nat.eqb_refl, Sj in F.
      cbn [andb orb] in F. apply Z.eqb_eq in F. rewrite F. lia.
  - intros i j Hi Hj. cbv beta. pose proof (from_src i j c Hi Hj Hc) as F. fold t1 in F.
    rewrite <- orb_assoc, <- F. apply eq_true_iff_eq. rewrite orb_true_iff, !Z.ltb_lt, Z.eqb_eq. lia.
Qed.
Lemma rotate_single_ok : k = 1%nat ->
  exists res, rotate_one E zero one add mul N r input ms 0 (repeat None k) = Some res /\ rotated_ok res.
Proof.
  intros K1. destruct Si as [L1 R1], Sm as [L2 R2]. destruct (targets 0 ltac:(lia)) as [T1 T2].
  unfold rotate_one. rewrite L1. cbv zeta. rewrite T1, T2.
  replace ((Z.of_nat 0 - 1) mod K) with 0 by (rewrite K1; reflexivity). change (Z.of_nat 0) with 0.
  replace (Z.rem (0 + 1) K) with 0 by (rewrite K1; reflexivity). cbn [Z.eqb negb].
  eexists. split; [reflexivity|]. split; [rewrite set_nth_length, repeat_length; auto|].
  intros i Hi. replace i with 0%nat by lia. rewrite nth_set_nth_eq by (rewrite repeat_length; lia).
  set (mask := nth 0 ms []). set (ct := nth 0 input []). assert (Lm : length mask = n) by (apply R2; auto). assert (Lc : length ct = n) by (apply R1; auto).
  assert (F : forall j, (j < n)%nat -> from r 0 j = at_ 0 (Z.to_nat ((Z.of_nat j + r) mod N))).
  { intros j Hj. rewrite from_part by auto. unfold at_. destruct (Z.ltb_spec (Z.of_nat j + r) N).
    - f_equal. rewrite Z.mod_small; lia.
    - f_equal; [rewrite K1; reflexivity|]. rewrite wrap_slot; lia. }
  destruct (masked_spec ct mask Lc Lm) as [M1 M2].
  assert (B : forall j, (Z.to_nat ((Z.of_nat j + r) mod N) < n)%nat) by (intros j; pose proof (Z.mod_pos_bound (Z.of_nat j + r) N); lia).
  assert (G : length (left_rotate E zero (masked ct mask) r) = n /\ forall j, (j < n)%nat -> nth j (left_rotate E zero (masked ct mask) r) zero = val 0 j).
  { split; [rewrite left_rotate_length; auto|]. intros j Hj. rewrite nth_left_rotate by lia. rewrite M1, M2 by auto.
    unfold val. rewrite F by auto. rewrite get_at, mget_at. auto. }
  unfold masked in G. destruct (all_zero mask); [|destruct (all_one mask); auto].
  split; [apply splat0_length|]. intros j Hj. rewrite <- (proj2 G j Hj). rewrite nth_left_rotate by (rewrite splat0_length; auto).
  rewrite !nth_splat0. auto.
Qed.
End Rotation.

Lemma apply_virtual_rotation_ok input ms r : shape input -> shape ms -> 0 < r -> (r mod N = 0 \/ r < N) ->
  exists res, apply_virtual_rotation E zero one add mul N input r ms = Some res /\ rotated_ok input ms r res.
Proof.
  intros Si Sm Hr Hd. unfold apply_virtual_rotation. rewrite Z.rem_mod_nonneg by lia. destruct (Z.eqb_spec (r mod N) 0) as [H0|H0].
  - eexists. split; [reflexivity|]. pose proof (Z.div_mod r N ltac:(lia)). apply rotate_whole_ok with (q := r / N); auto; [lia|].
    apply Z.div_pos; lia.
  - assert (Hr' : 0 < r < N) by lia. rewrite (proj1 Si). destruct (le_lt_dec k 1) as [L|L].
    + destruct (rotate_single_ok input ms r Si Sm Hr') as (res & E1 & E2); [lia|]. exists res. split; auto.
      replace k with 1%nat in * by lia. cbn [seq fold_left]. auto.
    + assert (G : forall c, (c <= k)%nat -> exists res,
        fold_left (fun o c => match o with Some rs => rotate_one E zero one add mul N r input ms c rs | None => None end) (seq 0 c) (Some (repeat None k)) = Some res /\
        Inv input ms r (fun i j => fst (from r i j) <? Z.of_nat c) res).
      { induction c as [|c IH]; intros Hc.
        - eexists. split; [reflexivity|]. split; [apply repeat_length|]. intros i Hi. rewrite nth_repeat.
          intros j Hj Hx. apply Z.ltb_lt in Hx. pose proof (from_range r i j) as [F _]. lia.
        - destruct IH as (res & E1 & I1); [lia|]. rewrite seq_S, fold_left_app, E1. cbn [fold_left plus].
          apply rotate_one_inv; auto. }
      destruct (G k (le_n _)) as (res & E1 & I1). exists res. split; auto. destruct I1 as [I1 I2]. split; auto.
      intros i Hi. specialize (I2 i Hi).
      assert (T : forall j, (fst (from r i j) <? K) = true) by (intros j; apply Z.ltb_lt; apply from_range).
      destruct (nth i res None).
      * destruct I2 as [A B]. split; auto. intros j Hj. rewrite B, T by auto. auto.
      * intros j Hj. apply I2; auto.
Qed.

(** ** One round *)
Lemma masks_of_shape ps : shape (masks_of N k ps).
Proof.
  unfold masks_of. split; [rewrite map_length, seq_length; auto|]. intros i Hi. rewrite nth_map_seq by auto.
  rewrite map_length, seq_length. lia.
Qed.
Lemma mget_masks_of ps p : in_range N K p -> mget (masks_of N k ps) p = existsb (slot_eqb p) ps.
Proof.
  intros [H1 H2]. unfold mget, masks_of. rewrite nth_map_seq by lia. rewrite nth_map_seq by lia. rewrite !Z2Nat.id by lia. destruct p; auto.
Qed.
Section Round.
Variables (current : list row) (fixed rotated : list ctslot) (r : Z).
Hypothesis Sc : shape current.
Hypothesis Hr : 0 < r.
Hypothesis Hd : r mod N = 0 \/ r < N.
Definition F (i j : nat) : bool := existsb (slot_eqb (at_ i j)) fixed.
Definition R (i j : nat) : bool := existsb (slot_eqb (from r i j)) rotated.
Definition half (o : option row) (S : nat -> bool) (src : nat -> ctslot) : Prop :=
  match o with
  | Some x => length x = n /\ forall j, (j < n)%nat -> nth j x zero = if S j then get current (src j) else zero
  | None => forall j, (j < n)%nat -> S j = false
  end.
Lemma fixed_half i : (i < k)%nat -> half (fixed_row E zero one mul (nth i current []) (nth i (masks_of N k fixed) [])) (F i) (at_ i).
Proof.
  intros Hi. destruct Sc as [L1 R1]. destruct (masks_of_shape fixed) as [L2 R2].
  set (mask := nth i (masks_of N k fixed) []). assert (Lm : length mask = n) by (apply R2; auto). pose proof (R1 i Hi) as Lc.
  assert (M : forall j, (j < n)%nat -> nth j mask false = F i j).
  { intros j Hj. unfold mask. rewrite <- mget_at. apply mget_masks_of. apply at_range; auto. }
  unfold half, fixed_row. destruct (all_zero mask) eqn:Z0.
  - intros j Hj. rewrite <- M by auto. apply all_zero_nth; auto.
  - assert (G : length (masked (nth i current []) mask) = n /\ forall j, (j < n)%nat -> nth j (masked (nth i current []) mask) zero = if F i j then get current (at_ i j) else zero).
    { destruct (masked_spec (nth i current []) mask Lc Lm) as [A B]. split; auto. intros j Hj. rewrite B by auto. rewrite get_at, M by auto. auto. }
    unfold masked in G. rewrite Z0 in G. destruct (all_one mask); auto.
Qed.
Lemma rotated_half : exists res,
  match rotated with [] => Some (repeat None k) | _ => apply_virtual_rotation E zero one add mul N current r (masks_of N k rotated) end = Some res /\
  length res = k /\ forall i, (i < k)%nat -> half (nth i res None) (R i) (from r i).
Proof.
  destruct rotated as [|p ps] eqn:Er.
  - eexists. split; [reflexivity|]. split; [apply repeat_length|]. intros i Hi. rewrite nth_repeat. unfold half, R. rewrite Er. auto.
  - rewrite <- Er. destruct (apply_virtual_rotation_ok current (masks_of N k rotated) r Sc (masks_of_shape _) Hr Hd) as (res & E1 & L & H).
    exists res. split; auto. split; auto. intros i Hi. specialize (H i Hi). unfold half. destruct (nth i res None).
    + destruct H as [A B]. split; auto. intros j Hj. rewrite B by auto. unfold val, R. rewrite mget_masks_of by apply from_range. auto.
    + intros j Hj. unfold R. rewrite <- mget_masks_of by apply from_range. auto.
Qed.
Lemma round_ok : exists res, match rotated with [] => Some (repeat None k) | _ => apply_virtual_rotation E zero one add mul N current r (masks_of N k rotated) end = Some res /\
  let new := zip_with (combine_row E add) current (combine (zip_with (fixed_row E zero one mul) current (masks_of N k fixed)) res) in
  shape new /\
  forall i, (i < k)%nat -> (exists j, (j < n)%nat /\ (F i j = true \/ R i j = true)) -> forall j, (j < n)%nat ->
    get new (at_ i j) = add (if F i j then get current (at_ i j) else zero) (if R i j then get current (from r i j) else zero).
Proof.
  destruct rotated_half as (res & E1 & L & H). exists res. split; auto. intros new.
  destruct Sc as [L1 R1]. destruct (masks_of_shape fixed) as [L2 R2].
  assert (Lz : length (zip_with (fixed_row E zero one mul) current (masks_of N k fixed)) = k) by (rewrite zip_length; lia).
  assert (Row : forall i, (i < k)%nat -> nth i new [] = combine_row E add (nth i current []) (fixed_row E zero one mul (nth i current []) (nth i (masks_of N k fixed) []), nth i res None)).
  { intros i Hi. unfold new. rewrite nth_zip with (da := []) (db := (None, None)) by (rewrite ?combine_length; lia).
    f_equal. rewrite combine_nth by lia. f_equal. apply nth_zip; lia. }
  split; [split|].
  - unfold new. rewrite zip_length, combine_length. lia.
  - intros i Hi. rewrite Row by auto. pose proof (fixed_half i Hi) as HF. specialize (H i Hi). unfold half in *.
    destruct (fixed_row _ _ _ _ _ _), (nth i res None); cbn [combine_row]; try tauto; auto. apply add_rows_length; tauto.
  - intros i Hi (j0 & Hj0 & Hex) j Hj. rewrite get_at, Row by auto. pose proof (fixed_half i Hi) as HF. specialize (H i Hi). unfold half in *.
    destruct (fixed_row _ _ _ _ _ _) as [f|], (nth i res None) as [x|]; cbn [combine_row].
    + destruct HF as [A B], H as [C D]. rewrite nth_add_rows, B, D; auto.
    + destruct HF as [A B]. rewrite B, H by auto. symmetry. apply add_zero_r.
    + destruct H as [C D]. rewrite D, HF by auto. symmetry. apply add_zero_l.
    + rewrite HF, H in Hex by auto. destruct Hex; discriminate.
Qed.
End Round.
End Kernel.
