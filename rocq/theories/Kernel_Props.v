(** C26-C31 and C54: the arithmetic kernels compute what they are meant to. *)
From Coq Require Import ZArith List Bool Lia Arith Ring Znumtheory.
From Verif Require Import Words NumTheory_Model NumTheory_Proofs Sums Kernel_Model Kernel_Spec
  Kernel_Proofs KernelBsgs_Proofs KernelMat_Proofs.
Import ListNotations.
Open Scope Z_scope.

Lemma holds_map K N (f g : Z -> car K) : (forall s, 0 <= s < Z.of_nat N -> f s = g s) ->
  holds K (map (fun i => f (Z.of_nat i)) (seq 0 N)) N g.
Proof.
  intros H. split; [now rewrite map_length, seq_length|]. intros s Hs.
  rewrite nth_map_seq by auto. apply H. lia.
Qed.

(** ** C26. Row r of the packed matrix is its r-th generalised diagonal. *)
Theorem C26_matvec : forall (K : cring) (n : nat) (M : Z -> Z -> K) (x : Z -> K) D v,
  (0 < n)%nat -> holds K v n x -> length D = n ->
  (forall r, (r < n)%nat ->
     holds K (nth r D []) n (fun i => M i ((i + Z.of_nat r) mod Z.of_nat n))) ->
  exists d out, matvec K D v = Some d /\ run K d = Some out /\
    holds K out n (fun i => rsum K n (fun j => rmul K (M i (Z.of_nat j)) (x (Z.of_nat j)))).
Proof.
  intros K n M x D v Hn [Lv Hv] LD HD.
  assert (Hrows : forall r, In r D -> length r = n).
  { intros r Hr. destruct (In_nth D r [] Hr) as (i & Hi & <-). apply HD. lia. }
  destruct (matvec K D v) as [d|] eqn:E.
  2:{ unfold matvec in E. destruct (Nat.eqb_spec (length D) 0); [lia|discriminate]. }
  exists d. eexists. split; [reflexivity|]. split.
  { apply den_run. exact (den_matvec K (no_vars K) D v n d Hn Lv Hrows E). }
  apply holds_map. intros s Hs. rewrite LD.
  transitivity (rsum K n (fun k => (fun c => rmul K (M s c) (x c)) ((s + Z.of_nat k) mod Z.of_nat n))).
  - apply big_ext. intros r Hr. destruct (HD r Hr) as [Lr Gr].
    assert (B : 0 <= (s + Z.of_nat r) mod Z.of_nat n < Z.of_nat n) by (apply Z.mod_pos_bound; lia).
    rewrite <- (get_mod K v _ n Lv), get_bound by (rewrite Lv; auto).
    rewrite Hv by lia. rewrite Z2Nat.id by lia.
    rewrite get_bound by (rewrite Lr; auto). rewrite Gr by lia. rewrite Z2Nat.id by lia.
    apply Kmulc.
  - exact (big_shift (radd K) (r0 K) (Kaddc K) (Kadda K) (Kadd0 K) n (fun c => rmul K (M s c) (x c)) s Hn).
Qed.
Print Assumptions C26_matvec.
Example C26_nonvacuous :
  let M := [[1; 2; 3]; [4; 5; 6]; [7; 8; 9]] in
  let m i j := nth (Z.to_nat j) (nth (Z.to_nat i) M []) 0 in
  let D := [[1; 5; 9]; [2; 6; 7]; [3; 4; 8]] in
  (forall r, (r < 3)%nat -> holds Zcring (nth r D []) 3 (fun i => m i ((i + Z.of_nat r) mod 3))) /\
  match matvec Zcring D [1; 10; 100] with
  | Some d => run Zcring d = Some [321; 654; 987]
  | None => False
  end.
Proof.
  split; [|reflexivity]. intros r Hr. split.
  - destruct r as [|[|[|]]]; try reflexivity; lia.
  - intros s Hs. destruct r as [|[|[|]]]; try lia; destruct s as [|[|[|]]]; try lia; reflexivity.
Qed.

(** ** C27. Rotate-and-reduce without plaintexts combines [steps] slots that are
    [period] apart, when [steps] is a power of two. *)
Theorem C27_rotate_and_reduce_partial :
  forall (K : cring) (v : list K) period k diag (unroll : bool), (0 < length v)%nat -> Z.of_nat k < 48 ->
  (exists d out, rotate_and_reduce K v None period (2 ^ Z.of_nat k) diag false unroll = Some d /\
     run K d = Some out /\
     holds K out (length v) (fun i => rsum K (2 ^ k) (fun j => slot K v (i + Z.of_nat j * period)))) /\
  (exists d out, rotate_and_reduce K v None period (2 ^ Z.of_nat k) diag true unroll = Some d /\
     run K d = Some out /\
     holds K out (length v) (fun i => rprod K (2 ^ k) (fun j => slot K v (i + Z.of_nat j * period)))).
Proof.
  intros K v period k diag unroll Hv Hk.
  assert (G : forall mul, exists d out, rotate_and_reduce K v None period (2 ^ Z.of_nat k) diag mul unroll = Some d /\
     run K d = Some out /\
     holds K out (length v) (fun i => big (op_of K mul) (unit_of K mul) (2 ^ k) (fun j => slot K v (i + Z.of_nat j * period)))).
  { intros mul. unfold rotate_and_reduce. change (if mul then Mul K else Add K) with (node_of K mul).
    pose proof (den_leaf K (no_vars K) v) as Dv. destruct unroll.
    - do 2 eexists. split; [reflexivity|]. split; [apply den_run, (den_accumulate K (no_vars K) mul period k _ _ _ Hv ltac:(lia) Dv)|].
      apply holds_map. reflexivity.
    - destruct (accumulate_rolled K (Leaf K (VVec K v)) period (2 ^ Z.of_nat k) (node_of K mul)) as [d|] eqn:E.
      + assert (R : 0 < 2 ^ Z.of_nat k < 2 ^ 63) by (split; [apply Z.pow_pos_nonneg; lia|apply Z.pow_lt_mono_r; lia]).
        exists d. eexists. split; [reflexivity|]. split.
        { apply den_run, (den_accumulate_rolled K (no_vars K) mul period _ _ _ _ d Hv R Dv E). }
        apply holds_map. intros s Hs. rewrite shift_sizes_ok by auto.
        rewrite Z.log2_pow2, Nat2Z.id by lia. apply acc_pow2.
      + unfold accumulate_rolled in E. destruct (Z.leb_spec (2 ^ Z.of_nat k) 0).
        * assert (0 < 2 ^ Z.of_nat k) by (apply Z.pow_pos_nonneg; lia). lia.
        * destruct (Z.leb_spec (Z.log2 (2 ^ Z.of_nat k)) 0); discriminate. }
  split; [exact (G false)|exact (G true)].
Qed.
Print Assumptions C27_rotate_and_reduce_partial.
(** The rotation amounts are halved with truncation, so other step counts are
    wrong; the operation's verifier does not exclude them. *)
Theorem C27_steps_refuted : exists (v : list Z) steps d out, 1 <= steps <= Z.of_nat (length v) /\
  rotate_and_reduce Zcring v None 1 steps [] false true = Some d /\ run Zcring d = Some out /\
  nth 0 out 0 <> rsum Zcring (Z.to_nat steps) (fun j => slot Zcring v (Z.of_nat j)).
Proof.
  exists [1; 2; 4; 8; 16; 32; 64; 128], 3. do 2 eexists.
  split; [cbn; lia|]. split; [reflexivity|]. split; [reflexivity|]. intro H. vm_compute in H. discriminate.
Qed.
Print Assumptions C27_steps_refuted.
(** A dot product of packed vectors of a power-of-two length. *)
Theorem C27_dot_partial : forall (K : cring) k (x y : list K), Z.of_nat k < 48 ->
  length x = (2 ^ k)%nat -> length y = (2 ^ k)%nat ->
  exists out, run K (dot K x y (2 ^ Z.of_nat k)) = Some out /\
  holds K out (2 ^ k) (fun _ => rsum K (2 ^ k) (fun j => rmul K (nth j x (r0 K)) (nth j y (r0 K)))).
Proof.
  intros K k x y Hk Lx Ly. set (N := (2 ^ k)%nat) in *.
  assert (HN : (0 < N)%nat) by (unfold N; pose proof (Nat.pow_nonzero 2 k); lia).
  assert (Dx := den_leaf K (no_vars K) x). assert (Dy := den_leaf K (no_vars K) y).
  rewrite Lx in Dx. rewrite Ly in Dy.
  pose proof (den_accumulate K (no_vars K) false 1 k _ N _ HN ltac:(lia) (den_mul K _ _ _ N _ _ HN Dx Dy)) as D.
  eexists. split; [apply den_run; exact D|]. apply holds_map. intros s Hs. cbn [op_of unit_of]. fold N.
  transitivity (rsum K N (fun j => (fun c => rmul K (get K x c) (get K y c)) ((s + Z.of_nat j) mod Z.of_nat N))).
  - apply big_ext. intros j Hj. cbn beta. rewrite Z.mul_1_r. rewrite (get_mod K x _ N Lx), (get_mod K y _ N Ly). reflexivity.
  - etransitivity; [exact (big_shift (radd K) (r0 K) (Kaddc K) (Kadda K) (Kadd0 K) N (fun c => rmul K (get K x c) (get K y c)) s HN)|].
    apply big_ext. intros j Hj. rewrite !get_nth by lia. reflexivity.
Qed.
Print Assumptions C27_dot_partial.
Example C27_nonvacuous :
  match rotate_and_reduce Zcring [1; 2; 3; 4; 5; 6; 7; 8] None 2 (2 ^ Z.of_nat 2) [] false false with
  | Some d => run Zcring d = Some [16; 20; 16; 20; 16; 20; 16; 20] | None => False end /\
  run Zcring (dot Zcring [1; 2; 3; 4] [5; 6; 7; 8] 4) = Some [70; 70; 70; 70].
Proof. split; reflexivity. Qed.

(** ** C28. Baby-step giant-step with plaintexts; [diag] lists the diagonals that
    may be skipped because they are zero. *)
Theorem C28_bsgs : forall (K : cring) (v : list K) (p : list (list K)) period steps diag,
  (0 < length v)%nat -> (forall r, In r p -> length r = length v) ->
  1 <= steps <= Z.of_nat (length p) ->
  (forall k b, In (k, b) diag -> 0 <= k < steps -> forall s, nth s (nth (Z.to_nat k) p []) (r0 K) = r0 K) ->
  exists d out, rotate_and_reduce K v (Some p) period steps diag false true = Some d /\
    run K d = Some out /\
    holds K out (length v) (fun s => rsum K (Z.to_nat steps)
      (fun k => rmul K (slot K (nth k p []) s) (slot K v (s + Z.of_nat k * period)))).
Proof.
  intros K v p period steps diag Hv Hp Hs Hz. unfold rotate_and_reduce. set (n := length v) in *.
  pose proof (baby_steps_pos steps ltac:(lia)).
  set (skip := fun k => existsb (fun d => fst d =? k) diag).
  destruct (bsgs K (Leaf K (VVec K v)) (Leaf K (VMat K p)) period steps n (extract_at K) skip default_rotation) as [d|] eqn:E.
  2:{ unfold bsgs in E. destruct (Z.eqb_spec (baby_steps steps) 0); [lia|discriminate]. }
  exists d. eexists. split; [reflexivity|]. split.
  { apply den_run. eapply den_bsgs_plain; eauto. apply den_leaf. }
  apply holds_map. intros s Hs'. unfold ipt_sum. apply big_ext. intros k Hk.
  rewrite (Z.mul_comm period).
  destruct (skip (Z.of_nat k)) eqn:Ek; cbn [negb ind]; [|reflexivity].
  unfold skip in Ek. apply existsb_exists in Ek. destruct Ek as ((k' & b) & Hin & Heq). cbn in Heq.
  apply Z.eqb_eq in Heq. subst k'. unfold slot at 1.
  pose proof (Hz _ _ Hin ltac:(lia)) as Z0. rewrite Nat2Z.id in Z0. rewrite Z0. rewrite Kmul0. reflexivity.
Qed.
Print Assumptions C28_bsgs.
Example C28_nonvacuous :
  let p := [[1; 1; 1; 1]; [0; 0; 0; 0]; [2; 0; 1; 0]; [0; 0; 0; 5]; [3; 3; 3; 3]] in
  let v := [1; 10; 100; 1000] in
  (forall r, In r p -> length r = length v) /\
  match rotate_and_reduce Zcring v (Some p) 3 5 [(1, true)] false true with
  | Some d => run Zcring d = Some [1 + 2 * 100 + 3 * 1; 10 + 3 * 10; 100 + 1 + 3 * 100; 1000 + 5 * 1 + 3 * 1000]
  | None => False
  end.
Proof. split; [|reflexivity]. intros r Hr. cbn in Hr. intuition (subst; reflexivity). Qed.

(** ** C29. The rolled kernels give the same result as the unrolled ones, for
    every number of steps. *)
Theorem C29_rolled_accumulation : forall (K : cring) (v : list K) period steps diag (mul : bool),
  (0 < length v)%nat -> 1 <= steps < 2 ^ 48 ->
  exists d d' out, rotate_and_reduce K v None period steps diag mul true = Some d /\
    rotate_and_reduce K v None period steps diag mul false = Some d' /\
    run K d = Some out /\ run K d' = Some out.
Proof.
  intros K v period steps diag mul Hv Hs. unfold rotate_and_reduce.
  change (if mul then Mul K else Add K) with (node_of K mul).
  assert (R : 0 < steps < 2 ^ 63).
  { assert (2 ^ 48 < 2 ^ 63) by (apply Z.pow_lt_mono_r; lia). lia. }
  pose proof (den_leaf K (no_vars K) v) as Dv.
  destruct (accumulate_rolled K (Leaf K (VVec K v)) period steps (node_of K mul)) as [d'|] eqn:E.
  - do 3 eexists. split; [reflexivity|]. split; [reflexivity|]. split.
    + apply den_run, (den_acc K (no_vars K) mul period _ _ _ _ Hv Dv).
    + apply den_run, (den_accumulate_rolled K (no_vars K) mul period _ _ _ _ d' Hv R Dv E).
  - unfold accumulate_rolled in E. destruct (Z.leb_spec steps 0); [lia|].
    destruct (Z.leb_spec (Z.log2 steps) 0); discriminate.
Qed.
Print Assumptions C29_rolled_accumulation.
Theorem C29_rolled_bsgs_partial : forall (K : cring) (v : list K) (p : list (list K)) period steps diag,
  (0 < length v)%nat -> (forall r, In r p -> length r = length v) ->
  1 <= steps <= Z.of_nat (length p) -> (forall k b, In (k, b) diag -> b = true) ->
  exists d d' out, rotate_and_reduce K v (Some p) period steps diag false true = Some d /\
    rotate_and_reduce K v (Some p) period steps diag false false = Some d' /\
    run K d = Some out /\ run K d' = Some out.
Proof.
  intros K v p period steps diag Hv Hp Hs Hd. unfold rotate_and_reduce. set (n := length v) in *.
  pose proof (baby_steps_pos steps ltac:(lia)).
  set (skip := fun k => existsb (fun d => fst d =? k) diag).
  destruct (bsgs K (Leaf K (VVec K v)) (Leaf K (VMat K p)) period steps n (extract_at K) skip default_rotation) as [d|] eqn:E.
  2:{ unfold bsgs in E. destruct (Z.eqb_spec (baby_steps steps) 0); [lia|discriminate]. }
  destruct (bsgs_rolled K (Leaf K (VVec K v)) (Leaf K (VMat K p)) period steps n diag) as [d'|] eqn:E'.
  2:{ unfold bsgs_rolled in E'. destruct (Z.eqb_spec (baby_steps steps) 0); [lia|discriminate]. }
  do 3 eexists. split; [reflexivity|]. split; [reflexivity|]. split.
  - apply den_run. eapply den_bsgs_plain; eauto. apply den_leaf.
  - apply den_run. eapply den_ext.
    + eapply den_bsgs_rolled; eauto. intros. apply den_leaf.
    + intros s. unfold ipt_sum. apply big_ext. intros k Hk. f_equal. f_equal. unfold rskip, skip.
      clear - Hd. induction diag as [|[k' b'] l IH]; auto. cbn [existsb fst snd].
      rewrite IH by (intros k0 b0 H0; apply (Hd k0 b0); right; auto).
      rewrite (Hd k' b' ltac:(left; auto)). rewrite andb_true_r. reflexivity.
Qed.
Print Assumptions C29_rolled_bsgs_partial.
(** The map from diagonals to booleans is read in two ways: the unrolled kernel
    skips every key, the rolled one only the keys mapped to true. *)
Theorem C29_false_entry_refuted : exists (v : list Z) p period steps diag d d',
  rotate_and_reduce Zcring v (Some p) period steps diag false true = Some d /\
  rotate_and_reduce Zcring v (Some p) period steps diag false false = Some d' /\
  run Zcring d = Some [10; 100; 1000; 1] /\ run Zcring d' = Some [11; 110; 1100; 1001].
Proof.
  exists [1; 10; 100; 1000], [[1; 1; 1; 1]; [1; 1; 1; 1]], 1, 2, [(0, false)].
  do 2 eexists. split; [reflexivity|]. split; [reflexivity|]. split; reflexivity.
Qed.
Print Assumptions C29_false_entry_refuted.
Example C29_nonvacuous :
  match rotate_and_reduce Zcring [1; 2; 3; 4; 5; 6; 7; 8] None 1 7 [] true false with
  | Some d => run Zcring d = Some [40; 180; 504; 1120; 240; 84; 336; 96] | None => False end /\
  match rotate_and_reduce Zcring [1; 10; 100; 1000] (Some [[1; 1; 1; 1]; [0; 0; 0; 0]; [2; 0; 1; 0]; [0; 0; 0; 5]; [3; 3; 3; 3]])
          3 5 [(1, true)] false false with
  | Some d => run Zcring d = Some [204; 40; 401; 4005] | None => False end.
Proof. split; reflexivity. Qed.

(** ** C30. Halevi-Shoup: the matrix is packed by diagonals as in
    getDiagonalLayoutRelation and the vector as in getRowMajorLayoutRelation;
    unassigned slots are zero. Row i of the product is in every slot congruent
    to i modulo the padded number of rows. *)
Theorem C30_halevi_shoup : forall (K : cring) (M : Z -> Z -> K) (x : Z -> K) rows cols la lb N vec mat diag (unroll : bool),
  1 <= rows <= 2 ^ 62 -> 1 <= cols <= 2 ^ 62 ->
  let pr := 2 ^ Z.of_nat la in let pc := 2 ^ Z.of_nat lb in
  rows <= pr < 2 * rows -> cols <= pc < 2 * cols ->
  (0 < N)%nat -> (pr | Z.of_nat N) -> (pc | Z.of_nat N) ->
  Z.of_nat (length mat) = Z.min pr pc ->
  (forall k, (k < length mat)%nat -> holds K (nth k mat []) N
     (fun s => padded2 K rows cols M (s mod pr) ((Z.of_nat k + s) mod pc))) ->
  holds K vec N (fun s => padded1 K cols x (s mod pc)) ->
  (forall k b, In (k, b) diag -> 0 <= k < Z.min pr pc ->
     forall s, nth s (nth (Z.to_nat k) mat []) (r0 K) = r0 K) ->
  exists d out, halevi_shoup K vec mat rows cols diag unroll = Some d /\ run K d = Some out /\
    holds K out N (fun s => if s mod pr <? rows
      then rsum K (Z.to_nat cols) (fun c => rmul K (M (s mod pr) (Z.of_nat c)) (x (Z.of_nat c))) else r0 K).
Proof.
  intros K M x rows cols la lb N vec mat diag unroll Hr Hc pr pc Hpr Hpc HN DN DN' Lm Hm [Lv Hv] Hz.
  assert (U : forall v l, 1 <= v <= 2 ^ 62 -> v <= 2 ^ Z.of_nat l < 2 * v -> next_power_of_two v = 2 ^ Z.of_nat l).
  { intros v l B1 B2. assert (2 ^ 62 < 2 ^ 63) by (apply Z.pow_lt_mono_r; lia).
    destruct (next_power_of_two_ok v ltac:(lia)) as (k & Hk & -> & H1 & H2). f_equal.
    assert (k <= Z.of_nat l) by (apply H2; lia).
    destruct (Z_le_gt_dec (Z.of_nat l) k); [lia|]. exfalso.
    assert (2 ^ (k + 1) <= 2 ^ Z.of_nat l) by (apply Z.pow_le_mono_r; lia).
    rewrite Z.pow_add_r in * by lia. change (2 ^ 1) with 2 in *. lia. }
  set (skip := if unroll then fun k => existsb (fun d => fst d =? k) diag else rskip diag).
  assert (P1 : 0 < pr) by (apply Z.pow_pos_nonneg; lia). assert (P2 : 0 < pc) by (apply Z.pow_pos_nonneg; lia).
  destruct (halevi_shoup_ok K la lb N rows cols (padded2 K rows cols M) (padded1 K cols x) vec mat diag
    (U rows la Hr Hpr) (U cols lb Hc Hpc) HN DN DN' Lm) with (skip := skip) (e := no_vars K) (unroll := unroll)
    as (d & Ed & Dd); auto.
  - intros r Hin. destruct (In_nth mat r [] Hin) as (i & Hi & <-). apply Hm. auto.
  - intros k s Hk Hs. fold pr pc in Hk |- *. destruct (Hm (Z.to_nat k) ltac:(lia)) as [_ G]. rewrite G by lia.
    rewrite !Z2Nat.id by lia. reflexivity.
  - intros s Hs. rewrite Hv by lia. rewrite Z2Nat.id by lia. reflexivity.
  - intros k Hk Hskip i. unfold get.
    assert (E : exists b, In (k, b) diag).
    { unfold skip in Hskip. destruct unroll.
      - apply existsb_exists in Hskip. destruct Hskip as ((k' & b) & Hin & Heq). cbn in Heq.
        apply Z.eqb_eq in Heq. subst. eauto.
      - apply existsb_exists in Hskip. destruct Hskip as ((k' & b) & Hin & Heq). cbn in Heq.
        apply andb_true_iff in Heq. destruct Heq as [Heq _]. apply Z.eqb_eq in Heq. subst. eauto. }
    destruct E as [b Hin]. eapply Hz; eauto.
  - exists d. eexists. split; [exact Ed|]. split; [apply den_run; exact Dd|].
    apply holds_map. intros s Hs. fold pr pc. unfold padded2, padded1.
    destruct (Z.ltb_spec (s mod pr) rows).
    + etransitivity; [apply (big_cut (radd K) (r0 K)) with (k := Z.to_nat cols); auto using Kaddc, Kadda, Kadd0|]; cycle -1.
      * apply big_ext. intros c Hc'. destruct (Z.ltb_spec (Z.of_nat c) cols); [reflexivity|lia].
      * lia.
      * intros c Hc'. destruct (Z.ltb_spec (Z.of_nat c) cols); [lia|]. cbn [andb]. apply Kmul0.
    + apply (big_unit (radd K) (r0 K) (Kadd0 K)). intros c Hc'. cbn [andb]. apply Kmul0.
Qed.
Print Assumptions C30_halevi_shoup.
(** a 2x3 matrix (padded to 2x4, so partial sums are needed) in eight slots *)
Example C30_nonvacuous :
  let M := [[1; 2; 3]; [4; 5; 6]] in
  let m i j := nth (Z.to_nat j) (nth (Z.to_nat i) M []) 0 in
  let vec := [1; 10; 100; 0; 1; 10; 100; 0] in
  let mat := [[1; 5; 3; 0; 1; 5; 3; 0]; [2; 6; 0; 4; 2; 6; 0; 4]] in
  (forall k, (k < 2)%nat -> holds Zcring (nth k mat []) 8
     (fun s => padded2 Zcring 2 3 m (s mod 2) ((Z.of_nat k + s) mod 4))) /\
  match halevi_shoup Zcring vec mat 2 3 [] true, halevi_shoup Zcring vec mat 2 3 [] false with
  | Some d, Some d' => run Zcring d = Some [321; 654; 321; 654; 321; 654; 321; 654] /\ run Zcring d' = run Zcring d
  | _, _ => False
  end.
Proof.
  split; [|split; reflexivity]. intros k Hk. split.
  - destruct k as [|[|]]; try reflexivity; lia.
  - intros s Hs. destruct k as [|[|]]; try lia;
      do 8 (destruct s as [|s]; [reflexivity|]); lia.
Qed.

(** ** C31. Bicyclic and tricyclic matrix products. Slot k of an operand holds
    the entry whose coordinates are k modulo each dimension. *)
Lemma cyclic_inverse p n : 1 <= p -> 1 <= n < 2 ^ 64 -> Z.gcd p n = 1 ->
  exists y, multiplicative_inverse 64 (p mod n) n = Some y /\ 0 <= y < n /\ (p * y) mod n = 1 mod n.
Proof.
  intros Hp Hn G. pose proof (Z.mod_pos_bound p n ltac:(lia)) as B.
  destruct (multiplicative_inverse_ok 64 n (p mod n)) as (y & E & H & _); try lia.
  exists y. split; auto. rewrite Z.gcd_mod, Z.gcd_comm in H by lia. destruct (H G) as [H1 H2].
  split; auto. rewrite Zmult_mod_idemp_l in H2. exact H2.
Qed.
Section Cyc.
Variables (K : cring) (h m n p : Z) (N : nat) (a b : list K) (A B : Z -> Z -> Z -> K).
Hypothesis (h_pos : 1 <= h) (m_pos : 1 <= m) (n_pos : 1 <= n) (p_pos : 1 <= p) (N_pos : (0 < N)%nat).
Hypothesis (hm_n : Z.gcd (h * m) n = 1) (p_n : Z.gcd p n = 1).
Hypothesis (bound1 : h * n * p < 2 ^ 63) (bound2 : h * m * n < 2 ^ 63) (bound3 : m * n * n < 2 ^ 64).
Hypothesis a_ok : holds K a N (fun k => A (k mod h) (k mod m) (k mod n)).
Hypothesis b_ok : holds K b N (fun k => B (k mod h) (k mod n) (k mod p)).
Lemma cyc_ok (rotf : Z -> Z -> Z -> Z -> Z -> Z) :
  (forall pinv size j i, 0 <= pinv < n -> 0 <= size -> 0 <= j -> 0 <= i -> j * size + i < n ->
     rotf pinv size j i (h * m) =
     (h * p * (((i + j * size) * m * pinv) mod n) - h * m * j * size) mod (h * n * p)) ->
  exists pinv d f, multiplicative_inverse 64 (p mod n) n = Some pinv /\
    bsgs K (Leaf K (VVec K a)) (Leaf K (VVec K b)) (h * m) n N (fun b _ => b) (fun _ => false) (rotf pinv) = Some d /\
    run K d = Some (map (fun i => f (Z.of_nat i)) (seq 0 N)) /\
    forall s, slot_ok h m n p N s -> f s = entry K n (A (s mod h)) (B (s mod h)) (s mod m) (s mod p).
Proof.
  intros Hrot. assert (n < 2 ^ 64).
  { assert (2 ^ 63 < 2 ^ 64) by (apply Z.pow_lt_mono_r; lia). nia. }
  destruct (cyclic_inverse p n p_pos ltac:(lia) p_n) as (y & Ey & By & Hy).
  destruct (cyclic_ok K h m n p y N a b A B (rotf y)) with (e := no_vars K) as (d & Ed & f & Df & Hf); auto.
  - apply a_ok.
  - apply b_ok.
  - intros k Hk. destruct a_ok as [_ G]. rewrite G by lia. rewrite Z2Nat.id by lia. reflexivity.
  - intros k Hk. destruct b_ok as [_ G]. rewrite G by lia. rewrite Z2Nat.id by lia. reflexivity.
  - exists y, d, f. split; auto. split; auto. split; [apply den_run; exact Df|]. exact Hf.
Qed.
End Cyc.

(** every slot that the kernel's reads do not wrap around for, and all slots if
    the slot count is a multiple of both periods *)
Theorem C31_bicyclic_prefix : forall (K : cring) (A B : Z -> Z -> K) m n p a b N,
  1 <= m -> 1 <= n -> 1 <= p -> (0 < N)%nat -> Z.gcd m n = 1 -> Z.gcd p n = 1 ->
  n * p < 2 ^ 63 -> m * n < 2 ^ 63 -> m * n * n < 2 ^ 64 ->
  holds K a N (fun k => A (k mod m) (k mod n)) -> holds K b N (fun k => B (k mod n) (k mod p)) ->
  exists d out, bicyclic_matmul K a b m n p = Some d /\ run K d = Some out /\ length out = N /\
    forall s, (s < N)%nat ->
      (m * n | Z.of_nat N) /\ (n * p | Z.of_nat N) \/
      Z.of_nat s + (n * p - 1 + m * (n - 1)) < Z.of_nat N ->
      nth s out (r0 K) = entry K n A B (Z.of_nat s mod m) (Z.of_nat s mod p).
Proof.
  intros K A B m n p a b N Hm Hn Hp HN G1 G2 b1 b2 b3 Ha Hb.
  destruct (cyc_ok K 1 m n p N a b (fun _ => A) (fun _ => B)) with (rotf := bicyclic_rotation m n p)
    as (y & d & f & Ey & Ed & Er & Hf); auto; try lia; rewrite ?Z.mul_1_l; auto.
  { intros. rewrite bicyclic_rotation_ok by auto. reflexivity. }
  exists d. eexists. split.
  { unfold bicyclic_matmul. rewrite Ey. cbn [bind]. destruct Ha as [La _]. rewrite La.
    rewrite Z.mul_1_l in Ed. exact Ed. }
  split; [exact Er|]. split; [now rewrite map_length, seq_length|].
  intros s Hs Hok. rewrite nth_map_seq by auto. apply Hf. unfold slot_ok. rewrite !Z.mul_1_l.
  destruct Hok as [|]; [left; auto|right; lia].
Qed.
Print Assumptions C31_bicyclic_prefix.
Theorem C31_bicyclic_kernel : forall (K : cring) (A B : Z -> Z -> K) m n p a b N,
  1 <= m -> 1 <= n -> 1 <= p -> Z.gcd m n = 1 -> Z.gcd p n = 1 ->
  n * p < 2 ^ 63 -> m * n < 2 ^ 63 -> m * n * n < 2 ^ 64 ->
  m * p + (n * p - 1 + m * (n - 1)) <= Z.of_nat N ->
  holds K a N (fun k => A (k mod m) (k mod n)) -> holds K b N (fun k => B (k mod n) (k mod p)) ->
  exists out, bicyclic_kernel K a b m n p = Some out /\
    holds K out N (fun s => entry K n A B (s mod m) (s mod p)).
Proof.
  intros K A B m n p a b N Hm Hn Hp G1 G2 b1 b2 b3 HN Ha Hb.
  assert (0 <= m * (n - 1)) by nia. assert (1 <= n * p) by nia. assert (1 <= m * p) by nia.
  destruct (cyc_ok K 1 m n p N a b (fun _ => A) (fun _ => B)) with (rotf := bicyclic_rotation m n p)
    as (y & d & f & Ey & Ed & Er & Hf); auto; try lia; rewrite ?Z.mul_1_l; auto.
  { intros. rewrite bicyclic_rotation_ok by auto. reflexivity. }
  unfold bicyclic_kernel, bicyclic_matmul. rewrite Ey. cbn [bind]. destruct Ha as [La _]. rewrite La.
  rewrite Z.mul_1_l in Ed. rewrite Ed. cbn [bind]. rewrite Er. cbn [bind]. rewrite map_length, seq_length.
  rewrite replicate_prefix_ok with (g := fun s => entry K n A B (s mod m) (s mod p)); try lia.
  - eexists. split; [reflexivity|]. apply (holds_map K N (fun s => entry K n A B (s mod m) (s mod p))). reflexivity.
  - intros s H2 H3. apply Hf. unfold slot_ok. rewrite !Z.mul_1_l. right. lia.
  - intros s. rewrite !mod_of_mod by (try lia; (exists p; ring) || (exists m; ring)). reflexivity.
Qed.
Print Assumptions C31_bicyclic_kernel.
Theorem C31_tricyclic_kernel : forall (K : cring) (A B : Z -> Z -> Z -> K) h m n p a b N,
  1 <= h -> 1 <= m -> 1 <= n -> 1 <= p -> Z.gcd (h * m) n = 1 -> Z.gcd p n = 1 ->
  h * n * p < 2 ^ 63 -> h * m * n < 2 ^ 63 -> m * n * n < 2 ^ 64 ->
  h * m * p + (h * n * p - 1 + h * m * (n - 1)) <= Z.of_nat N ->
  holds K a N (fun k => A (k mod h) (k mod m) (k mod n)) ->
  holds K b N (fun k => B (k mod h) (k mod n) (k mod p)) ->
  exists out, tricyclic_kernel K a b h m n p = Some out /\
    holds K out N (fun s => entry K n (A (s mod h)) (B (s mod h)) (s mod m) (s mod p)).
Proof.
  intros K A B h m n p a b N Hh Hm Hn Hp G1 G2 b1 b2 b3 HN Ha Hb.
  assert (1 <= h * m) by nia. assert (0 <= h * m * (n - 1)) by nia. assert (1 <= h * n) by nia.
  assert (1 <= h * n * p) by nia. assert (1 <= h * m * p) by nia.
  destruct (cyc_ok K h m n p N a b A B) with (rotf := tricyclic_rotation h m n p)
    as (y & d & f & Ey & Ed & Er & Hf); auto; try lia.
  { intros. apply tricyclic_rotation_ok; auto. }
  unfold tricyclic_kernel, tricyclic_matmul. rewrite Ey. cbn [bind]. destruct Ha as [La _]. rewrite La.
  rewrite Ed. cbn [bind]. rewrite Er. cbn [bind]. rewrite map_length, seq_length.
  rewrite replicate_prefix_ok with (g := fun s => entry K n (A (s mod h)) (B (s mod h)) (s mod m) (s mod p)); try lia.
  - eexists. split; [reflexivity|].
    apply (holds_map K N (fun s => entry K n (A (s mod h)) (B (s mod h)) (s mod m) (s mod p))). reflexivity.
  - intros s H5 H6. apply Hf. right. lia.
  - intros s. rewrite !mod_of_mod by (try lia; (exists (h * m); ring) || (exists (h * p); ring) || (exists (m * p); ring)). reflexivity.
Qed.
Print Assumptions C31_tricyclic_kernel.
(** one operand is a plaintext: its diagonals are packed one per row *)
Lemma diagonal_kernel (K : cring) (g T : Z -> Z -> K) (X : Z -> K) period steps size ct pt N :
  1 <= period -> 1 <= steps -> 1 <= size -> size + period * (steps - 1) <= Z.of_nat N ->
  holds K ct N X -> steps <= Z.of_nat (length pt) ->
  (forall r, In r pt -> length r = N) ->
  (forall c, (c < Z.to_nat steps)%nat -> holds K (nth c pt []) N (T (Z.of_nat c))) ->
  (forall i, g 0 (i mod size) = g 0 i) ->
  (forall s, 0 <= s -> s + period * (steps - 1) < Z.of_nat N ->
     rsum K (Z.to_nat steps) (fun c => rmul K (T (Z.of_nat c) s) (X (s + Z.of_nat c * period))) = g 0 s) ->
  exists out, bicyclic_diagonal_kernel K ct pt period steps size = Some out /\ holds K out N (g 0).
Proof.
  intros Hp Hs Hz HN [Lc Hc] Lp Lr HT Hg Hsum.
  assert (0 <= period * (steps - 1)) by nia.
  unfold bicyclic_diagonal_kernel, rotate_and_reduce.
  pose proof (baby_steps_pos steps ltac:(lia)). rewrite Lc.
  set (skip := fun k => existsb (fun d : Z * bool => fst d =? k) []).
  destruct (bsgs K (Leaf K (VVec K ct)) (Leaf K (VMat K pt)) period steps N (extract_at K) skip default_rotation) as [d|] eqn:E.
  2:{ unfold bsgs in E. destruct (Z.eqb_spec (baby_steps steps) 0); [lia|discriminate]. }
  cbn [bind]. pose proof (den_leaf K (no_vars K) ct) as Dc. rewrite Lc in Dc.
  pose proof (den_bsgs_plain K (no_vars K) _ pt period steps N skip _ d ltac:(lia) ltac:(lia) Lr Dc E) as D.
  rewrite (den_run K _ _ _ D). cbn [bind]. rewrite map_length, seq_length.
  rewrite replicate_prefix_ok with (g := g 0); auto; try lia.
  - eexists. split; [reflexivity|]. apply (holds_map K N (g 0)). reflexivity.
  - intros s H1 H2. rewrite <- Hsum by auto. apply big_ext. intros c Hc'. cbn [ind negb skip existsb].
    destruct (HT c Hc') as [L1 G1]. assert (0 <= Z.of_nat c * period <= period * (steps - 1)).
    { split; [nia|]. rewrite Z.mul_comm. apply Z.mul_le_mono_nonneg_l; lia. }
    rewrite get_bound by (rewrite L1; lia). rewrite G1 by lia.
    rewrite get_bound by (rewrite Lc; lia). rewrite Hc by lia. rewrite !Z2Nat.id by lia.
    rewrite (Z.mul_comm period). reflexivity.
Qed.
Theorem C31_secret_lhs : forall (K : cring) (A B : Z -> Z -> K) m n p ct pt N,
  1 <= m -> 1 <= n -> 1 <= p -> Z.gcd m n = 1 -> m * p + m * (n - 1) <= Z.of_nat N ->
  holds K ct N (fun k => A (k mod m) (k mod n)) ->
  Z.of_nat (length pt) = n ->
  (forall c, (c < length pt)%nat -> holds K (nth c pt []) N (fun s => B ((s + Z.of_nat c * m) mod n) (s mod p))) ->
  exists out, bicyclic_diagonal_kernel K ct pt m n (m * p) = Some out /\
    holds K out N (fun s => entry K n A B (s mod m) (s mod p)).
Proof.
  intros K A B m n p ct pt N Hm Hn Hp G HN Hct Lp Hpt.
  apply (diagonal_kernel K (fun _ s => entry K n A B (s mod m) (s mod p))
    (fun c s => B ((s + c * m) mod n) (s mod p)) (fun k => A (k mod m) (k mod n))); auto; try nia.
  - intros r Hr. destruct (In_nth pt r [] Hr) as (i & Hi & <-). apply Hpt. lia.
  - intros c Hc. apply Hpt. lia.
  - intros s. rewrite !mod_of_mod by (try nia; (exists p; ring) || (exists m; ring)). reflexivity.
  - intros s H1 H2. unfold entry.
    etransitivity; [|exact (big_stride (radd K) (r0 K) (Kaddc K) (Kadda K) (Kadd0 K) (Z.to_nat n)
      (fun j => rmul K (A (s mod m) j) (B j (s mod p))) s m ltac:(lia) ltac:(rewrite Z2Nat.id; lia))].
    apply big_ext. intros c Hc. rewrite Z2Nat.id by lia.
    rewrite Z.mod_add by lia. rewrite (Z.mul_comm (Z.of_nat c)). apply Kmulc.
Qed.
Print Assumptions C31_secret_lhs.
Theorem C31_secret_rhs : forall (K : cring) (A B : Z -> Z -> K) m n p ct pt N,
  1 <= m -> 1 <= n -> 1 <= p -> Z.gcd p n = 1 -> m * p + p * (n - 1) <= Z.of_nat N ->
  holds K ct N (fun k => B (k mod n) (k mod p)) ->
  Z.of_nat (length pt) = n ->
  (forall c, (c < length pt)%nat -> holds K (nth c pt []) N (fun s => A (s mod m) ((s + Z.of_nat c * p) mod n))) ->
  exists out, bicyclic_diagonal_kernel K ct pt p n (m * p) = Some out /\
    holds K out N (fun s => entry K n A B (s mod m) (s mod p)).
Proof.
  intros K A B m n p ct pt N Hm Hn Hp G HN Hct Lp Hpt.
  apply (diagonal_kernel K (fun _ s => entry K n A B (s mod m) (s mod p))
    (fun c s => A (s mod m) ((s + c * p) mod n)) (fun k => B (k mod n) (k mod p))); auto; try nia.
  - intros r Hr. destruct (In_nth pt r [] Hr) as (i & Hi & <-). apply Hpt. lia.
  - intros c Hc. apply Hpt. lia.
  - intros s. rewrite !mod_of_mod by (try nia; (exists p; ring) || (exists m; ring)). reflexivity.
  - intros s H1 H2. unfold entry.
    etransitivity; [|exact (big_stride (radd K) (r0 K) (Kaddc K) (Kadda K) (Kadd0 K) (Z.to_nat n)
      (fun j => rmul K (A (s mod m) j) (B j (s mod p))) s p ltac:(lia) ltac:(rewrite Z2Nat.id; lia))].
    apply big_ext. intros c Hc. rewrite Z2Nat.id by lia.
    rewrite Z.mod_add by lia. rewrite (Z.mul_comm (Z.of_nat c)). reflexivity.
Qed.
Print Assumptions C31_secret_rhs.
(** The replication matters: with 16 slots and no replication a slot past the
    valid prefix does not hold an entry of the product. And there must be
    room for one period: the layout pass only checks coprimality. *)
Definition cyc_a (m n N : nat) := map (fun k => Z.of_nat (10 * (k mod m) + k mod n + 1)) (seq 0 N).
Theorem C31_unreplicated_refuted : exists m n p N d out s, Z.gcd m n = 1 /\ Z.gcd p n = 1 /\ Z.gcd m p = 1 /\
  let A i j := 10 * i + j + 1 in
  let a := cyc_a 2 3 N in let b := cyc_a 3 5 N in
  holds Zcring a N (fun k => A (k mod m) (k mod n)) /\ holds Zcring b N (fun k => A (k mod n) (k mod p)) /\
  bicyclic_matmul Zcring a b m n p = Some d /\ run Zcring d = Some out /\ (s < N)%nat /\
  nth s out 0 <> entry Zcring n A A (Z.of_nat s mod m) (Z.of_nat s mod p).
Proof.
  exists 2, 3, 5, 16%nat. do 2 eexists. exists 15%nat. cbv zeta.
  split; [reflexivity|]. split; [reflexivity|]. split; [reflexivity|].
  split. { split; [reflexivity|]. intros s Hs. do 16 (destruct s as [|s]; [reflexivity|]). lia. }
  split. { split; [reflexivity|]. intros s Hs. do 16 (destruct s as [|s]; [reflexivity|]). lia. }
  split; [reflexivity|]. split; [vm_compute; reflexivity|]. split; [lia|].
  intro H. vm_compute in H. discriminate.
Qed.
Print Assumptions C31_unreplicated_refuted.
Theorem C31_short_refuted : exists m n p N, 1 <= m /\ 1 <= n /\ 1 <= p /\
  Z.gcd m n = 1 /\ Z.gcd p n = 1 /\ Z.gcd m p = 1 /\
  m * n <= Z.of_nat N /\ n * p <= Z.of_nat N /\ m * p <= Z.of_nat N /\
  bicyclic_kernel Zcring (cyc_a 2 3 N) (cyc_a 3 5 N) m n p = None.
Proof. exists 2, 3, 5, 16%nat. repeat (split; [vm_compute; try discriminate; reflexivity|]). vm_compute. reflexivity. Qed.
Print Assumptions C31_short_refuted.
Example C31_nonvacuous :
  let A i j := 10 * i + j + 1 in
  holds Zcring (cyc_a 2 3 32) 32 (fun k => A (k mod 2) (k mod 3)) /\
  holds Zcring (cyc_a 3 5 32) 32 (fun k => A (k mod 3) (k mod 5)) /\
  2 * 5 + (3 * 5 - 1 + 2 * (3 - 1)) <= 32 /\
  match bicyclic_kernel Zcring (cyc_a 2 3 32) (cyc_a 3 5 32) 2 3 5 with
  | Some out => firstn 10 out = map (fun s => entry Zcring 3 A A (s mod 2) (s mod 5)) [0; 1; 2; 3; 4; 5; 6; 7; 8; 9]
                /\ nth 0 out 0 = 1 * 1 + 2 * 11 + 3 * 21
  | None => False
  end.
Proof.
  cbv zeta. split. { split; [reflexivity|]. intros s Hs. do 32 (destruct s as [|s]; [reflexivity|]). lia. }
  split. { split; [reflexivity|]. intros s Hs. do 32 (destruct s as [|s]; [reflexivity|]). lia. }
  split; [lia|]. vm_compute. split; reflexivity.
Qed.
Example C31_tricyclic_nonvacuous :
  let A k := k mod 2 * 100 + k mod 3 * 10 + k mod 5 + 1 in
  let B k := k mod 2 * 100 + k mod 5 * 10 + k mod 7 + 1 in
  let v f := map (fun k => f (Z.of_nat k)) (seq 0 160) in
  match tricyclic_kernel Zcring (v A) (v B) 2 3 5 7 with
  | Some out => nth 1 out 0 = 111 * 102 + 112 * 112 + 113 * 122 + 114 * 132 + 115 * 142
  | None => False
  end.
Proof. vm_compute. reflexivity. Qed.

(** ** C54. Broadcasting reduction: every slot of a block of [steps * period]
    slots receives the sum of its residue class in the block. *)
Theorem C54_broadcasted_reduce_partial : forall (K : cring) (v maskv : list K) k p,
  (0 < length v)%nat -> 1 <= p -> Z.of_nat k < 63 ->
  let b := 2 ^ Z.of_nat k * p in
  (b | Z.of_nat (length v)) ->
  holds K maskv (length v) (fun s => if (s mod b) / p =? 2 ^ Z.of_nat k - 1 then r1 K else r0 K) ->
  exists out, run K (broadcasted_reduce K (Leaf K (VVec K v)) (Some (Leaf K (VVec K maskv))) p
                       (2 ^ Z.of_nat k) (Z.of_nat (length v)) false) = Some out /\
    holds K out (length v) (fun s => rsum K (2 ^ k) (fun j =>
      slot K v (s / b * b + Z.of_nat j * p + s mod p))).
Proof.
  intros K v maskv k p Hv Hp Hk b HD [Lm Hm].
  destruct (broadcasted_reduce_ok K (no_vars K) v maskv (Some (Leaf K (VVec K maskv))) k p (length v)) as (f & Df & Hf); auto.
  { right. split; auto. split; auto. intros s Hs. rewrite Hm by lia. rewrite Z2Nat.id by lia. reflexivity. }
  eexists. split; [apply den_run; exact Df|]. apply holds_map. intros s Hs. rewrite Hf by auto.
  unfold block_sum. fold b. replace (Z.to_nat (2 ^ Z.of_nat k)) with (2 ^ k)%nat; [reflexivity|].
  apply Nat2Z.inj. rewrite Z2Nat.id, Nat2Z.inj_pow by (apply Z.pow_nonneg; lia). reflexivity.
Qed.
Print Assumptions C54_broadcasted_reduce_partial.
(** With a product the masked slots are zero, and so is everything after the
    first multiplication with them. *)
Theorem C54_product_refuted : exists (v maskv : list Z) out, length v = 8%nat /\
  holds Zcring maskv 8 (fun s => if (s mod 4) / 1 =? 3 then 1 else 0) /\
  run Zcring (broadcasted_reduce Zcring (Leaf Zcring (VVec Zcring v)) (Some (Leaf Zcring (VVec Zcring maskv))) 1 4 8 true) = Some out /\
  nth 0 out 0 = 0 /\ rprod Zcring 4 (fun j => slot Zcring v (Z.of_nat j)) = 24.
Proof.
  exists [1; 2; 3; 4; 5; 6; 7; 8], [0; 0; 0; 1; 0; 0; 0; 1]. eexists.
  split; [reflexivity|]. split. { split; [reflexivity|]. intros s Hs. do 8 (destruct s as [|s]; [reflexivity|]). lia. }
  split; [vm_compute; reflexivity|]. split; reflexivity.
Qed.
Print Assumptions C54_product_refuted.
Example C54_nonvacuous :
  holds Zcring [0; 0; 0; 1; 0; 0; 0; 1] 8 (fun s => if (s mod 4) / 1 =? 3 then 1 else 0) /\
  run Zcring (broadcasted_reduce Zcring (Leaf Zcring (VVec Zcring [1; 2; 3; 4; 5; 6; 7; 8]))
     (Some (Leaf Zcring (VVec Zcring [0; 0; 0; 1; 0; 0; 0; 1]))) 1 4 8 false) = Some [10; 10; 10; 10; 26; 26; 26; 26].
Proof.
  split; [|vm_compute; reflexivity]. split; [reflexivity|].
  intros s Hs. do 8 (destruct s as [|s]; [reflexivity|]). lia.
Qed.
