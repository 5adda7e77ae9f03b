(** C32: the rotation indices announced for key generation cover the rotations
    performed. *)
From Coq Require Import ZArith List Bool Lia.
From Verif Require Import Words NumTheory_Model Kernel_Model Kernel_Spec Kernel_Proofs RotIdx_Model RotIdx_Proofs.
Import ListNotations.
Open Scope Z_scope.

(** Every rotation of a ciphertext by a non-zero amount, in the unrolled and
    the rolled kernel, uses an announced index. *)
Theorem C32_rotate_and_reduce : forall (K : cring) (v : list K) plaintexts period steps diag (mul unroll : bool) d,
  1 <= steps < 2 ^ 63 ->
  rotate_and_reduce K v plaintexts period steps diag mul unroll = Some d ->
  exists keys, reduce_indices period steps (match plaintexts with Some _ => true | None => false end) = Some keys /\
    forall k, In k (performed K d) -> k = 0 \/ In k keys.
Proof.
  intros K v plaintexts period steps diag mul unroll d Hs H. unfold rotate_and_reduce in H.
  destruct plaintexts as [p|].
  - destruct mul; [discriminate|].
    destruct (reduce_indices period steps true) as [keys|] eqn:E.
    2:{ unfold reduce_indices in E. cbn [negb] in E. destruct (Z.eqb_spec (baby_steps steps) 0) as [Z0|]; [|discriminate].
        unfold baby_steps in Z0. pose proof (proj2 (Z.sqrt_up_pos steps) ltac:(lia)). lia. }
    exists keys. split; auto. pose proof (reduce_indices_bsgs _ _ _ E) as M.
    intros k Hk.
    assert (Hi : forall i, 1 <= i < baby_steps steps -> period * i = 0 \/ In (period * i) keys).
    { intros i Hi. right. apply M. left. eauto. }
    assert (Hj : forall j, 1 <= j < giant_steps steps -> period * j * baby_steps steps = 0 \/ In (period * j * baby_steps steps) keys).
    { intros j Hj. right. apply M. right. eauto. }
    destruct unroll.
    + apply (rots_bsgs_plain K (fun k => k = 0 \/ In k keys)) with (e := no_vars K) (k := k) in H; auto; intros ? [].
    + eapply (rots_bsgs_rolled K (fun k => k = 0 \/ In k keys)) in H; eauto; intros ? ? [].
  - destruct (reduce_indices period steps false) as [keys|] eqn:E; [|discriminate].
    exists keys. split; auto. pose proof (reduce_indices_log _ _ _ E) as M. intros k Hk.
    assert (Hx : forall x, In x (shift_sizes steps) -> x * period = 0 \/ In (x * period) keys).
    { intros x Hx. right. apply M. eauto. }
    destruct unroll.
    + injection H as <-. unfold accumulate in Hk.
      apply (rots_fold K (fun k => k = 0 \/ In k keys)) in Hk; auto. intros ? [].
    + eapply (rots_accumulate_rolled K (fun k => k = 0 \/ In k keys)) in H; eauto; [lia|]. intros ? [].
Qed.
Print Assumptions C32_rotate_and_reduce.
Example C32_nonvacuous :
  (match rotate_and_reduce Zcring [1; 2; 3; 4; 5; 6; 7; 8] None 1 6 [] false false with
   | Some d => performed Zcring d = [3; 1] | None => False end) /\
  reduce_indices 1 6 false = Some [1; 3] /\
  (match rotate_and_reduce Zcring [1; 10; 100; 1000] (Some [[1; 1; 1; 1]; [0; 0; 0; 0]; [2; 0; 1; 0]; [0; 0; 0; 5]; [3; 3; 3; 3]])
          1 5 [] false true with
   | Some d => performed Zcring d = [1; 2; 0; 1; 3] | None => False end) /\
  reduce_indices 1 5 true = Some [3; 2; 1].
Proof. repeat split. Qed.

(** A linear transform with baby steps below n1 writes every diagonal as a
    multiple of n1 plus a baby step; both rotations are announced, and the
    chosen n1 is positive, so that there is no division by zero. *)
Theorem C32_linear_transform : forall diags slots log_bsgs,
  0 < slots < 2 ^ 63 -> log_bsgs <= 62 ->
  exists n1 keys, 1 <= n1 /\
    (log_bsgs < 0 -> n1 = slots) /\ (0 <= log_bsgs -> find_best_ratio diags slots log_bsgs = Some n1) /\
    lintrans_indices diags slots log_bsgs = Some keys /\
    (forall k, In k keys -> 0 < k < slots) /\
    forall d, In d diags -> exists giant baby,
      (n1 | giant) /\ 0 <= baby < n1 /\ giant + baby = d mod slots /\
      (giant = 0 \/ In giant keys) /\ (baby = 0 \/ In baby keys).
Proof.
  intros diags slots lg Hs Hl.
  assert (exists n1, 1 <= n1 /\ (lg < 0 -> n1 = slots) /\ (0 <= lg -> find_best_ratio diags slots lg = Some n1) /\
    (if lg <? 0 then Some slots else find_best_ratio diags slots lg) = Some n1) as (n1 & H1 & H2 & H3 & H4).
  { destruct (Z.ltb_spec lg 0).
    - exists slots. repeat split; try lia.
    - destruct (best_ratio_ok 64 diags slots (2 ^ lg) 0) as (u & Hu & E); try lia.
      exists (2 ^ u). assert (0 < 2 ^ u) by (apply Z.pow_pos_nonneg; lia).
      repeat split; try lia; auto. }
  exists n1. unfold lintrans_indices. rewrite H4. cbn [bind]. destruct (Z.eqb_spec n1 0); [lia|].
  eexists. split; auto. split; auto. split; auto. split; [reflexivity|].
  pose proof (fun k => lintrans_sets n1 slots diags k H1 (proj1 Hs)) as M. split.
  - intros k Hk. apply M in Hk. destruct Hk as (H0 & rot & _ & Hk).
    destruct (giant_baby n1 slots rot H1 (proj1 Hs)) as (B1 & B2 & (q & B3) & B4).
    pose proof (Z.mod_pos_bound rot slots (proj1 Hs)). destruct Hk; subst; nia.
  - intros d Hd. destruct (giant_baby n1 slots d H1 (proj1 Hs)) as (B1 & B2 & B3 & B4).
    exists (giant_of n1 slots d), (baby_of n1 slots d). repeat (split; auto; try lia).
    + destruct (Z.eq_dec (giant_of n1 slots d) 0); auto. right. apply M. eauto.
    + destruct (Z.eq_dec (baby_of n1 slots d) 0); auto. right. apply M. eauto.
Qed.
Print Assumptions C32_linear_transform.
Example C32_lintrans_nonvacuous :
  find_best_ratio [0; 1; 2; 3; 5; -2; 13] 16 1 = Some 4 /\
  lintrans_indices [0; 1; 2; 3; 5; -2; 13] 16 1 = Some [12; 4; 3; 2; 1].
Proof. split; vm_compute; reflexivity. Qed.
