(** Proofs about the matrix kernels: Halevi-Shoup, bicyclic, tricyclic, and
    the broadcasting reduction. *)
From Coq Require Import ZArith List Bool Lia Arith Ring Ring_theory Znumtheory.
From Verif Require Import Words NumTheory_Model NumTheory_Proofs Sums Kernel_Model Kernel_Proofs KernelBsgs_Proofs.
Import ListNotations.
Open Scope Z_scope.

Section Reindex.
Context {A : Type} (op : A -> A -> A) (e : A).
Hypothesis op_comm : forall x y, op x y = op y x.
Hypothesis op_assoc : forall x y z, op x (op y z) = op (op x y) z.
Hypothesis op_e : forall x, op e x = x.
(** multiplying the index by a unit modulo n permutes the terms *)
Lemma big_stride n (h : Z -> A) s m : (0 < n)%nat -> Z.gcd m (Z.of_nat n) = 1 ->
  big op e n (fun c => h ((s + m * Z.of_nat c) mod Z.of_nat n)) = big op e n (fun k => h (Z.of_nat k)).
Proof.
  intros Hn Hg. set (N := Z.of_nat n) in *. assert (HN : 0 < N) by (unfold N; lia).
  transitivity (big op e n (fun c => big op e n (fun k =>
     if Z.eqb (Z.of_nat k) ((s + m * Z.of_nat c) mod N) then h (Z.of_nat k) else e))).
  - apply big_ext. intros c Hc. set (t := (s + m * Z.of_nat c) mod N).
    assert (B : 0 <= t < N) by (apply Z.mod_pos_bound; lia).
    rewrite (big_single op e op_comm op_e n _ (Z.to_nat t)).
    + rewrite Z2Nat.id by lia. rewrite Z.eqb_refl. auto.
    + unfold N in B. lia.
    + intros i Hi Hne. destruct (Z.eqb_spec (Z.of_nat i) t); auto. lia.
  - rewrite big_swap by auto. apply big_ext. intros k Hk.
    destruct (rel_prime_bezout m N) as [u v Huv]. { apply Zgcd_1_rel_prime. auto. }
    set (c := ((Z.of_nat k - s) * u) mod N).
    assert (B : 0 <= c < N) by (apply Z.mod_pos_bound; lia).
    assert (Hc : (s + m * c) mod N = Z.of_nat k).
    { unfold c. rewrite Zplus_mod, Zmult_mod_idemp_r, <- Zplus_mod.
      replace (s + m * ((Z.of_nat k - s) * u)) with (Z.of_nat k + (- (Z.of_nat k - s) * v) * N)
        by (replace (m * ((Z.of_nat k - s) * u)) with ((Z.of_nat k - s) * (u * m)) by ring;
            replace (u * m) with (1 - v * N) by lia; ring).
      rewrite Z.mod_add by lia. apply Z.mod_small. unfold N. lia. }
    rewrite (big_single op e op_comm op_e n _ (Z.to_nat c)).
    + rewrite Z2Nat.id by lia. rewrite Hc, Z.eqb_refl. auto.
    + unfold N in B. lia.
    + intros i Hi Hne. destruct (Z.eqb_spec (Z.of_nat k) ((s + m * Z.of_nat i) mod N)) as [E|]; auto.
      exfalso. apply Hne. rewrite <- Hc in E.
      assert (D : (N | m * (Z.of_nat i - c))).
      { apply Z.mod_divide; [lia|]. replace (m * (Z.of_nat i - c)) with ((s + m * Z.of_nat i) - (s + m * c)) by ring.
        rewrite Zminus_mod, <- E, Z.sub_diag. apply Z.mod_0_l. lia. }
      apply Gauss in D; [|apply rel_prime_sym, Zgcd_1_rel_prime; auto].
      destruct D as [q Hq]. assert (-N < q * N < N) by (unfold N in *; lia).
      assert (q = 0) by nia. nia.
Qed.
End Reindex.

Section Kernels.
Variable K : cring.
Notation R := (car K).
Add Ring Kring : (r_ok K).
Local Notation zero := (r0 K).
Local Infix "+r" := (radd K) (at level 50, left associativity).
Local Infix "*r" := (rmul K) (at level 40, left associativity).
Notation rsum := (big (radd K) (r0 K)).
Notation den := (den K).
Notation get := (get K).
Local Hint Resolve Kaddc Kadda Kadd0 : core.

Lemma get_bound v i : 0 <= i < Z.of_nat (length v) -> get v i = nth (Z.to_nat i) v zero.
Proof. intros H. unfold Kernel_Proofs.get. rewrite Z.mod_small; auto. Qed.

(** ** Summing partial sums *)
Lemma shift_loop_acc la lb f s : (la <= lb)%nat ->
  acc_sem K false 1 (shift_loop (lb - la) (2 ^ Z.of_nat lb / 2)) f s =
  rsum (2 ^ (lb - la)) (fun j => f (s + Z.of_nat j * 2 ^ Z.of_nat la)).
Proof.
  intros H. remember (lb - la)%nat as k eqn:Ek. replace lb with (la + k)%nat by lia. clear H Ek lb.
  revert f s. induction k; intros f s.
  - cbn. rewrite Kadd0. f_equal. lia.
  - unfold shift_loop. cbn [seq map]. rewrite <- seq_shift, map_map.
    assert (Q : 2 ^ Z.of_nat (la + S k) / 2 = 2 ^ Z.of_nat (la + k)).
    { replace (Z.of_nat (la + S k)) with (Z.of_nat (la + k) + 1) by lia. rewrite Z.pow_add_r by lia.
      change (2 ^ 1) with 2. apply Z.div_mul. lia. }
    rewrite Q. change (2 ^ Z.of_nat 0) with 1. rewrite Z.quot_1_r.
    assert (P0 : 0 < 2 ^ Z.of_nat (la + k)) by (apply Z.pow_pos_nonneg; lia).
    replace (map (fun x => 2 ^ Z.of_nat (la + k) ÷ 2 ^ Z.of_nat (S x)) (seq 0 k))
      with (shift_loop k (2 ^ Z.of_nat (la + k) / 2)).
    2:{ unfold shift_loop. apply map_ext_in. intros x Hx. apply in_seq in Hx.
        rewrite Nat2Z.inj_succ, Z.pow_succ_r by lia.
        assert (0 < 2 ^ Z.of_nat x) by (apply Z.pow_pos_nonneg; lia).
        assert (0 <= 2 ^ Z.of_nat (la + k) / 2) by (apply Z.div_pos; lia).
        rewrite (Z.quot_div_nonneg (2 ^ Z.of_nat (la + k) / 2)) by lia.
        rewrite (Z.quot_div_nonneg (2 ^ Z.of_nat (la + k))) by lia.
        apply Zdiv_Zdiv; lia. }
    unfold acc_sem. cbn [fold_left]. fold (acc_sem K false 1 (shift_loop k (2 ^ Z.of_nat (la + k) / 2))
       (fun i => op_of K false (f i) (f (i + 2 ^ Z.of_nat (la + k) * 1)))).
    rewrite IHk. cbn [op_of]. rewrite big_op by auto.
    replace (2 ^ S k)%nat with (2 ^ k + 2 ^ k)%nat by (cbn; lia).
    rewrite big_split by auto. f_equal. apply big_ext. intros j Hj. f_equal.
    rewrite (Nat2Z.inj_add (2 ^ k)), Nat2Z.inj_pow. change (Z.of_nat 2) with 2.
    rewrite Nat2Z.inj_add, Z.pow_add_r by lia. ring.
Qed.

Lemma acc_rotate_by1 l (x : node K) :
  fold_left (fun acc s => Add K acc (rotate_by K acc s)) l x =
  fold_left (fun acc s => node_of K false acc (rotate_by K acc (s * 1))) l x.
Proof.
  revert x. induction l; intros x; cbn [fold_left]; auto. rewrite Z.mul_1_r. apply IHl.
Qed.

Section HaleviShoup.
Variables (la lb N : nat) (rows cols : Z) (M : Z -> Z -> R) (x : Z -> R)
  (vec : list R) (mat : list (list R)) (diag : list (Z * bool)).
Let pr := 2 ^ Z.of_nat la.
Let pc := 2 ^ Z.of_nat lb.
Hypothesis pr_ok : next_power_of_two rows = pr.
Hypothesis pc_ok : next_power_of_two cols = pc.
Hypothesis N_pos : (0 < N)%nat.
Hypothesis pr_N : (pr | Z.of_nat N).
Hypothesis pc_N : (pc | Z.of_nat N).
Hypothesis len_mat : Z.of_nat (length mat) = Z.min pr pc.
Hypothesis rows_mat : forall r, In r mat -> length r = N.
Hypothesis vec_len : length vec = N.
(** the padded matrix and vector *)
Hypothesis mat_ok : forall k s, 0 <= k < Z.min pr pc -> 0 <= s < Z.of_nat N ->
  nth (Z.to_nat s) (nth (Z.to_nat k) mat []) zero = M (s mod pr) ((k + s) mod pc).
Hypothesis vec_ok : forall s, 0 <= s < Z.of_nat N -> nth (Z.to_nat s) vec zero = x (s mod pc).

Lemma pr_pos : 0 < pr. Proof. apply Z.pow_pos_nonneg; lia. Qed.
Lemma pc_pos : 0 < pc. Proof. apply Z.pow_pos_nonneg; lia. Qed.
Lemma mod_mod_divide i d : 0 < d -> (d | Z.of_nat N) -> (i mod Z.of_nat N) mod d = i mod d.
Proof. intros Hd [q Hq]. rewrite Hq. assert (0 < q) by nia. rewrite Z.mul_comm, Z.rem_mul_r by lia.
  rewrite Z.mul_comm, Z.mod_add by lia. apply Z.mod_mod. lia. Qed.
Lemma get_mat k i : 0 <= k < Z.min pr pc -> get (nth (Z.to_nat k) mat []) i = M (i mod pr) ((k + i) mod pc).
Proof.
  intros Hk. pose proof pr_pos. pose proof pc_pos.
  assert (L : length (nth (Z.to_nat k) mat []) = N) by (apply rows_mat, nth_In; lia).
  assert (B : 0 <= i mod Z.of_nat N < Z.of_nat N) by (apply Z.mod_pos_bound; lia).
  rewrite <- (get_mod K _ i N L). rewrite get_bound by (rewrite L; auto). rewrite mat_ok by auto.
  rewrite mod_mod_divide by auto. f_equal.
  rewrite (Zplus_mod k), mod_mod_divide, <- Zplus_mod by auto. auto.
Qed.
Lemma get_vec i : get vec i = x (i mod pc).
Proof.
  pose proof pc_pos.
  assert (B : 0 <= i mod Z.of_nat N < Z.of_nat N) by (apply Z.mod_pos_bound; lia).
  rewrite <- (get_mod K _ i N vec_len). rewrite get_bound by (rewrite vec_len; auto). rewrite vec_ok by auto.
  rewrite mod_mod_divide by auto. auto.
Qed.

(** skipped rows are zero rows *)
Variable skip : Z -> bool.
Hypothesis skip_ok : forall k, 0 <= k < Z.min pr pc -> skip k = true -> forall i, get (nth (Z.to_nat k) mat []) i = zero.

Let prod s c := M (s mod pr) c *r x c.
Lemma base_sum s : ipt_sum K (get vec) mat 1 (Z.min pr pc) skip s =
  rsum (Z.to_nat (Z.min pr pc)) (fun k => prod s ((s + Z.of_nat k) mod pc)).
Proof.
  unfold ipt_sum. apply big_ext. intros k Hk.
  pose proof (get_mat (Z.of_nat k) s ltac:(lia)) as G. rewrite Nat2Z.id in G.
  rewrite get_vec. unfold prod. rewrite Z.mul_1_l. replace (s + Z.of_nat k) with (Z.of_nat k + s) by lia.
  destruct (skip (Z.of_nat k)) eqn:E; cbn [negb ind]; [|rewrite G; auto].
  pose proof (skip_ok (Z.of_nat k) ltac:(lia) E s) as Z0. rewrite Nat2Z.id in Z0. rewrite <- G, Z0. ring.
Qed.
Lemma full_sum s :
  (if pr <? pc then rsum (2 ^ (lb - la)) (fun j => ipt_sum K (get vec) mat 1 (Z.min pr pc) skip (s + Z.of_nat j * pr))
   else ipt_sum K (get vec) mat 1 (Z.min pr pc) skip s)
  = rsum (Z.to_nat pc) (fun c => prod s (Z.of_nat c)).
Proof.
  pose proof pr_pos. pose proof pc_pos.
  rewrite <- (big_shift (radd K) zero (Kaddc K) (Kadda K) (Kadd0 K) (Z.to_nat pc) (fun c => prod s c) s) by lia.
  rewrite Z2Nat.id by lia.
  destruct (Z.ltb_spec pr pc) as [Hlt|Hge].
  - assert (Hl : (la <= lb)%nat).
    { destruct (Nat.le_gt_cases la lb); auto. assert (pc <= pr) by (apply Z.pow_le_mono_r; lia). lia. }
    rewrite Z.min_l by lia.
    replace (Z.to_nat pc) with (2 ^ (lb - la) * Z.to_nat pr)%nat.
    2:{ apply Nat2Z.inj. rewrite Nat2Z.inj_mul, Nat2Z.inj_pow, !Z2Nat.id by lia. unfold pr, pc.
        change (Z.of_nat 2) with 2. rewrite <- Z.pow_add_r by lia. f_equal. lia. }
    rewrite big_prod by auto. apply big_ext. intros j Hj.
    rewrite <- (Z.min_l pr pc) at 1 by lia. rewrite base_sum. rewrite Z.min_l by lia.
    apply big_ext. intros k Hk. unfold prod. rewrite Z.mod_add by lia.
    replace (Z.of_nat (j * Z.to_nat pr + k)) with (Z.of_nat j * pr + Z.of_nat k) by lia.
    replace (s + (Z.of_nat j * pr + Z.of_nat k)) with (s + Z.of_nat j * pr + Z.of_nat k) by lia. reflexivity.
  - rewrite Z.min_r by lia. rewrite <- (Z.min_r pr pc) at 1 by lia. rewrite base_sum, Z.min_r by lia. reflexivity.
Qed.

Lemma shift_loop_nth i cnt s : (i < cnt)%nat -> nth i (shift_loop cnt s) 0 = Z.quot s (2 ^ Z.of_nat i).
Proof. intros. unfold shift_loop. rewrite nth_map_seq by auto. reflexivity. Qed.

Lemma den_post e base f : (forall e, den e base N f) ->
  let shifts := Z.of_nat lb - Z.of_nat la in
  den e (fold_left (fun acc s => Add K acc (rotate_by K acc s)) (shift_loop (Z.to_nat shifts) (pc ÷ 2)) base) N
    (fun s => if pr <? pc then rsum (2 ^ (lb - la)) (fun j => f (s + Z.of_nat j * pr)) else f s).
Proof.
  intros Hb shifts. rewrite acc_rotate_by1. eapply den_ext; [apply den_acc; auto|]. intros s. cbn beta.
  pose proof pc_pos. rewrite Z.quot_div_nonneg by lia.
  destruct (Z.ltb_spec pr pc) as [Hlt|Hge].
  - assert (Hl : (la <= lb)%nat).
    { destruct (Nat.le_gt_cases la lb); auto. assert (pc <= pr) by (apply Z.pow_le_mono_r; lia). lia. }
    replace (Z.to_nat shifts) with (lb - la)%nat by (unfold shifts; lia). unfold pc, pr. apply shift_loop_acc. auto.
  - assert (Hl : (lb <= la)%nat).
    { destruct (Nat.le_gt_cases lb la); auto. assert (pr < pc) by (apply Z.pow_lt_mono_r; lia). lia. }
    replace (Z.to_nat shifts) with 0%nat by (unfold shifts; lia). reflexivity.
Qed.

Lemma den_post_rolled e base f : (forall e, den e base N f) ->
  let shifts := Z.of_nat lb - Z.of_nat la in
  den e (ResultAt K (ForLoop K 7 [8%nat; 9%nat] [base; Const K (Z.quot pc 2)] 0 shifts
       (Yield K [Add K (Var K 8) (Rotate K (Var K 8) (Var K 9)); FloorDiv K (Var K 9) 2])) 0) N
    (fun s => if pr <? pc then rsum (2 ^ (lb - la)) (fun j => f (s + Z.of_nat j * pr)) else f s).
Proof.
  intros Hb shifts. pose proof pc_pos. pose proof pr_pos.
  destruct (Hb e) as (w0 & E0 & L0 & G0).
  destruct (Z.ltb_spec pr pc) as [Hlt|Hge].
  - assert (Hl : (la < lb)%nat).
    { destruct (Nat.lt_ge_cases la lb); auto. assert (pc <= pr) by (apply Z.pow_le_mono_r; lia). lia. }
    set (l := shift_loop (lb - la) (pc / 2)).
    assert (Ll : length l = (lb - la)%nat) by (unfold l, shift_loop; rewrite map_length, seq_length; auto).
    destruct (eval_for_loop K e 7 [8%nat; 9%nat] [base; Const K (Z.quot pc 2)] 0 shifts
       (Yield K [Add K (Var K 8) (Rotate K (Var K 8) (Var K 9)); FloorDiv K (Var K 9) 2])
       [VVec K w0; VInt K (pc / 2)]
       (fun i us => exists w, us = [VVec K w; VInt K (pc / 2 ^ (i + 1))] /\ length w = N /\
          forall s, get w s = acc_sem K false 1 (firstn (Z.to_nat i) l) f s)) as (us & E & w & -> & L & G).
    + cbn [evals]. rewrite E0. rewrite Z.quot_div_nonneg by lia. reflexivity.
    + unfold shifts. lia.
    + exists w0. change (2 ^ (0 + 1)) with 2. auto.
    + intros i us Hi (w & -> & L & G).
      set (sh := pc / 2 ^ (i + 1)).
      assert (Hsh : 1 <= sh).
      { apply Z.div_le_lower_bound; [apply Z.pow_pos_nonneg; lia|]. rewrite Z.mul_1_r.
        apply Z.pow_le_mono_r; unfold shifts in Hi; lia. }
      set (e' := bind_var K (bind_var K (bind_var K e 7 (VInt K i)) 9 (VInt K sh)) 8 (VVec K w)).
      assert (D : den e' (Add K (Var K 8) (Rotate K (Var K 8) (Var K 9))) N (fun s => get w s +r get w (s + sh))).
      { assert (V : den e' (Var K 8) N (get w)) by (eapply den_var; [reflexivity|auto|auto]).
        apply den_add; auto. apply den_rotate; auto. }
      destruct D as (w' & Ew' & Lw' & Gw').
      exists e', [VVec K w'; VInt K (pc / 2 ^ (i + 1 + 1))]. split; [reflexivity|]. split.
      * set (y := Add K (Var K 8) _) in *.
        change (eval K e' (Yield K [y; FloorDiv K (Var K 9) 2])) with
          (a <- single K (eval K e' y) ;;
           r <- (c <- single K (r <- floor_div K (VInt K sh) 2 ;; Some [r]) ;; Some [c]) ;; Some (a :: r)).
        rewrite Ew'. cbn [single bind floor_div].
        destruct (Z.eqb_spec sh 0); [lia|]. rewrite Z.quot_div_nonneg by lia. cbn [bind single].
        unfold sh. rewrite Zdiv_Zdiv by (try lia; apply Z.pow_nonneg; lia).
        rewrite (Z.pow_add_r 2 (i + 1) 1) by lia. reflexivity.
      * exists w'. split; auto. split; auto. intros s. rewrite Gw'.
        replace (Z.to_nat (i + 1)) with (S (Z.to_nat i)) by lia.
        rewrite (map_firstn_S l _ 0) by (unfold shifts in Hi; lia). rewrite acc_sem_app. cbn [acc_sem fold_left op_of].
        rewrite !G. do 3 f_equal. unfold l. rewrite shift_loop_nth by (unfold shifts in Hi; lia).
        rewrite Z2Nat.id, Z.mul_1_r by lia. unfold sh.
        assert (0 < 2 ^ i) by (apply Z.pow_pos_nonneg; lia).
        assert (0 <= pc / 2) by (apply Z.div_pos; lia).
        rewrite Z.quot_div_nonneg by lia. rewrite Zdiv_Zdiv by lia. f_equal.
        rewrite Z.pow_add_r by lia. change (2 ^ 1) with 2. lia.
    + exists w. split; [|split; auto].
      * change (eval K e (ResultAt K ?x 0)) with (vs <- eval K e x ;; a <- nth_error vs 0 ;; Some [a]).
        rewrite E. reflexivity.
      * intros s. rewrite G. rewrite firstn_all2 by (unfold shifts; lia). unfold l, pc, pr. apply shift_loop_acc. lia.
  - assert (Hl : (lb <= la)%nat).
    { destruct (Nat.le_gt_cases lb la); auto. assert (pr < pc) by (apply Z.pow_lt_mono_r; lia). lia. }
    exists w0. split; [|auto]. cbn [eval]. rewrite E0. cbn [single bind].
    replace (Z.to_nat (shifts - 0)) with 0%nat by (unfold shifts; lia). reflexivity.
Qed.

Lemma halevi_shoup_ok e (unroll : bool) :
  skip = (if unroll then fun k => existsb (fun d => fst d =? k) diag else rskip diag) ->
  exists d, halevi_shoup K vec mat rows cols diag unroll = Some d /\
  den e d N (fun s => rsum (Z.to_nat pc) (fun c => prod s (Z.of_nat c))).
Proof.
  intros Hskip. pose proof pr_pos. pose proof pc_pos.
  assert (Hbase : exists base, rotate_and_reduce K vec (Some mat) 1 (Z.of_nat (length mat)) diag false unroll = Some base /\
     forall e, den e base N (ipt_sum K (get vec) mat 1 (Z.min pr pc) skip)).
  { unfold rotate_and_reduce. rewrite len_mat, vec_len.
    pose proof (baby_steps_pos (Z.min pr pc) ltac:(lia)).
    assert (DV : forall e, den e (Leaf K (VVec K vec)) N (get vec)) by (intros; rewrite <- vec_len; apply den_leaf).
    destruct unroll; subst skip.
    - destruct (bsgs K (Leaf K (VVec K vec)) (Leaf K (VMat K mat)) 1 (Z.min pr pc) N (extract_at K)
        (fun k => existsb (fun d => fst d =? k) diag) default_rotation) as [base|] eqn:E.
      + exists base. split; auto. intros e'. eapply den_bsgs_plain; eauto. lia.
      + unfold bsgs in E. destruct (Z.eqb_spec (baby_steps (Z.min pr pc)) 0); [lia|discriminate].
    - destruct (bsgs_rolled K (Leaf K (VVec K vec)) (Leaf K (VMat K mat)) 1 (Z.min pr pc) N diag) as [base|] eqn:E.
      + exists base. split; auto. intros e'. eapply den_bsgs_rolled; eauto. lia.
      + unfold bsgs_rolled in E. destruct (Z.eqb_spec (baby_steps (Z.min pr pc)) 0); [lia|discriminate]. }
  destruct Hbase as (base & Eb & Db). unfold halevi_shoup. rewrite Eb. cbn [bind]. rewrite pr_ok, pc_ok.
  pose proof full_sum as FS.
  destruct (Z.eqb_spec pr pc) as [Heq|Hne].
  - eexists. split; [reflexivity|]. eapply den_ext; [apply Db|]. intros s. specialize (FS s).
    destruct (Z.ltb_spec pr pc); [lia|]. exact FS.
  - unfold pr, pc. rewrite !Z.log2_pow2 by lia. fold pr pc. destruct unroll.
    + eexists. split; [reflexivity|]. eapply den_ext; [apply den_post; eauto|]. exact FS.
    + eexists. split; [reflexivity|]. eapply den_ext; [apply den_post_rolled; eauto|]. exact FS.
Qed.
End HaleviShoup.

(** ** Bicyclic and tricyclic products *)
Lemma sgn_wrap x : - 2 ^ 63 <= x < 2 ^ 63 -> sgn 64 (wrap 64 x) = x.
Proof.
  change (2 ^ 63) with 9223372036854775808. intros H. unfold sgn, wrap.
  change (2 ^ (64 - 1)) with 9223372036854775808. change (2 ^ 64) with 18446744073709551616.
  destruct (Z_le_gt_dec 0 x).
  - rewrite Z.mod_small by lia. destruct (Z.ltb_spec x 9223372036854775808); lia.
  - replace (x mod 18446744073709551616) with (x + 18446744073709551616).
    + destruct (Z.ltb_spec (x + 18446744073709551616) 9223372036854775808); lia.
    + rewrite <- (Z.mod_add x 1) by lia. rewrite Z.mod_small by lia. lia.
Qed.
Lemma wrap_mul_l a b : wrap 64 (wrap 64 a * b) = wrap 64 (a * b).
Proof. unfold wrap. apply Zmult_mod_idemp_l. Qed.
Lemma wrap_sub_r a b : wrap 64 (a - wrap 64 b) = wrap 64 (a - b).
Proof. unfold wrap. apply Zminus_mod_idemp_r. Qed.
Lemma wrap_id a : 0 <= a < 2 ^ 64 -> wrap 64 a = a.
Proof. intros. unfold wrap. apply Z.mod_small. auto. Qed.

(** the reduction to a non-negative representative *)
Lemma srem_pos r m : 0 < m -> (let r' := Z.rem r m in if r' <? 0 then r' + m else r') = r mod m.
Proof.
  intros Hm. cbv zeta. pose proof (Z.rem_bound_abs r m ltac:(lia)) as B.
  pose proof (Z.quot_rem' r m) as Q.
  destruct (Z.ltb_spec (Z.rem r m) 0).
  - apply Z.mod_unique_pos with (q := Z.quot r m - 1); lia.
  - apply Z.mod_unique_pos with (q := Z.quot r m); lia.
Qed.

Lemma tricyclic_rotation_ok h m n p pinv size j i :
  1 <= h -> 1 <= m -> 1 <= n -> 1 <= p -> 0 <= pinv < n ->
  h * n * p < 2 ^ 63 -> h * m * n < 2 ^ 63 -> m * n * n < 2 ^ 64 ->
  0 <= size -> 0 <= j -> 0 <= i -> j * size + i < n ->
  tricyclic_rotation h m n p pinv size j i (h * m) =
  (h * p * (((i + j * size) * m * pinv) mod n) - h * m * j * size) mod (h * n * p).
Proof.
  intros Hh Hm Hn Hp Hi H1 H2 H3 Hs Hj Hi0 Hc. unfold tricyclic_rotation.
  set (c := i + j * size). assert (0 <= j * size) by (apply Z.mul_nonneg_nonneg; lia).
  assert (Hcr : 0 <= c < n) by (unfold c; lia).
  replace (j * size + i) with c by (unfold c; lia).
  assert (n <= h * n * p) by (assert (1 <= h * p) by nia; replace (h * n * p) with (n * (h * p)) by ring; nia).
  rewrite (wrap_id c) by (change (2 ^ 63) with 9223372036854775808 in *; change (2 ^ 64) with 18446744073709551616; lia).
  rewrite !wrap_mul_l.
  assert (E1 : 0 <= c * m * pinv <= m * n * n).
  { split; [repeat apply Z.mul_nonneg_nonneg; lia|].
    replace (m * n * n) with (n * m * n) by ring. apply Z.mul_le_mono_nonneg; try lia; nia. }
  rewrite (wrap_id (c * m * pinv)) by lia.
  set (inner := (c * m * pinv) mod n). assert (Hin : 0 <= inner < n) by (apply Z.mod_pos_bound; lia).
  assert (E2 : 0 <= inner * h * p < h * n * p).
  { split; [repeat apply Z.mul_nonneg_nonneg; lia|]. nia. }
  assert (B : 2 ^ 63 < 2 ^ 64) by (apply Z.pow_lt_mono_r; lia).
  assert (E3 : 0 < h * n * p) by nia.
  rewrite (wrap_id (inner * h * p)), (wrap_id (h * n * p)) by lia.
  rewrite (Z.mod_small (inner * h * p)) by lia.
  rewrite wrap_sub_r.
  assert (E4 : 0 <= h * m * size * j <= h * m * n).
  { split; [repeat apply Z.mul_nonneg_nonneg; lia|].
    replace (h * m * size * j) with (h * m * (j * size)) by ring. apply Z.mul_le_mono_nonneg_l; nia. }
  rewrite sgn_wrap by lia.
  assert (E5 : sgn 64 (h * n * p) = h * n * p).
  { rewrite <- (wrap_id (h * n * p)) at 1 by lia. apply sgn_wrap. lia. }
  rewrite E5. rewrite (srem_pos _ (h * n * p)) by lia. f_equal. ring.
Qed.
Lemma bicyclic_rotation_ok m n p pinv size j i :
  1 <= m -> 1 <= n -> 1 <= p -> 0 <= pinv < n ->
  n * p < 2 ^ 63 -> m * n < 2 ^ 63 -> m * n * n < 2 ^ 64 ->
  0 <= size -> 0 <= j -> 0 <= i -> j * size + i < n ->
  bicyclic_rotation m n p pinv size j i m =
  (p * (((i + j * size) * m * pinv) mod n) - m * j * size) mod (n * p).
Proof.
  intros Hm Hn Hp Hi H1 H2 H3 Hs Hj Hi0 Hc.
  pose proof (tricyclic_rotation_ok 1 m n p pinv size j i) as T. rewrite !Z.mul_1_l in T.
  rewrite <- T by (auto; lia). unfold bicyclic_rotation, tricyclic_rotation. rewrite !Z.mul_1_l, !Z.mul_1_r.
  rewrite !wrap_mul_l.
  assert (0 < n * p) by nia.
  rewrite (wrap_id (n * p)); [reflexivity|].
  assert (2 ^ 63 < 2 ^ 64) by (apply Z.pow_lt_mono_r; lia). lia.
Qed.

Lemma mod_of_mod x M d : 0 < d -> 0 < M -> (d | M) -> (x mod M) mod d = x mod d.
Proof. intros Hd HM [q Hq]. rewrite Hq. assert (0 < q) by nia. rewrite Z.mul_comm, Z.rem_mul_r by lia.
  rewrite Z.mul_comm, Z.mod_add by lia. apply Z.mod_mod. lia. Qed.

(** the common part: h is 1 in the bicyclic case *)
Section Cyclic.
Variables (h m n p pinv : Z) (N : nat) (a b : list R) (A B : Z -> Z -> Z -> R) (rotf : Z -> Z -> Z -> Z -> Z).
Hypothesis h_pos : 1 <= h.
Hypothesis m_pos : 1 <= m.
Hypothesis n_pos : 1 <= n.
Hypothesis p_pos : 1 <= p.
Hypothesis N_pos : (0 < N)%nat.
Hypothesis len_a : length a = N.
Hypothesis len_b : length b = N.
Hypothesis hm_n : Z.gcd (h * m) n = 1.
Hypothesis pinv_ok : (p * pinv) mod n = 1 mod n.
Hypothesis a_ok : forall k, 0 <= k < Z.of_nat N -> nth (Z.to_nat k) a zero = A (k mod h) (k mod m) (k mod n).
Hypothesis b_ok : forall k, 0 <= k < Z.of_nat N -> nth (Z.to_nat k) b zero = B (k mod h) (k mod n) (k mod p).
Hypothesis rotf_ok : forall size j i, 0 <= size -> 0 <= j -> 0 <= i -> j * size + i < n ->
  rotf size j i (h * m) = (h * p * (((i + j * size) * m * pinv) mod n) - h * m * j * size) mod (h * n * p).

Definition slot_ok (s : Z) : Prop :=
  (h * m * n | Z.of_nat N) /\ (h * n * p | Z.of_nat N) \/
  0 <= s /\ s + (h * n * p - 1 + h * m * (n - 1)) < Z.of_nat N.

Lemma get_a s c : slot_ok s -> 0 <= c < n ->
  get a (s + h * m * c) = A (s mod h) (s mod m) ((s + h * m * c) mod n).
Proof.
  intros Hs Hc.
  assert (E : get a (s + h * m * c) = A ((s + h * m * c) mod h) ((s + h * m * c) mod m) ((s + h * m * c) mod n)).
  { destruct Hs as [[D _]|[H0 Hs]].
    - rewrite <- (get_mod K _ _ N len_a).
      assert (Bd : 0 <= (s + h * m * c) mod Z.of_nat N < Z.of_nat N) by (apply Z.mod_pos_bound; lia).
      rewrite get_bound by (rewrite len_a; auto). rewrite a_ok by auto.
      assert (d1 : (h | Z.of_nat N)) by (eapply Z.divide_trans; [|exact D]; exists (m * n); ring).
      assert (d2 : (m | Z.of_nat N)) by (eapply Z.divide_trans; [|exact D]; exists (h * n); ring).
      assert (d3 : (n | Z.of_nat N)) by (eapply Z.divide_trans; [|exact D]; exists (h * m); ring).
      rewrite !mod_of_mod by (auto; lia). reflexivity.
    - assert (0 <= h * m * c <= h * m * (n - 1)).
      { split; [repeat apply Z.mul_nonneg_nonneg; lia|]. apply Z.mul_le_mono_nonneg_l; nia. }
      assert (0 < h * n * p) by nia.
      rewrite get_bound by (rewrite len_a; lia). apply a_ok. lia. }
  rewrite E. f_equal.
  - replace (s + h * m * c) with (s + (m * c) * h) by ring. apply Z.mod_add. lia.
  - replace (s + h * m * c) with (s + (h * c) * m) by ring. apply Z.mod_add. lia.
Qed.
Lemma get_b s size j i : slot_ok s -> 0 <= size -> 0 <= j -> 0 <= i -> i + j * size < n ->
  get b (s + h * m * j * size + rotf size j i (h * m)) =
  B (s mod h) ((s + h * m * (i + j * size)) mod n) (s mod p).
Proof.
  intros Hs H1 H2 H3 Hc. set (c := i + j * size) in *.
  assert (Hj : 0 <= j * size) by (apply Z.mul_nonneg_nonneg; lia).
  rewrite rotf_ok by lia. fold c.
  set (T := s + h * m * j * size + (h * p * ((c * m * pinv) mod n) - h * m * j * size) mod (h * n * p)).
  assert (Hnp : 0 < h * n * p) by nia.
  assert (Hr := Z.mod_pos_bound (h * p * ((c * m * pinv) mod n) - h * m * j * size) (h * n * p) Hnp).
  assert (E : get b T = B (T mod h) (T mod n) (T mod p)).
  { destruct Hs as [[_ D]|[H0 Hs]].
    - rewrite <- (get_mod K _ _ N len_b).
      assert (Bd : 0 <= T mod Z.of_nat N < Z.of_nat N) by (apply Z.mod_pos_bound; lia).
      rewrite get_bound by (rewrite len_b; auto). rewrite b_ok by auto.
      assert (d1 : (h | Z.of_nat N)) by (eapply Z.divide_trans; [|exact D]; exists (n * p); ring).
      assert (d2 : (p | Z.of_nat N)) by (eapply Z.divide_trans; [|exact D]; exists (h * n); ring).
      assert (d3 : (n | Z.of_nat N)) by (eapply Z.divide_trans; [|exact D]; exists (h * p); ring).
      rewrite !mod_of_mod by (auto; lia). reflexivity.
    - assert (0 <= h * m * (j * size) <= h * m * (n - 1)).
      { split; [repeat apply Z.mul_nonneg_nonneg; lia|]. apply Z.mul_le_mono_nonneg_l; nia. }
      assert (0 <= T < Z.of_nat N) by (unfold T; lia).
      rewrite get_bound by (rewrite len_b; lia). apply b_ok. lia. }
  rewrite E.
  assert (Q : exists q, T = s + h * p * ((c * m * pinv) mod n) + q * (h * n * p)).
  { exists (- ((h * p * ((c * m * pinv) mod n) - h * m * j * size) / (h * n * p))).
    unfold T. rewrite Z.mod_eq by lia. ring. }
  destruct Q as [q Q]. f_equal.
  - rewrite Q. replace (s + h * p * ((c * m * pinv) mod n) + q * (h * n * p))
      with (s + (p * ((c * m * pinv) mod n) + q * (n * p)) * h) by ring. apply Z.mod_add. lia.
  - rewrite Q. replace (s + h * p * ((c * m * pinv) mod n) + q * (h * n * p))
      with (s + h * p * ((c * m * pinv) mod n) + (q * (h * p)) * n) by ring. rewrite Z.mod_add by lia.
    rewrite Zplus_mod, Zmult_mod_idemp_r.
    replace (h * p * (c * m * pinv)) with (h * m * c * (p * pinv)) by ring.
    rewrite <- Zmult_mod_idemp_r, pinv_ok, Zmult_mod_idemp_r, Z.mul_1_r, <- Zplus_mod. reflexivity.
  - rewrite Q. replace (s + h * p * ((c * m * pinv) mod n) + q * (h * n * p))
      with (s + (h * ((c * m * pinv) mod n) + q * (n * h)) * p) by ring. apply Z.mod_add. lia.
Qed.

Lemma cyclic_ok e : exists d,
  bsgs K (Leaf K (VVec K a)) (Leaf K (VVec K b)) (h * m) n N (fun b _ => b) (fun _ => false) rotf = Some d /\
  exists f, den e d N f /\ forall s, slot_ok s -> 
    f s = rsum (Z.to_nat n) (fun k => A (s mod h) (s mod m) (Z.of_nat k) *r B (s mod h) (Z.of_nat k) (s mod p)).
Proof.
  pose proof (baby_steps_pos n ltac:(lia)) as Hb.
  destruct (bsgs K (Leaf K (VVec K a)) (Leaf K (VVec K b)) (h * m) n N (fun b _ => b) (fun _ => false) rotf) as [d|] eqn:E.
  2:{ unfold bsgs in E. destruct (Z.eqb_spec (baby_steps n) 0); [lia|discriminate]. }
  exists d. split; auto.
  assert (Da : den e (Leaf K (VVec K a)) N (get a)) by (rewrite <- len_a; apply den_leaf).
  assert (Db : den e (Leaf K (VVec K b)) N (get b)) by (rewrite <- len_b; apply den_leaf).
  eexists. split.
  { eapply (bsgs_double K e _ _ (h * m) n N (fun b _ => b) (fun _ => false) rotf (get a) (fun _ => get b)); eauto. }
  intros s Hs.
  etransitivity; [apply (double_single K (h * m) n N (fun _ => false) rotf (get a) (fun _ => get b) N_pos
    (fun k s => A (s mod h) (s mod m) ((s + h * m * k) mod n) *r B (s mod h) ((s + h * m * k) mod n) (s mod p)) s)|].
  - lia.
  - intros j i Hj Hi Hk _. rewrite get_b by (auto; lia). rewrite get_a by (auto; lia). ring.
  - cbn [negb ind].
    pose proof (big_stride (radd K) zero (Kaddc K) (Kadda K) (Kadd0 K) (Z.to_nat n)
      (fun k => A (s mod h) (s mod m) k *r B (s mod h) k (s mod p)) s (h * m)) as S.
    rewrite Z2Nat.id in S by lia. apply S; auto. lia.
Qed.
End Cyclic.

(** ** The valid prefix is replicated *)
Lemma replicate_prefix_ok N (f g : Z -> R) per reach : 0 < per -> 0 <= reach -> per + reach <= Z.of_nat N ->
  (forall s, 0 <= s -> s + reach < Z.of_nat N -> f s = g s) ->
  (forall s, g (s mod per) = g s) ->
  replicate_prefix K (map (fun i => f (Z.of_nat i)) (seq 0 N)) per (Z.of_nat N - reach) =
  Some (map (fun i => g (Z.of_nat i)) (seq 0 N)).
Proof.
  intros Hp Hr Hl Hf Hg. unfold replicate_prefix. rewrite map_length, seq_length.
  destruct (Z.ltb_spec 0 (Z.of_nat N - reach)); [|lia].
  rewrite Z.quot_div_nonneg by lia. set (q := (Z.of_nat N - reach) / per).
  assert (1 <= q) by (apply Z.div_le_lower_bound; lia).
  assert (q * per <= Z.of_nat N - reach) by (unfold q; rewrite Z.mul_comm; apply Z.mul_div_le; lia).
  assert (0 < q * per) by nia.
  destruct (Z.ltb_spec 0 (q * per)); [|lia]. destruct (Z.leb_spec (q * per) (Z.of_nat N)); [|lia].
  cbn [andb]. f_equal. apply map_ext_in. intros t Ht. apply in_seq in Ht.
  assert (B := Z.mod_pos_bound (Z.of_nat t) (q * per) ltac:(lia)).
  rewrite nth_map_seq by lia. rewrite Z2Nat.id by lia. rewrite Hf by lia.
  rewrite <- Hg. rewrite <- (Hg (Z.of_nat t)). f_equal. apply mod_of_mod; try lia. exists q. ring.
Qed.

(** ** Broadcasting reduction *)
Lemma doublings_pow2 k : forall a fuel, (k - a <= fuel)%nat -> (a <= k)%nat ->
  doublings fuel (2 ^ Z.of_nat a) (2 ^ Z.of_nat k) = map (fun i => 2 ^ Z.of_nat i) (seq a (k - a)).
Proof.
  intros a. remember (k - a)%nat as d eqn:E. revert a E. induction d; intros a E fuel Hf Ha.
  - assert (a = k) by lia. subst. destruct fuel; auto. cbn [doublings]. rewrite Z.ltb_irrefl. auto.
  - destruct fuel; [lia|]. cbn [doublings seq map].
    assert (2 ^ Z.of_nat a < 2 ^ Z.of_nat k) by (apply Z.pow_lt_mono_r; lia).
    destruct (Z.ltb_spec (2 ^ Z.of_nat a) (2 ^ Z.of_nat k)); [|lia]. f_equal.
    replace (2 ^ Z.of_nat a * 2) with (2 ^ Z.of_nat (S a)) by (rewrite Nat2Z.inj_succ, Z.pow_succ_r; lia).
    apply IHd; lia.
Qed.
Lemma acc_doublings mul period k f i :
  acc_sem K mul period (map (fun i => 2 ^ Z.of_nat i) (seq 0 k)) f i =
  big (op_of K mul) (unit_of K mul) (2 ^ k) (fun j => f (i + Z.of_nat j * period)).
Proof.
  revert i. induction k; intros i.
  - cbn. rewrite op_of_unit. f_equal. lia.
  - rewrite seq_S, map_app, acc_sem_app. cbn [map acc_sem fold_left Nat.add]. rewrite !IHk.
    replace (2 ^ S k)%nat with (2 ^ k + 2 ^ k)%nat by (cbn; lia).
    rewrite (big_split _ _ (op_of_comm K mul) (op_of_assoc K mul) (op_of_unit K mul)).
    f_equal. apply big_ext. intros j Hj. f_equal. rewrite Nat2Z.inj_add, Nat2Z.inj_pow. change (Z.of_nat 2) with 2. ring.
Qed.

(** the slots of v that share the block and the offset of slot s, summed *)
Definition block_sum (v : list R) (period steps : Z) (s : Z) : R :=
  rsum (Z.to_nat steps) (fun j =>
    get v (s / (steps * period) * (steps * period) + Z.of_nat j * period + s mod period)).

Lemma slot_split s B p : 0 < B -> 0 < p -> 
  let t := (s mod (B * p)) / p in 0 <= t < B /\ s = s / (B * p) * (B * p) + t * p + s mod p.
Proof.
  intros HB Hp t. assert (0 < B * p) by nia.
  pose proof (Z.mod_pos_bound s (B * p) ltac:(lia)) as M. split.
  - split; [apply Z.div_pos; lia|]. apply Z.div_lt_upper_bound; lia.
  - assert (E : s mod p = (s mod (B * p)) mod p) by (symmetry; apply mod_of_mod; try lia; exists B; ring).
    rewrite E. pose proof (Z.div_mod (s mod (B * p)) p ltac:(lia)). fold t in H0.
    pose proof (Z.div_mod s (B * p) ltac:(lia)). lia.
Qed.
Lemma block_index s B p j N (v : list R) : 0 < B -> 0 < p -> length v = N -> (0 < N)%nat -> (B * p | Z.of_nat N) ->
  ((s + j * p) mod (B * p)) / p = ((s mod (B * p)) / p + j) mod B.
Proof.
  intros HB Hp _ _ _. destruct (slot_split s B p HB Hp) as [Ht E]. set (t := (s mod (B * p)) / p) in *.
  pose proof (Z.mod_pos_bound s p Hp) as Ho. pose proof (Z.mod_pos_bound (t + j) B HB) as Hm.
  assert (E2 : (s + j * p) mod (B * p) = (t + j) mod B * p + s mod p).
  { symmetry. apply Z.mod_unique_pos with (q := s / (B * p) + (t + j) / B).
    - assert ((t + j) mod B * p <= (B - 1) * p) by (apply Z.mul_le_mono_nonneg_r; lia). split; [nia|lia].
    - pose proof (Z.div_mod (t + j) B ltac:(lia)) as D. rewrite E at 1.
      replace ((t + j) mod B) with (t + j - B * ((t + j) / B)) by lia. ring. }
  rewrite E2. rewrite Z.div_add_l by lia. rewrite (Z.div_small (s mod p)) by lia. lia.
Qed.

Lemma broadcasted_reduce_ok e v (maskv : list R) (mask : option (node K)) k p N :
  (0 < N)%nat -> length v = N -> 1 <= p -> Z.of_nat k < 63 -> (2 ^ Z.of_nat k * p | Z.of_nat N) ->
  (2 ^ Z.of_nat k * p = Z.of_nat N \/
   mask = Some (Leaf K (VVec K maskv)) /\ length maskv = N /\
   forall s, 0 <= s < Z.of_nat N -> nth (Z.to_nat s) maskv zero =
     (if (s mod (2 ^ Z.of_nat k * p)) / p =? 2 ^ Z.of_nat k - 1 then r1 K else zero)) ->
  exists f, den e (broadcasted_reduce K (Leaf K (VVec K v)) mask p (2 ^ Z.of_nat k) (Z.of_nat N) false) N f /\
    forall s, 0 <= s < Z.of_nat N -> f s = block_sum v p (2 ^ Z.of_nat k) s.
Proof.
  intros HN Hv Hp Hk HD Hmask. set (B := 2 ^ Z.of_nat k) in *.
  assert (HB : 0 < B) by (apply Z.pow_pos_nonneg; lia).
  assert (HBn : Z.to_nat B = (2 ^ k)%nat).
  { apply Nat2Z.inj. rewrite Z2Nat.id, Nat2Z.inj_pow by lia. reflexivity. }
  assert (Dv : den e (Leaf K (VVec K v)) N (get v)) by (rewrite <- Hv; apply den_leaf).
  pose proof (den_accumulate K e false p k _ N _ HN Hk Dv) as Dr. fold B in Dr. cbn [op_of unit_of] in Dr.
  set (red := fun i => rsum (2 ^ k) (fun j => get v (i + Z.of_nat j * p))) in *.
  unfold broadcasted_reduce. change (if false then Mul K else Add K) with (node_of K false).
  destruct (Z.eqb_spec (B * p) (Z.of_nat N)) as [Heq|Hne].
  - exists red. split; auto. intros s Hs. unfold red, block_sum. rewrite HBn.
    destruct (slot_split s B p HB ltac:(lia)) as [Ht E]. set (t := (s mod (B * p)) / p) in *.
    rewrite (Z.div_small s (B * p)) in E |- * by lia.
    transitivity (rsum (2 ^ k) (fun j => get v ((t + Z.of_nat j) mod Z.of_nat (2 ^ k) * p + s mod p))).
    + apply big_ext. intros j Hj. rewrite <- (get_mod K v _ N Hv), <- Heq.
      rewrite <- (get_mod K v (_ * p + _) N Hv), <- Heq. f_equal.
      replace (Z.of_nat (2 ^ k)) with B by (rewrite <- HBn, Z2Nat.id; lia).
      rewrite E at 1. rewrite (Z.mod_eq (t + Z.of_nat j) B) by lia.
      replace (0 * (B * p) + t * p + s mod p + Z.of_nat j * p)
        with ((t + Z.of_nat j - B * ((t + Z.of_nat j) / B)) * p + s mod p + ((t + Z.of_nat j) / B) * (B * p)) by ring.
      apply Z.mod_add. lia.
    + rewrite (big_shift (radd K) zero (Kaddc K) (Kadda K) (Kadd0 K) (2 ^ k) (fun z => get v (z * p + s mod p)) t).
      * apply big_ext. intros j Hj. reflexivity.
      * rewrite <- HBn. lia.
  - destruct Hmask as [Hc|(-> & Lm & Hm)]; [lia|].
    assert (Dm : den e (Leaf K (VVec K maskv)) N (get maskv)) by (rewrite <- Lm; apply den_leaf).
    pose proof (den_rotate_by K e _ (Z.of_nat N - (B - 1) * p) N _ HN Dr) as Ds.
    pose proof (den_mul K e _ _ N _ _ HN Ds Dm) as Dc.
    pose proof (den_acc K e false p (doublings 64 1 B) _ N _ HN Dc) as D. cbv beta in D.
    eexists. split; [exact D|]. intros s Hs.
    unfold B at 1. change 1 with (2 ^ Z.of_nat 0) at 1. rewrite doublings_pow2 by lia. rewrite Nat.sub_0_r.
    rewrite acc_doublings. cbn [op_of unit_of].
    destruct (slot_split s B p HB ltac:(lia)) as [Ht E]. set (t := (s mod (B * p)) / p) in *.
    assert (M : forall j, get maskv (s + j * p) = if (t + j) mod B =? B - 1 then r1 K else zero).
    { intros j. rewrite <- (get_mod K _ _ N Lm).
      assert (Bd : 0 <= (s + j * p) mod Z.of_nat N < Z.of_nat N) by (apply Z.mod_pos_bound; lia).
      rewrite get_bound by (rewrite Lm; auto). rewrite Hm by auto.
      rewrite mod_of_mod by (try lia; try nia; auto).
      rewrite (block_index s B p j N v) by (auto; lia). reflexivity. }
    rewrite (big_single (radd K) zero (Kaddc K) (Kadd0 K) (2 ^ k) _ (Z.to_nat (B - 1 - t))).
    + rewrite M. rewrite Z2Nat.id by lia.
      replace (t + (B - 1 - t)) with (B - 1) by lia. rewrite (Z.mod_small (B - 1) B) by lia. rewrite Z.eqb_refl.
      unfold red, block_sum. rewrite HBn.
      replace (s + (B - 1 - t) * p + (Z.of_nat N - (B - 1) * p)) with (s / (B * p) * (B * p) + s mod p + 1 * Z.of_nat N)
        by (rewrite E at 3; ring).
      transitivity (rsum (2 ^ k) (fun j => get v (s / (B * p) * (B * p) + s mod p + 1 * Z.of_nat N + Z.of_nat j * p))); [ring|].
      apply big_ext. intros j Hj. rewrite <- (get_mod K v _ N Hv).
      replace (s / (B * p) * (B * p) + s mod p + 1 * Z.of_nat N + Z.of_nat j * p)
        with (s / (B * p) * (B * p) + Z.of_nat j * p + s mod p + 1 * Z.of_nat N) by ring.
      rewrite Z.mod_add by lia. apply get_mod. auto.
    + rewrite <- HBn. lia.
    + intros j Hj Hne'. rewrite M.
      destruct (Z.eqb_spec ((t + Z.of_nat j) mod B) (B - 1)) as [Ej|]; [|ring].
      exfalso. assert (Hj' : Z.of_nat j < B) by (rewrite <- HBn in Hj; lia).
      destruct (Z_lt_le_dec (t + Z.of_nat j) B).
      * rewrite Z.mod_small in Ej by lia. apply Hne'. lia.
      * rewrite <- (Z.mod_add (t + Z.of_nat j) (-1) B) in Ej by lia. rewrite Z.mod_small in Ej by lia. lia.
Qed.
End Kernels.
