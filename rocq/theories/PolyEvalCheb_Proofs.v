(** Proofs about evaluation programs in the Chebyshev basis. *)
From Coq Require Import ZArith List Bool Lia Ring Setoid.
From Verif Require Import Words ModArith_Proofs NumTheory_Model Kernel_Model Kernel_Spec Kernel_Proofs PolyArith_Model PolyArith_Spec PolyArith_Proofs PolyCheb_Proofs PolyEval_Model PolyEval_Spec PolyEval_Proofs.
Import ListNotations.
Open Scope Z_scope.

(** ** Splitting degrees *)
Lemma log_loop_ok fuel : forall t k, 1 <= t < 2 ^ Z.of_nat fuel -> log_loop fuel t k = Some (k + Z.log2 t).
Proof.
  induction fuel as [|f IH]; intros t k H; [cbn in H; lia|]. cbn [log_loop]. destruct (Z.gtb_spec t 1) as [H1|H1].
  - rewrite Nat2Z.inj_succ, Z.pow_succ_r in H by lia.
    assert (B : 1 <= Z.shiftr t 1 < 2 ^ Z.of_nat f).
    { rewrite Z.shiftr_div_pow2 by lia. change (2 ^ 1) with 2. split; [apply Z.div_le_lower_bound; lia|apply Z.div_lt_upper_bound; lia]. }
    rewrite IH by auto. rewrite Z.log2_shiftr by lia. f_equal. assert (1 <= Z.log2 t) by (apply Z.log2_le_pow2; lia). lia.
  - assert (t = 1) by lia. subst t. cbn. f_equal. lia.
Qed.
Lemma land_pred_pow2 n : 0 < n -> Z.land n (n - 1) = 0 -> n = 2 ^ Z.log2 n.
Proof.
  intros Hn H. pose proof (Z.log2_spec n Hn) as [L1 L2]. rewrite Z.pow_succ_r in L2 by apply Z.log2_nonneg.
  destruct (Z.eq_dec n (2 ^ Z.log2 n)) as [|Hne]; auto. exfalso.
  assert (E : Z.log2 (n - 1) = Z.log2 n).
  { apply Z.log2_unique; [apply Z.log2_nonneg|]. rewrite Z.pow_succ_r by apply Z.log2_nonneg. lia. }
  assert (0 < 2 ^ Z.log2 n) by (apply Z.pow_pos_nonneg; [lia|apply Z.log2_nonneg]).
  assert (T : Z.testbit (Z.land n (n - 1)) (Z.log2 n) = true).
  { rewrite Z.land_spec, Z.bit_log2 by lia. rewrite <- E, Z.bit_log2 by lia. reflexivity. }
  rewrite H, Z.bits_0 in T. discriminate.
Qed.
(** both parts are positive and smaller, and so is their difference; each has
    a logarithm at least one below that of n *)
Lemma split_degree_ok n : 2 <= n < 2 ^ 63 ->
  exists a b, split_degree n = Some (a, b) /\ a + b = n /\ 1 <= a < n /\ 1 <= b < n /\
    1 + Z.log2_up a <= Z.log2_up n /\ 1 + Z.log2_up b <= Z.log2_up n /\ Z.log2_up (Z.abs (a - b)) <= Z.log2_up n.
Proof.
  intros H. unfold split_degree. destruct (Z.gtb_spec n 0); [|lia]. cbn [negb].
  destruct (Z.eqb_spec (Z.land n (n - 1)) 0) as [E|E].
  - apply land_pred_pow2 in E; [|lia]. set (k := Z.log2 n) in *.
    assert (Hk : 1 <= k). { unfold k. apply Z.log2_le_pow2; lia. }
    assert (N2 : n / 2 = 2 ^ (k - 1)).
    { rewrite E. replace k with (1 + (k - 1)) at 1 by lia. rewrite Z.pow_add_r by lia. rewrite Z.mul_comm. apply Z.div_mul. lia. }
    assert (Nn : n = 2 * 2 ^ (k - 1)). { rewrite E at 1. replace k with (1 + (k - 1)) at 1 by lia. rewrite Z.pow_add_r by lia. reflexivity. }
    exists (n / 2), (n / 2). split; auto. rewrite !N2.
    assert (0 < 2 ^ (k - 1)) by (apply Z.pow_pos_nonneg; lia).
    split; [lia|]. split; [lia|]. split; [lia|]. rewrite Z.sub_diag. rewrite Nn, log2_up_even by lia.
    pose proof (Z.log2_up_nonneg (2 ^ (k - 1))). cbn [Z.abs]. change (Z.log2_up 0) with 0. lia.
  - rewrite log_loop_ok by (change (2 ^ Z.of_nat 64) with (2 ^ 64); change (2 ^ 63) with 9223372036854775808 in H; change (2 ^ 64) with 18446744073709551616; lia).
    cbn [bind]. rewrite (Z.add_0_l (Z.log2 (n - 1))). set (k := Z.log2 (n - 1)) in *. pose proof (Z.log2_spec (n - 1) ltac:(lia)) as [L1 L2]. fold k in L1, L2.
    rewrite Z.pow_succ_r in L2 by apply Z.log2_nonneg.
    assert (Hn3 : 3 <= n). { destruct (Z.eq_dec n 2) as [->|]; [exfalso; apply E; reflexivity|lia]. }
    assert (Hk : 1 <= k). { unfold k. apply Z.log2_le_pow2; lia. }
    assert (P2 : 2 <= 2 ^ k). { change 2 with (2 ^ 1) at 1. apply Z.pow_le_mono_r; lia. }
    assert (Hnot : n <> 2 * 2 ^ k).
    { intros Eq. apply E. replace (2 * 2 ^ k) with (2 ^ (k + 1)) in Eq by (rewrite Z.pow_add_r by lia; lia).
      rewrite Eq. apply Z.bits_inj_0. intros i. rewrite Z.land_spec.
      destruct (Z_lt_le_dec i 0); [rewrite Z.testbit_neg_r by auto; reflexivity|].
      replace (2 ^ (k + 1) - 1) with (Z.ones (k + 1)) by (rewrite Z.ones_equiv; lia). rewrite Z.testbit_ones by lia.
      rewrite Z.pow2_bits_eqb by lia.
      destruct (Z.eqb_spec (k + 1) i), (Z.leb_spec 0 i), (Z.ltb_spec i (k + 1)); cbn; auto; lia. }
    assert (Up : Z.log2_up n = k + 1).
    { apply Z.log2_up_unique; [lia|]. replace (Z.pred (k + 1)) with k by lia. rewrite Z.pow_add_r by lia. change (2 ^ 1) with 2. lia. }
    assert (U : forall z, z <= 2 ^ k -> Z.log2_up z <= k).
    { intros z Hz. etransitivity; [apply Z.log2_up_le_mono; exact Hz|]. rewrite Z.log2_up_pow2; lia. }
    exists (2 ^ k - 1), (n - (2 ^ k - 1)). split; [f_equal; f_equal; lia|].
    split; [lia|]. split; [lia|]. split; [lia|]. rewrite Up.
    pose proof (U (2 ^ k - 1) ltac:(lia)). pose proof (U (n - (2 ^ k - 1)) ltac:(lia)). pose proof (U (Z.abs (2 ^ k - 1 - (n - (2 ^ k - 1)))) ltac:(lia)). lia.
Qed.

Section Cheb.
Variable K : cring.
Notation R := (car K).
Add Ring Kring : (r_ok K).
Local Notation "a +r b" := (radd K a b) (at level 50, left associativity).
Local Notation "a *r b" := (rmul K a b) (at level 40, left associativity).
Local Notation "a -r b" := (rsub K a b) (at level 50, left associativity).
Local Notation zero := (r0 K).
Notation run := (run K).
Notation T := (T K).
Local Notation two := (two K).

(** ** Products of Chebyshev polynomials *)
Lemma T_prod x : forall b a, (b <= a)%nat -> T (a + b) x +r T (a - b) x = two *r T a x *r T b x.
Proof.
  assert (G : forall b, (forall a, (b <= a)%nat -> T (a + b) x +r T (a - b) x = two *r T a x *r T b x) /\
                        (forall a, (S b <= a)%nat -> T (a + S b) x +r T (a - S b) x = two *r T a x *r T (S b) x)).
  { induction b as [|b [IH1 IH2]].
    - split; intros a Ha.
      + rewrite Nat.add_0_r, Nat.sub_0_r, T_0. unfold PolyArith_Model.two. ring.
      + destruct a as [|a]; [lia|]. replace (S a + 1)%nat with (S (S a)) by lia. replace (S a - 1)%nat with a by lia.
        rewrite T_S, T_1. ring.
    - split; [exact IH2|]. intros a Ha.
      assert (E1 : T (a + S (S b)) x = two *r x *r T (a + S b) x -r T (a + b) x).
      { replace (a + S (S b))%nat with (S (S (a + b))) by lia. rewrite T_S. replace (S (a + b)) with (a + S b)%nat by lia. reflexivity. }
      assert (E2 : T (a - b) x = two *r x *r T (a - S b) x -r T (a - S (S b)) x).
      { replace (a - b)%nat with (S (S (a - S (S b)))) by lia. rewrite T_S. replace (S (a - S (S b))) with (a - S b)%nat by lia. reflexivity. }
      specialize (IH1 a ltac:(lia)). specialize (IH2 a ltac:(lia)).
      assert (E3 : T (a - S (S b)) x = two *r x *r T (a - S b) x -r T (a - b) x) by (rewrite E2; ring).
      rewrite E1, E3, T_S.
      transitivity (two *r x *r (T (a + S b) x +r T (a - S b) x) -r (T (a + b) x +r T (a - b) x)); [ring|]. rewrite IH1, IH2. ring. }
  intros b. apply (G b).
Qed.
Lemma T_prod_abs x a b : T (a + b) x = two *r T a x *r T b x -r T (Z.to_nat (Z.abs (Z.of_nat a - Z.of_nat b))) x.
Proof.
  destruct (Nat.le_ge_cases b a) as [H|H].
  - replace (Z.to_nat _) with (a - b)%nat by lia. rewrite <- T_prod by auto. ring.
  - replace (Z.to_nat _) with (b - a)%nat by lia. transitivity (two *r T b x *r T a x -r T (b - a) x); [|ring].
    rewrite <- T_prod by auto. replace (b + a)%nat with (a + b)%nat by lia. ring.
Qed.
Lemma T_prod_Z x a b n : 0 <= a -> 0 <= b -> a + b = n ->
  T (Z.to_nat n) x = two *r T (Z.to_nat a) x *r T (Z.to_nat b) x -r T (Z.to_nat (Z.abs (a - b))) x.
Proof.
  intros Ha Hb <-. rewrite Z2Nat.inj_add by auto. rewrite T_prod_abs. rewrite !Z2Nat.id by auto. reflexivity.
Qed.

(** ** The cache *)
Definition good_node (x : R) (n : Z) (d : dag K) : Prop := run x d = T (Z.to_nat n) x /\ depth K d <= Z.log2_up n.
Definition good_cache (x : R) (c : cache K) : Prop := forall n d, In (n, d) c -> good_node x n d.
Definition keys (c : cache K) : list Z := map fst c.
Lemma find_cache_in c n d : find_cache K c n = Some d -> In (n, d) c.
Proof.
  unfold find_cache. destruct (find _ c) as [[m e]|] eqn:E; [|discriminate]. intros [= <-]. apply find_some in E. cbn in E.
  destruct E as [E1 E2]. apply Z.eqb_eq in E2. subst. auto.
Qed.
Lemma find_cache_some c n : In n (keys c) -> exists d, find_cache K c n = Some d.
Proof.
  unfold find_cache, keys. intros H. destruct (find (fun kv => fst kv =? n) c) as [kv|] eqn:E; [cbn; eauto|].
  exfalso. apply in_map_iff in H. destruct H as (kv & <- & H). pose proof (find_none _ _ E _ H) as F. cbn in F. rewrite Z.eqb_refl in F. discriminate.
Qed.
Lemma gen_power_ok x fuel : forall n c, 0 <= n < Z.of_nat fuel -> n < 2 ^ 63 -> good_cache x c ->
  exists d c', gen_power K fuel n c = Some (d, c') /\ good_node x n d /\ good_cache x c' /\ incl (keys c) (keys c') /\ In n (keys c').
Proof.
  induction fuel as [|f IH]; intros n c Hn Hn63 Hc; [lia|]. cbn [gen_power].
  destruct (find_cache K c n) as [d|] eqn:F.
  - apply find_cache_in in F. exists d, c. split; auto. split; [apply Hc; auto|]. split; auto. split; [apply incl_refl|].
    apply (in_map fst) in F. exact F.
  - destruct (Z.eqb_spec n 0) as [->|N0].
    + exists (Const K (r1 K)), ((0, Const K (r1 K)) :: c). split; auto.
      assert (good_node x 0 (Const K (r1 K))) by (split; [reflexivity|cbn; lia]).
      split; auto. split; [intros m d [[= <- <-]|Hin]; auto|]. split; [apply incl_tl, incl_refl|now left].
    + destruct (Z.eqb_spec n 1) as [->|N1].
      * exists (X K), ((1, X K) :: c). split; auto.
        assert (good_node x 1 (X K)) by (split; [reflexivity|cbn; lia]).
        split; auto. split; [intros m d [[= <- <-]|Hin]; auto|]. split; [apply incl_tl, incl_refl|now left].
      * destruct (split_degree_ok n) as (a & b & -> & Hab & Ba & Bb & Da & Db & Dc); [lia|]. cbn [bind fst snd].
        destruct (IH a c) as (ta & c1 & -> & [Ra La] & G1 & I1 & _); [lia|lia|auto|]. cbn [bind fst snd].
        destruct (IH b c1) as (tb & c2 & -> & [Rb Lb] & G2 & I2 & _); [lia|lia|auto|]. cbn [bind fst snd].
        set (prod := Mul K ta tb).
        assert (Rp : run x (Add K prod prod) = two *r T (Z.to_nat a) x *r T (Z.to_nat b) x).
        { cbn. rewrite Ra, Rb. unfold PolyArith_Model.two. ring. }
        assert (Dp : depth K (Add K prod prod) <= Z.log2_up n) by (unfold prod; cbn [depth]; lia).
        assert (TT := T_prod_Z x a b n ltac:(lia) ltac:(lia) Hab).
        assert (exists tn c3, (if Z.abs (a - b) =? 0 then Some (Sub K (Add K prod prod) (Const K (r1 K)), c2)
             else (r <- gen_power K f (Z.abs (a - b)) c2 ;; Some (Sub K (Add K prod prod) (fst r), snd r))) = Some (tn, c3) /\
             good_node x n tn /\ good_cache x c3 /\ incl (keys c2) (keys c3)) as (tn & c3 & -> & Gn & G3 & I3).
        { destruct (Z.eqb_spec (Z.abs (a - b)) 0) as [Ez|Ez].
          - eexists _, _. split; [reflexivity|]. split; [|split; [auto|apply incl_refl]]. split.
            + rewrite TT, Ez. change (run x (Sub K (Add K prod prod) (Const K (r1 K)))) with (run x (Add K prod prod) -r r1 K). rewrite Rp. reflexivity.
            + pose proof (Z.log2_up_nonneg n). cbn [depth] in *. lia.
          - destruct (IH (Z.abs (a - b)) c2) as (tc & c3 & -> & [Rc Lc] & G3 & I3 & _); [lia|lia|auto|]. cbn [bind fst snd].
            eexists _, _. split; [reflexivity|]. split; [|split; auto]. split.
            + rewrite TT. change (run x (Sub K (Add K prod prod) tc)) with (run x (Add K prod prod) -r run x tc). rewrite Rp, Rc. reflexivity.
            + change (depth K (Sub K (Add K prod prod) tc)) with (Z.max (depth K (Add K prod prod)) (depth K tc)). lia. }
        cbn [bind fst snd]. eexists _, _. split; [reflexivity|]. split; auto. split; [intros m d [[= <- <-]|Hin]; auto|].
        split; [|now left]. apply incl_tl. eapply incl_tran; [exact I1|]. eapply incl_tran; [exact I2|]. exact I3.
Qed.
Lemma gen_powers_ok x k : 0 <= k < 2 ^ 63 -> exists c, gen_powers K k = Some c /\ good_cache x c /\ forall j, 0 <= j <= k -> In j (keys c).
Proof.
  intros Hk. unfold gen_powers.
  assert (G : forall n, Z.of_nat n <= k -> exists c, fold_left (fun acc i => c <- acc ;; r <- gen_power K (S (Z.to_nat i)) i c ;; Some (snd r))
         (map (fun j => 1 + Z.of_nat j) (seq 0 n)) (Some []) = Some c /\ good_cache x c /\ forall j, 1 <= j <= Z.of_nat n -> In j (keys c)).
  { induction n as [|n IH]; intros Hn.
    - exists []. split; [reflexivity|]. split; [intros ? ? []|lia].
    - destruct IH as (c & E & Gc & Hc); [lia|]. rewrite seq_S, map_app, fold_left_app, E. cbn [map fold_left bind Nat.add].
      destruct (gen_power_ok x (S (Z.to_nat (1 + Z.of_nat n))) (1 + Z.of_nat n) c) as (d & c' & E' & _ & Gc' & I' & Hin); [lia|lia|auto|].
      rewrite E'. cbn [bind snd]. exists c'. split; auto. split; auto. intros j Hj. destruct (Z.eq_dec j (1 + Z.of_nat n)) as [->|]; auto.
      apply I', Hc. lia. }
  destruct (G (Z.to_nat k)) as (c & E & Gc & Hc); [lia|]. rewrite E. cbn [bind]. eexists. split; [reflexivity|]. split.
  - intros n d [[= <- <-]|Hin]; auto. split; [reflexivity|cbn; lia].
  - intros j Hj. destruct (Z.eq_dec j 0) as [->|]; [now left|]. right. apply Hc. lia.
Qed.

(** ** computeChebyshevPolynomialValues *)
Lemma compute_chebyshev_ok k x : 1 <= k ->
  exists l, compute_chebyshev K k = Some l /\ Z.of_nat (length l) = k + 1 /\ powers_ok K (fun n => T n x) x l.
Proof.
  intros Hk. unfold compute_chebyshev. destruct (Z.geb_spec k 1); [|lia].
  assert (G : forall n l, (2 <= length l)%nat -> powers_ok K (fun n => T n x) x l ->
    exists l', fold_left (fun acc i => l <- acc ;; a <- at_ l (i / 2) ;;
       b <- (if i mod 2 =? 0 then at_ l (i / 2) else at_ l (i / 2 + 1)) ;; let p := Mul K a b in
       Some (l ++ [Sub K (Add K p p) (if i mod 2 =? 0 then Const K (r1 K) else X K)]))
      (map (fun j => Z.of_nat (length l) + Z.of_nat j) (seq 0 n)) (Some l) = Some l' /\
      length l' = (length l + n)%nat /\ powers_ok K (fun n => T n x) x l').
  { induction n as [|n IH]; intros l Hl P; [exists l; cbn; auto with arith|].
    cbn [seq map fold_left bind]. replace (Z.of_nat (length l) + Z.of_nat 0) with (Z.of_nat (length l)) by lia. set (i := Z.of_nat (length l)) in *.
    destruct (at_lookup l (i / 2)) as (a & -> & Ha). { split; [apply Z.div_pos; lia|]. apply Z.div_lt_upper_bound; lia. }
    cbn [bind].
    assert (Hi2 : i = 2 * (i / 2) + i mod 2) by (apply Z.div_mod; lia). pose proof (Z.mod_pos_bound i 2 ltac:(lia)).
    destruct (P _ _ Ha) as [Ra Da]. rewrite Z2Nat.id in Da by lia.
    assert (exists b, (if i mod 2 =? 0 then Some a else at_ l (i / 2 + 1)) = Some b /\
       run x b = T (Z.to_nat (i - i / 2)) x /\ depth K b <= Z.log2_up (i - i / 2)) as (b & -> & Rb & Db).
    { destruct (Z.eqb_spec (i mod 2) 0).
      - exists a. split; [reflexivity|]. replace (i - i / 2) with (i / 2) by lia. split; auto.
      - destruct (at_lookup l (i / 2 + 1)) as (b & E & Hb); [lia|]. exists b. split; auto. replace (i - i / 2) with (i / 2 + 1) by lia.
        destruct (P _ _ Hb) as [R1 D1]. rewrite Z2Nat.id in D1 by lia. auto. }
    cbn [bind]. rewrite <- seq_shift, map_map. cbv zeta.
    set (nd := Sub K (Add K (Mul K a b) (Mul K a b)) (if i mod 2 =? 0 then Const K (r1 K) else X K)).
    destruct (IH (l ++ [nd])) as (l' & E & L & P').
    - rewrite app_length. cbn. lia.
    - apply powers_snoc; auto.
      + assert (TT := T_prod_Z x (i / 2) (i - i / 2) i ltac:(lia) ltac:(lia) ltac:(lia)).
        replace (length l) with (Z.to_nat i) by lia. rewrite TT. unfold nd. cbn [PolyEval_Spec.run]. rewrite Ra, Rb.
        destruct (Z.eqb_spec (i mod 2) 0).
        * replace (Z.to_nat (Z.abs (i / 2 - (i - i / 2)))) with 0%nat by lia. rewrite T_0. cbn. unfold PolyArith_Model.two. ring.
        * replace (Z.to_nat (Z.abs (i / 2 - (i - i / 2)))) with 1%nat by lia. rewrite T_1. cbn. unfold PolyArith_Model.two. ring.
      + unfold nd. cbn [depth]. fold i.
        assert (1 + Z.log2_up (i - i / 2) = Z.log2_up i).
        { destruct (Z.eqb_spec (i mod 2) 0).
          - rewrite <- log2_up_even by lia. f_equal. lia.
          - replace (i - i / 2) with (i / 2 + 1) by lia. rewrite <- log2_up_odd by lia. f_equal. lia. }
        pose proof (log2_up_mono (i / 2) (i - i / 2) ltac:(lia)). pose proof (Z.log2_up_nonneg i).
        destruct (i mod 2 =? 0); cbn [depth]; lia.
    - exists l'. split; [|split; auto].
      + rewrite <- E. f_equal. apply map_ext. intros j. rewrite app_length. cbn [length]. lia.
      + rewrite L, app_length. cbn. lia. }
  destruct (G (Z.to_nat (k - 1)) [Const K (r1 K); X K]) as (l & E & L & P).
  - cbn. lia.
  - intros [|[|j]] d Hd; cbn in Hd; try (injection Hd as <-); try (split; [reflexivity|cbn; lia]). destruct j; discriminate.
  - exists l. split; [exact E|]. split; auto. rewrite L. cbn [length]. lia.
Qed.

(** ** Decomposition *)
Variable is0 : R -> bool.
Hypothesis is0_ok : forall c, is0 c = true -> c = zero.
Definition psum (n : nat) (l : list R) (x : R) : R := rsum K n (fun j => nth j l zero *r T j x).
Lemma psum_set n l i v l' x : list_set l i v = Some l' ->
  psum n l' x = if Nat.ltb i n then psum n l x +r (v -r nth i l zero) *r T i x else psum n l x.
Proof.
  intros H. destruct (list_set_nth K _ _ _ _ H) as [L N]. unfold psum. induction n as [|n IH]; cbn [rsum]; [reflexivity|].
  rewrite IH, N. destruct (Nat.ltb_spec i n), (Nat.ltb_spec i (S n)), (Nat.eqb_spec n i); try lia; subst; try ring.
Qed.
Lemma divide_loop_ok k x : (1 <= k)%nat -> forall m p q, (k + m <= length p)%nat -> (m <= length q)%nat ->
  (forall j, (j < m)%nat -> nth j q zero = zero) ->
  exists p' q', divide_loop K is0 m k p q = Some (p', q') /\ length p' = length p /\ length q' = length q /\
    psum (k + m) p x +r T k x *r psum (length q) q x = psum k p' x +r T k x *r psum (length q) q' x.
Proof.
  intros Hk. induction m as [|m IH]; intros p q Lp Lq Zq.
  - exists p, q. rewrite Nat.add_0_r. auto.
  - cbn [divide_loop]. destruct (nth_error p (k + m)) as [pi|] eqn:Ep; [|apply nth_error_None in Ep; lia]. cbn [bind].
    assert (Npi : nth (k + m) p zero = pi) by (apply nth_error_nth; auto).
    assert (Psum : psum (k + S m) p x = psum (k + m) p x +r pi *r T (k + m) x).
    { replace (k + S m)%nat with (S (k + m)) by lia. unfold psum. cbn [rsum]. rewrite Npi. reflexivity. }
    destruct (is0 pi) eqn:Ez.
    + apply is0_ok in Ez. destruct (IH p q) as (p' & q' & E & Lp' & Lq' & S); [lia|lia|intros; apply Zq; lia|].
      exists p', q'. split; auto. split; auto. split; auto. rewrite <- S, Psum, Ez. ring.
    + destruct (Nat.eqb_spec (k + m) k) as [Ek|Ek].
      * assert (m = 0)%nat by lia. subst m. destruct (list_set_some K q 0 pi) as [q1 E1]; [lia|]. rewrite E1. cbn [bind].
        destruct (list_set_nth K _ _ _ _ E1) as [L1 N1].
        destruct (IH p q1) as (p' & q' & E & Lp' & Lq' & S); [lia|lia|lia|].
        exists p', q'. split; auto. split; auto. split; [lia|]. rewrite L1 in S. rewrite <- S, Psum, (psum_set _ _ _ _ _ _ E1).
        destruct (Nat.ltb_spec 0 (length q)); [|lia]. rewrite (Zq 0%nat) by lia. rewrite Nat.add_0_r, T_0. ring.
      * destruct (list_set_some K q (k + m - k) (rmul K pi (two_ K))) as [q1 E1]; [lia|]. rewrite E1. cbn [bind].
        destruct (list_set_nth K _ _ _ _ E1) as [L1 N1].
        set (t := Z.to_nat (Z.abs (Z.of_nat (k + m) - 2 * Z.of_nat k))).
        assert (Ht : (t < k + m)%nat) by (unfold t; lia).
        destruct (nth_error p t) as [pt|] eqn:Et; [|apply nth_error_None in Et; lia]. cbn [bind].
        assert (Npt : nth t p zero = pt) by (apply nth_error_nth; auto).
        destruct (list_set_some K p t (pt -r pi)) as [p1 E2]; [lia|]. rewrite E2. cbn [bind]. destruct (list_set_nth K _ _ _ _ E2) as [L2 N2].
        destruct (list_set_some K p1 (k + m) zero) as [p2 E3]; [lia|]. rewrite E3. cbn [bind]. destruct (list_set_nth K _ _ _ _ E3) as [L3 N3].
        destruct (IH p2 q1) as (p' & q' & E & Lp' & Lq' & S); [lia|lia| |].
        { intros j Hj. rewrite N1. destruct (Nat.eqb_spec j (k + m - k)); [lia|]. apply Zq. lia. }
        exists p', q'. split; auto. split; [lia|]. split; [lia|]. rewrite L1 in S. rewrite <- S, Psum.
        rewrite (psum_set _ _ _ _ _ _ E3), (psum_set _ _ _ _ _ _ E2), (psum_set _ _ _ _ _ _ E1).
        destruct (Nat.ltb_spec (k + m) (k + m)); [lia|]. destruct (Nat.ltb_spec t (k + m)); [|lia]. destruct (Nat.ltb_spec (k + m - k) (length q)); [|lia].
        rewrite (Zq (k + m - k)%nat) by lia. rewrite Npt. replace (k + m - k)%nat with m by lia.
        assert (TT := T_prod_abs x k m). replace (Z.to_nat (Z.abs (Z.of_nat k - Z.of_nat m))) with t in TT by (unfold t; lia).
        rewrite TT. unfold two_, PolyArith_Model.two. ring.
Qed.
Lemma divide_ok p k x : (1 <= k)%nat -> p <> [] ->
  exists q r, divide K is0 p k = Some (q, r) /\ (length q + length r = length p)%nat /\ (length r <= k)%nat /\ r <> [] /\
    series K p x = series K r x +r T k x *r series K q x.
Proof.
  intros Hk Hp. unfold divide. destruct (Nat.leb_spec (length p) k).
  - exists [], p. split; auto. split; [cbn; lia|]. split; auto. split; auto. unfold series at 3. cbn. ring.
  - destruct (divide_loop_ok k x Hk (length p - k) p (repeat zero (length p - k))) as (p' & q' & E & L1 & L2 & S).
    + lia.
    + rewrite repeat_length. lia.
    + intros. apply nth_repeat.
    + rewrite E. cbn [bind fst snd]. exists q', (firstn k p'). rewrite repeat_length in *.
      assert (Lf : length (firstn k p') = k) by (rewrite firstn_length; lia).
      split; auto. split; [lia|]. split; [lia|]. split.
      { intros Eq. rewrite Eq in Lf. cbn in Lf. lia. }
      replace (k + (length p - k))%nat with (length p) in S by lia.
      unfold series. rewrite Lf, L2. fold (psum (length p) p x) (psum (length p - k) q' x). fold (psum k (firstn k p') x).
      replace (psum k (firstn k p') x) with (psum k p' x).
      * rewrite <- S. replace (psum (length p - k) (repeat zero (length p - k)) x) with zero; [ring|].
        symmetry. unfold psum. rewrite (rsum_cut K 0); [reflexivity|lia|]. intros i _. rewrite nth_repeat. ring.
      * unfold psum. apply rsum_ext. intros i Hi.
        f_equal. rewrite <- (firstn_skipn k p') at 1. rewrite app_nth1 by lia. reflexivity.
Qed.
Fixpoint hornerv (l : list (list R)) (y x : R) : R :=
  match l with [] => zero | c :: r => series K c x +r y *r hornerv r y x end.
Lemma hornerv_recompose k l x : hornerv l (T k x) x = recompose K k l x.
Proof.
  unfold recompose. set (y := T k x). induction l as [|c l IH]; [reflexivity|]. cbn [hornerv length]. rewrite rsum_left. cbn [nth rpow].
  rewrite IH, <- rsum_scale. f_equal; [ring|]. apply rsum_ext. intros i _. ring.
Qed.
Definition total (l : list (list R)) : nat := fold_right (fun c n => (length c + n)%nat) 0%nat l.
Lemma decompose_ok k x : (1 <= k)%nat -> forall fuel p, (length p <= fuel)%nat ->
  exists l, decompose K is0 fuel p k = Some l /\ hornerv l (T k x) x = series K p x /\ (forall c, In c l -> (length c <= k)%nat /\ c <> []) /\ total l = length p.
Proof.
  intros Hk. induction fuel as [|f IH]; intros p Hp.
  - destruct p; [|cbn in Hp; lia]. exists []. cbn. split; auto. split; [reflexivity|]. split; [contradiction|auto].
  - destruct p as [|c p].
    + exists []. cbn. split; auto. split; [reflexivity|]. split; [contradiction|auto].
    + cbn [decompose]. destruct (divide_ok (c :: p) k x Hk) as (q & r & E & L & Lr & Nr & S); [discriminate|]. rewrite E. cbn [bind fst snd].
      assert (length r <> 0)%nat by (destruct r; [contradiction|discriminate]).
      destruct (IH q) as (l & El & V & B & Tl); [lia|]. rewrite El. cbn [bind]. exists (r :: l). split; auto. split.
      * cbn [hornerv]. rewrite V, S. reflexivity.
      * split; [intros c' [<-|Hc]; auto|]. cbn [total fold_right]. fold (total l). lia.
Qed.

(** ** Combining the baby steps *)
Variable small : R -> bool.
Definition keep (c : R) : R := if small c then zero else c.
Lemma baby_step_ok x powers k coeffs : good_cache x powers -> (forall j, 0 <= j < k -> In j (keys powers)) -> Z.of_nat (length coeffs) <= k ->
  exists s, baby_step K small powers coeffs = Some s /\ run_opt K x s = series K (map keep coeffs) x /\
    (s = None <-> forall c, In c coeffs -> small c = true).
Proof.
  intros Gp Hp Hl. unfold baby_step. destruct (existsb (fun c => negb (small c)) coeffs) eqn:Ex; cbn [negb].
  - set (step := fun acc jc => _).
    assert (G : forall cs off pol, Z.of_nat (off + length cs) <= k ->
      exists s, fold_left step (combine (map Z.of_nat (seq off (length cs))) cs) (Some pol) = Some s /\
        run_opt K x s = run_opt K x pol +r rsum K (length cs) (fun j => keep (nth j cs zero) *r T (off + j) x) /\
        (s = None <-> pol = None /\ forall c, In c cs -> small c = true)).
    { induction cs as [|c cs IH]; intros off pol Ho.
      - exists pol. split; [reflexivity|]. split; [cbn; ring|]. intuition.
      - cbn [length seq map combine fold_left]. cbn [length] in Ho. unfold step at 2. cbn [bind fst snd].
        assert (Sum : forall F, rsum K (S (length cs)) (fun j => keep (nth j (c :: cs) zero) *r T (off + j) x) = F +r
           rsum K (length cs) (fun j => keep (nth j cs zero) *r T (S off + j) x) <-> keep c *r T off x +r rsum K (length cs) (fun j => keep (nth j cs zero) *r T (S off + j) x) = F +r
           rsum K (length cs) (fun j => keep (nth j cs zero) *r T (S off + j) x)).
        { intros F. rewrite rsum_left. cbn [nth]. rewrite Nat.add_0_r.
          rewrite (rsum_ext K (length cs) (fun i => keep (nth i cs zero) *r T (off + S i) x) (fun j => keep (nth j cs zero) *r T (S off + j) x)); [reflexivity|].
          intros i _. replace (off + S i)%nat with (S off + i)%nat by lia. reflexivity. }
        assert (Sum' : rsum K (S (length cs)) (fun j => keep (nth j (c :: cs) zero) *r T (off + j) x) = keep c *r T off x +r
           rsum K (length cs) (fun j => keep (nth j cs zero) *r T (S off + j) x)) by (apply Sum; reflexivity).
        rewrite Sum'. clear Sum Sum'. unfold keep at 1. destruct (small c) eqn:Es.
        + destruct (IH (S off) pol) as (s & E & V & N); [lia|]. exists s. split; auto. split; [rewrite V; ring|]. rewrite N.
          split; intros [A B]; split; auto; intros d Hd; [destruct Hd as [<-|]; auto|apply B; now right].
        + destruct (find_cache_some powers (Z.of_nat off)) as [t Et]; [apply Hp; lia|]. rewrite Et. cbn [bind].
          apply find_cache_in in Et. destruct (Gp _ _ Et) as [Rt _]. rewrite Nat2Z.id in Rt.
          set (pol' := match pol with Some w => Some (Add K w (Mul K (Const K c) t)) | None => Some (Mul K (Const K c) t) end).
          destruct (IH (S off) pol') as (s & E & V & N); [lia|]. exists s. split; auto.
          split; [rewrite V; unfold pol'; destruct pol; cbn [run_opt PolyEval_Spec.run]; rewrite Rt; ring|].
          rewrite N. split; intros [A B].
          * unfold pol' in A. destruct pol; discriminate.
          * specialize (B c ltac:(now left)). congruence. }
    destruct (G coeffs 0%nat None) as (s & E & V & N); [lia|]. exists s. split; auto. split.
    + rewrite V. cbn [run_opt Nat.add]. unfold series. rewrite map_length.
      rewrite (rsum_ext K (length coeffs) (fun i => nth i (map keep coeffs) zero *r T i x) (fun j => keep (nth j coeffs zero) *r T j x)); [ring|].
      intros i Hi. f_equal. rewrite (nth_indep (map keep coeffs) zero (keep zero)) by (rewrite map_length; auto). apply map_nth.
    + rewrite N. intuition.
  - exists None. split; auto.
    assert (A : forall c, In c coeffs -> small c = true).
    { intros c Hc. destruct (small c) eqn:Es; auto. exfalso.
      assert (existsb (fun c => negb (small c)) coeffs = true); [|congruence]. apply existsb_exists. exists c. rewrite Es. auto. }
    split; [|intuition]. cbn [run_opt]. unfold series. symmetry. rewrite (rsum_cut K 0); [reflexivity|lia|].
    intros i Hi. rewrite map_length in Hi. rewrite (nth_indep (map keep coeffs) zero (keep zero)) by (rewrite map_length; lia). rewrite map_nth.
    unfold keep. rewrite A by (apply nth_In; lia). ring.
Qed.
Fixpoint hopt (l : list (option (dag K))) (y x : R) : R :=
  match l with [] => zero | a :: r => run_opt K x a +r y *r hopt r y x end.
Lemma round_ok x y : forall n l, (length l <= n)%nat ->
  hopt (combine_round K l y) (run x y *r run x y) x = hopt l (run x y) x /\
  length (combine_round K l y) = ((length l + 1) / 2)%nat /\
  ((forall a, In a l -> a = None) <-> (forall a, In a (combine_round K l y) -> a = None)).
Proof.
  induction n as [|n IH]; intros l Hl.
  - destruct l; [|cbn in Hl; lia]. cbn. intuition.
  - destruct l as [|a [|b r]].
    + cbn. intuition.
    + cbn [combine_round]. split; [cbn; ring|]. split; [reflexivity|]. intuition.
    + destruct (IH r) as (V & L & N); [cbn in Hl; lia|]. cbn [combine_round hopt length]. split; [|split].
      * rewrite V. destruct b as [b|]; [destruct a as [a|]|]; cbn [run_opt PolyEval_Spec.run]; ring.
      * rewrite L. replace (S (S (length r)) + 1)%nat with (length r + 1 + 1 * 2)%nat by lia. rewrite Nat.div_add by lia. lia.
      * split; intros H.
        -- pose proof (H a ltac:(now left)). pose proof (H b ltac:(right; now left)). subst. intros c [<-|Hc]; auto. apply (proj1 N); auto.
           intros d Hd. apply H. right. now right.
        -- assert (H0 := H _ ltac:(now left)). cbv beta in H0. assert (b = None) by (destruct b; [discriminate|auto]). subst b. subst a.
           intros c [<-|[<-|Hc]]; auto. apply (proj2 N); auto. intros d Hd. apply H. now right.
Qed.
Lemma combine_all_ok x : forall fuel l y, (1 <= length l <= S fuel)%nat ->
  exists r, combine_all K fuel l y = Some r /\ run_opt K x r = hopt l (run x y) x /\ (r = None <-> forall a, In a l -> a = None).
Proof.
  induction fuel as [|f IH]; intros l y Hl.
  - destruct l as [|a [|b l]]; cbn in Hl; try lia. exists a. cbn. split; auto. split; [ring|]. split; [intros -> c [<-|[]]; auto|intros H; apply H; now left].
  - destruct l as [|a [|b l]].
    + cbn in Hl; lia.
    + exists a. cbn. split; auto. split; [ring|]. split; [intros -> c [<-|[]]; auto|intros H; apply H; now left].
    + cbn [combine_all]. destruct (round_ok x y (length (a :: b :: l)) (a :: b :: l)) as (V & L & N); [lia|].
      destruct (IH (combine_round K (a :: b :: l) y) (Mul K y y)) as (r & E & Vr & Nr).
      { rewrite L. cbn [length] in *. pose proof (Nat.div_mod (S (S (length l)) + 1) 2 ltac:(lia)). pose proof (Nat.mod_upper_bound (S (S (length l)) + 1) 2 ltac:(lia)). lia. }
      exists r. split; auto. split; [rewrite Vr; exact V|]. rewrite Nr. symmetry. exact N.
Qed.
Lemma steps_ok x powers k dec : good_cache x powers -> (forall j, 0 <= j < k -> In j (keys powers)) ->
  (forall c, In c dec -> Z.of_nat (length c) <= k) ->
  exists steps, fold_left (fun acc coeffs => l <- acc ;; s <- baby_step K small powers coeffs ;; Some (l ++ [s])) dec (Some []) = Some steps /\
    length steps = length dec /\ (forall y, hopt steps y x = hornerv (map (map keep) dec) y x) /\
    ((forall a, In a steps -> a = None) <-> (forall c, In c dec -> forall d, In d c -> small d = true)).
Proof.
  intros Gp Hp. set (step := fun acc coeffs => _).
  assert (G : forall dec pre, (forall c, In c dec -> Z.of_nat (length c) <= k) ->
    exists steps, fold_left step dec (Some pre) = Some (pre ++ steps) /\
    length steps = length dec /\ (forall y, hopt steps y x = hornerv (map (map keep) dec) y x) /\
    ((forall a, In a steps -> a = None) <-> (forall c, In c dec -> forall d, In d c -> small d = true))).
  { clear dec. induction dec as [|c dec IH]; intros pre Hd.
    - exists []. rewrite app_nil_r. cbn. split; auto. split; auto. split; auto. split; intros _ ? [].
    - destruct (baby_step_ok x powers k c Gp Hp) as (s & Es & Vs & Ns); [apply Hd; now left|].
      cbn [fold_left]. unfold step at 2. cbn [bind]. rewrite Es. cbn [bind].
      destruct (IH (pre ++ [s])) as (steps & E & L & V & N); [intros; apply Hd; now right|].
      exists (s :: steps). rewrite E, <- app_assoc. split; auto. split; [cbn; lia|]. split.
      + intros y. cbn [hopt map hornerv]. rewrite V, Vs. reflexivity.
      + split; intros H.
        * intros c' [<-|Hc'].
          -- apply Ns. apply H. now left.
          -- apply N; auto. intros a Ha. apply H. now right.
        * intros a [<-|Ha].
          -- apply Ns. apply H. now left.
          -- revert a Ha. apply N. intros c' Hc'. apply H. now right. }
  intros Hd. destruct (G dec [] Hd) as (steps & E & R1). exists steps. split; auto.
Qed.
Lemma ps_chebyshev_ok c x : (2 <= length c)%nat -> Z.of_nat (length c) < 2 ^ 60 ->
  exists k dec r, decompose K is0 (length c) c k = Some dec /\ (2 <= k)%nat /\ Z.of_nat k < 2 ^ 62 /\
    hornerv dec (T k x) x = series K c x /\ (forall c', In c' dec -> (length c' <= k)%nat) /\ total dec = length c /\
    ps_chebyshev K is0 small c = Some r /\
    run_opt K x r = hornerv (map (map keep) dec) (T k x) x /\
    (r = None <-> forall c', In c' dec -> forall d, In d c' -> small d = true).
Proof.
  intros H1 H2. set (k := 2 ^ optimal_split (Z.log2 (Z.of_nat (length c) - 1) + 1)).
  assert (Hlog : 0 <= Z.log2 (Z.of_nat (length c) - 1) < 60).
  { split; [apply Z.log2_nonneg|]. apply Z.log2_lt_pow2; lia. }
  set (L := Z.log2 (Z.of_nat (length c) - 1) + 1) in *.
  assert (Hs : 1 <= optimal_split L < 62).
  { unfold optimal_split. assert (Sh : Z.shiftr L 1 = L / 2) by (rewrite Z.shiftr_div_pow2 by lia; reflexivity).
    pose proof (Z.div_mod L 2 ltac:(lia)). pose proof (Z.mod_pos_bound L 2 ltac:(lia)).
    destruct (Z.eq_dec L 1) as [E1|E1].
    - rewrite E1. vm_compute. split; [discriminate|reflexivity].
    - rewrite Sh. destruct (_ >? _); lia. }
  assert (Hk : 2 <= k < 2 ^ 62).
  { unfold k. split; [change 2 with (2 ^ 1) at 1; apply Z.pow_le_mono_r; lia|apply Z.pow_lt_mono_r; lia]. }
  destruct (decompose_ok (Z.to_nat k) x ltac:(lia) (length c) c (le_n _)) as (dec & Ed & Vd & Bd & Td).
  destruct (gen_powers_ok x k) as (pw & Ep & Gp & Kp); [change (2 ^ 62) with 4611686018427387904 in Hk; change (2 ^ 63) with 9223372036854775808; lia|].
  destruct (steps_ok x pw k dec Gp) as (steps & Es & Ls & Vs & Ns); [intros; apply Kp; lia|intros c' Hc'; destruct (Bd c' Hc'); lia|].
  destruct (find_cache_some pw k) as [y Ey]; [apply Kp; lia|].
  assert (Ry : run x y = T (Z.to_nat k) x) by (apply find_cache_in in Ey; apply (Gp _ _ Ey)).
  destruct (combine_all_ok x (length steps) steps y) as (r & Er & Vr & Nr).
  { rewrite Ls. destruct dec as [|d0 dec]; [cbn in Td; lia|]. cbn. lia. }
  exists (Z.to_nat k), dec, r. split; auto. split; [lia|]. split; [lia|]. split; auto. split; [intros c' Hc'; apply (Bd c' Hc')|]. split; auto. split.
  - unfold ps_chebyshev. destruct c as [|c0 [|c1 c]]; [cbn in H1; lia|cbn in H1; lia|]. cbv zeta. fold L. fold k.
    rewrite Ed. cbn [bind]. rewrite Ep. cbn [bind]. rewrite Es. cbn [bind]. rewrite Ey. exact Er.
  - split; [rewrite Vr, Ry; apply Vs|]. rewrite Nr. exact Ns.
Qed.
End Cheb.
