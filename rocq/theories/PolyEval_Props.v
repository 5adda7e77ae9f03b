(** C21-C23 and C55-C57: evaluation programs for polynomials. *)
From Coq Require Import ZArith List Bool Lia Reals Lra.
From Verif Require Import Words Kernel_Model Kernel_Spec Kernel_Proofs PolyArith_Model PolyArith_Spec PolyCheb_Proofs PolyEval_Model PolyEval_Spec PolyEval_Proofs PolyEvalCheb_Proofs PolyEvalReal_Proofs.
Import ListNotations.
Open Scope Z_scope.

Section Props.
Variable K : cring.

(** ** C21 *)
(** Horner's program exists for every sparse polynomial, empty included, and
    computes its value. *)
Theorem C21_horner m hi : increasing K 0 hi m ->
  exists d, horner K m = Some d /\ forall x, run K x d = value K m x.
Proof.
  intros H. destruct (horner_ok K m hi (r0 K) H) as (d & E & _). exists d. split; auto. intros x.
  destruct (horner_ok K m hi x H) as (d' & E' & V). congruence.
Qed.
(** ** C22 *)
(** for the block size the code chooses *)
Theorem C22_ps_monomial m hi : increasing K 0 hi m ->
  exists d, ps_monomial K m = Some d /\ forall x, run K x d = value K m x.
Proof.
  intros H. assert (G : forall k, 1 <= k -> exists d, ps_monomial_with K k m = Some d /\ forall x, run K x d = value K m x).
  { intros k Hk. destruct (ps_monomial_ok K k m hi (r0 K) Hk H) as (d & E & _). exists d. split; auto. intros x.
    destruct (ps_monomial_ok K k m hi x Hk H) as (d' & E' & V). congruence. }
  unfold ps_monomial. destruct (max_key K m); apply G; lia.
Qed.
(** and for any other *)
Theorem C22_any_block k m hi : 1 <= k -> increasing K 0 hi m ->
  exists d, ps_monomial_with K k m = Some d /\ forall x, run K x d = value K m x.
Proof.
  intros Hk H. destruct (ps_monomial_ok K k m hi (r0 K) Hk H) as (d & E & _). exists d. split; auto. intros x.
  destruct (ps_monomial_ok K k m hi x Hk H) as (d' & E' & V). congruence.
Qed.

(** ** C56 *)
(** Powers x^0 .. x^k, each with as few levels of multiplication as possible
    for a single power. *)
Theorem C56_powers k : 1 <= k ->
  exists l, compute_powers K k = Some l /\ Z.of_nat (length l) = k + 1 /\
    forall j d, nth_error l j = Some d -> (forall x, run K x d = rpow K x j) /\ depth K d <= Z.log2_up (Z.of_nat j).
Proof.
  intros Hk. destruct (compute_powers_ok K k (r0 K) Hk) as (l & E & L & P). exists l. split; auto. split; auto. intros j d Hd.
  split; [|apply (P _ _ Hd)]. intros x. destruct (compute_powers_ok K k x Hk) as (l' & E' & L' & P'). assert (l' = l) by congruence. subst. apply (P' _ _ Hd).
Qed.
Theorem C56_chebyshev_values k : 1 <= k ->
  exists l, compute_chebyshev K k = Some l /\ Z.of_nat (length l) = k + 1 /\
    forall j d, nth_error l j = Some d -> (forall x, run K x d = T K j x) /\ depth K d <= Z.log2_up (Z.of_nat j).
Proof.
  intros Hk. destruct (compute_chebyshev_ok K k (r0 K) Hk) as (l & E & L & P). exists l. split; auto. split; auto. intros j d Hd.
  split; [|apply (P _ _ Hd)]. intros x. destruct (compute_chebyshev_ok K k x Hk) as (l' & E' & L' & P'). assert (l' = l) by congruence. subst. apply (P' _ _ Hd).
Qed.
(** the cached construction *)
Theorem C56_cached_values k : 0 <= k < 2 ^ 63 ->
  exists c, gen_powers K k = Some c /\
    forall j, 0 <= j <= k -> exists d, find_cache K c j = Some d /\ (forall x, run K x d = T K (Z.to_nat j) x) /\ depth K d <= Z.log2_up j.
Proof.
  intros Hk. destruct (gen_powers_ok K (r0 K) k Hk) as (c & E & G & Kk). exists c. split; auto. intros j Hj.
  destruct (find_cache_some K c j (Kk j Hj)) as [d F]. exists d. split; auto.
  assert (Hin := find_cache_in K c j d F). split; [|apply (G _ _ Hin)]. intros x.
  destruct (gen_powers_ok K x k Hk) as (c' & E' & G' & _). assert (c' = c) by congruence. subst. apply (G' _ _ Hin).
Qed.

(** ** C55 *)
Variable is0 : K -> bool.
Hypothesis is0_ok : forall x, is0 x = true -> x = r0 K.
(** The decomposition ends, its parts are non-empty series of degree below k,
    with as many coefficients in total as the input, and it denotes the same
    function. *)
Theorem C55_decompose k p : (1 <= k)%nat ->
  exists l, decompose K is0 (length p) p k = Some l /\
    (forall x, recompose K k l x = series K p x) /\
    (forall c, In c l -> (1 <= length c <= k)%nat) /\
    length (concat l) = length p.
Proof.
  intros Hk. destruct (decompose_ok K is0 is0_ok k (r0 K) Hk (length p) p (le_n _)) as (l & E & _ & B & Tl).
  exists l. split; auto. split; [|split].
  - intros x. destruct (decompose_ok K is0 is0_ok k x Hk (length p) p (le_n _)) as (l' & E' & V & _). assert (l' = l) by congruence. subst.
    rewrite <- hornerv_recompose. exact V.
  - intros c Hc. destruct (B c Hc) as [B1 B2]. destruct c; [contradiction|]. cbn in *. lia.
  - rewrite <- Tl. clear. induction l as [|c l IH]; cbn; auto. rewrite app_length, IH. reflexivity.
Qed.

(** ** C23 *)
(** When only zero coefficients are dropped the program computes the series.
    A null result counts as zero, see [C23_null_refuted]. *)
Variable small : K -> bool.
Theorem C23_exact_partial c : (forall a, small a = true -> a = r0 K) -> Z.of_nat (length c) < 2 ^ 60 ->
  exists r, ps_chebyshev K is0 small c = Some r /\ forall x, run_opt K x r = series K c x.
Proof.
  intros Hs Hl.
  assert (Kid : forall a, keep K small a = a). { intros a. unfold keep. destruct (small a) eqn:E; auto. symmetry. auto. }
  destruct c as [|c0 [|c1 c]].
  - exists None. split; reflexivity.
  - eexists. split; [reflexivity|]. intros x. unfold series. cbn [length rsum nth]. rewrite T_0.
    assert (S : forall a, radd K (r0 K) (rmul K a (r1 K)) = a) by (intros; pose proof (r_ok K) as Rk; rewrite (Radd_0_l Rk), (Rmul_comm Rk); apply (Rmul_1_l Rk)).
    rewrite S. destruct (small c0) eqn:E; [symmetry; apply Hs in E; exact E|reflexivity].
  - set (cs := c0 :: c1 :: c) in *. assert (H2 : (2 <= length cs)%nat) by (cbn; lia).
    destruct (ps_chebyshev_ok K is0 is0_ok small cs (r0 K) H2 Hl) as (_ & _ & r & _ & _ & _ & _ & _ & _ & E & _). exists r. split; auto. intros x.
    destruct (ps_chebyshev_ok K is0 is0_ok small cs x H2 Hl) as (k & dec & r' & _ & _ & _ & V & _ & _ & E' & V' & _).
    assert (r' = r) by congruence. subst. rewrite V', <- V. f_equal. clear -Kid. induction dec as [|d dec IH]; auto. cbn. rewrite IH. f_equal.
    clear -Kid. induction d as [|a d IH]; auto. cbn. rewrite IH, Kid. reflexivity.
Qed.
End Props.

(** Over the reals, with inputs in [lower, upper] mapped to [-1, 1] as the
    lowering does: the error is at most the number of coefficients times the
    threshold. *)
Theorem C23_error_bound_partial (is0 is1 isz small : R -> bool) (t lower upper x : R) (c : list R) :
  (forall a, is0 a = true -> a = 0%R) -> (forall a, is1 a = true -> a = 1%R) -> (forall a, isz a = true -> a = 0%R) ->
  (forall a, small a = true -> (Rabs a <= t)%R) -> (0 <= t)%R -> (lower < upper)%R -> (lower <= x <= upper)%R ->
  Z.of_nat (length c) < 2 ^ 60 ->
  exists r, ps_chebyshev Rcring is0 small c = Some r /\
    let y := run Rcring x (scaled_input Rcring is1 isz (rescale lower upper) (shift lower upper)) in
    y = (2 * (x - lower) / (upper - lower) - 1)%R /\ (-1 <= y <= 1)%R /\
    (Rabs (run_opt Rcring y r - series Rcring c y) <= INR (length c) * t)%R.
Proof.
  intros H0 H1 Hz Hs Ht Hlu Hx Hl.
  assert (Y := scaled_input_ok is1 isz lower upper x H1 Hz Hlu). cbv zeta. rewrite Y. assert (U := unit_interval lower upper x Hlu Hx).
  set (y := (2 * (x - lower) / (upper - lower) - 1)%R) in *. clearbody y. clear Y.
  destruct c as [|c0 [|c1 c]].
  - exists None. split; [reflexivity|]. split; [reflexivity|]. split; [exact U|]. cbn. rewrite Rminus_0_r, Rabs_R0. lra.
  - eexists. split; [reflexivity|]. split; [reflexivity|]. split; [exact U|].
    assert (S : series Rcring [c0] y = c0) by (unfold series; cbn; ring). rewrite S. change (INR (length [c0])) with 1%R.
    destruct (small c0) eqn:E.
    + change (run_opt Rcring y None) with 0%R. rewrite Rminus_0_l, Rabs_Ropp, Rmult_1_l. auto.
    + change (run_opt Rcring y (Some (Const Rcring c0))) with c0. rewrite Rminus_diag_eq by reflexivity. rewrite Rabs_R0. lra.
  - set (cs := c0 :: c1 :: c) in *. assert (H2 : (2 <= length cs)%nat) by (cbn; lia).
    destruct (ps_chebyshev_ok Rcring is0 H0 small cs y H2 Hl) as (k & dec & r & _ & _ & _ & V & _ & Tl & E & V' & _).
    exists r. split; auto. split; [reflexivity|]. split; [exact U|]. 
    assert (C := hornerv_close small t Hs Ht dec y (T Rcring k y) U (T_bound k y U)). rewrite Tl in C. rewrite V', <- V. exact C.
Qed.

(** The zero series, and every series of small coefficients, yields a null
    program, which Patterns.cpp:222-225 hands to the visitor. *)
Theorem C23_null_refuted : exists c : list Z, length c = 3%nat /\ ps_chebyshev Zcring (Z.eqb 0) (Z.eqb 0) c = Some None.
Proof. exists [0; 0; 0]. split; reflexivity. Qed.

(** A block size of zero never ends. *)
Theorem C55_zero_block_refuted : exists p : list Z, forall fuel, decompose Zcring (Z.eqb 0) fuel p 0 = None.
Proof. exists [1]. induction fuel as [|f IH]; [reflexivity|]. cbn [decompose]. change (divide Zcring (Z.eqb 0) [1] 0) with (Some ([1], @nil Z)). cbn [bind fst snd]. rewrite IH. reflexivity. Qed.
(** splitDegree does not make the parts as close as possible, contrary to its
    comment: 9 becomes 7 + 2, not 5 + 4. *)
Theorem C56_balanced_refuted : exists n a b a' b', split_degree n = Some (a, b) /\ a' + b' = n /\ Z.log2_up a' <= Z.log2_up a /\ Z.log2_up b' <= Z.log2_up a /\
  Z.abs (a' - b') < Z.abs (a - b).
Proof. exists 9, 7, 2, 5, 4. vm_compute. repeat split; discriminate || reflexivity. Qed.

(** ** C57 *)
Section Lower.
Variable K : cring.
(** A non-empty monomial-basis polynomial is replaced by a program for its
    value, by either method on request, and by the automatic method up to
    degree 5. *)
Theorem C57_lowered_partial how (m : list (K * Z)) hi :
  increasing K 0 hi m -> m <> [] ->
  (how = Horner \/ how = PatersonStockmeyer \/ how = Automatic /\ forall c e, In (c, e) m -> e <= 5) ->
  exists d, lower_monomial K how m = Some (Some d) /\ forall x, run K x d = value K m x.
Proof.
  intros H Hne Hh. destruct (C21_horner K m hi H) as (dh & Eh & Vh). destruct (C22_ps_monomial K m hi H) as (dp & Ep & Vp).
  destruct (exists_last Hne) as (m' & [c e] & ->).
  assert (M := max_key_last K m' c e).
  destruct Hh as [->|[->|[-> H5]]]; unfold lower_monomial, horner_pattern, ps_pattern; rewrite M; cbn [bind negb andb].
  - rewrite Eh. exists dh. auto.
  - rewrite Ep. exists dp. auto.
  - specialize (H5 c e). destruct (Z.gtb_spec e 5).
    + exfalso. assert (e <= 5); [apply H5; apply in_or_app; right; now left|lia].
    + rewrite Eh. exists dh. auto.
Qed.
(** whatever is produced is right *)
Theorem C57_sound how (m : list (K * Z)) hi d :
  increasing K 0 hi m -> lower_monomial K how m = Some (Some d) -> forall x, run K x d = value K m x.
Proof.
  intros H E. destruct (C21_horner K m hi H) as (dh & Eh & Vh). destruct (C22_ps_monomial K m hi H) as (dp & Ep & Vp).
  unfold lower_monomial, horner_pattern, ps_pattern in E. rewrite Eh, Ep in E.
  destruct how; destruct (max_key K m) as [n|]; cbn [bind negb andb] in E; try discriminate;
    try destruct (n >? 5); cbn [bind] in E; try discriminate; injection E as <-; auto.
Qed.
End Lower.
(** From degree 6 on the automatic method leaves the operation in place. *)
Theorem C57_automatic_refuted : exists m : list (Z * Z), increasing Zcring 0 7 m /\ m <> [] /\ lower_monomial Zcring Automatic m = Some None.
Proof. exists [(1, 6)]. split; [cbn; lia|]. split; [discriminate|]. reflexivity. Qed.
(** The zero polynomial has no last term. *)
Theorem C57_zero_refuted : forall how, how <> PatersonStockmeyerChebyshev -> lower_monomial Zcring how [] = None.
Proof. intros []; intros; reflexivity || contradiction. Qed.

Print Assumptions C21_horner. Print Assumptions C22_ps_monomial. Print Assumptions C22_any_block.
Print Assumptions C56_powers. Print Assumptions C56_chebyshev_values. Print Assumptions C56_cached_values. Print Assumptions C56_balanced_refuted.
Print Assumptions C55_decompose. Print Assumptions C55_zero_block_refuted.
Print Assumptions C23_exact_partial. Print Assumptions C23_error_bound_partial. Print Assumptions C23_null_refuted.
Print Assumptions C57_lowered_partial. Print Assumptions C57_sound. Print Assumptions C57_automatic_refuted. Print Assumptions C57_zero_refuted.

(** 2 + 3x^2 + x^5 at 3 *)
Example C21_nonvacuous :
  let m : list (Z * Z) := [(2, 0); (3, 2); (1, 5)] in
  increasing Zcring 0 6 m /\ option_map (run Zcring 3) (horner Zcring m) = Some 272 /\ value Zcring m 3 = 272.
Proof. cbn [increasing]. repeat split; lia || reflexivity. Qed.
Example C22_nonvacuous :
  let m : list (Z * Z) := [(2, 0); (3, 2); (1, 5); (7, 11)] in
  increasing Zcring 0 12 m /\ option_map (run Zcring 2) (ps_monomial Zcring m) = Some 14382 /\ value Zcring m 2 = 14382 /\
  option_map (depth Zcring) (ps_monomial Zcring m) = Some 5 /\ option_map (depth Zcring) (horner Zcring m) = Some 11.
Proof. cbn [increasing]. vm_compute. repeat split; discriminate || reflexivity. Qed.
(** a series of degree 6 at 2; Z.eqb 0 drops only zeros *)
Example C23_nonvacuous :
  let c : list Z := [1; 2; 0; 4; 5; 0; 7] in
  option_map (run_opt Zcring 2) (ps_chebyshev Zcring (Z.eqb 0) (Z.eqb 0) c) = Some 10051 /\ series Zcring c 2 = 10051.
Proof. vm_compute. auto. Qed.
Example C23_real_nonvacuous : exists small : R -> bool, small (1 / 4)%R = true /\ small 1%R = false /\ (forall a, small a = true -> (Rabs a <= 1 / 2)%R).
Proof.
  exists (fun a => if Rlt_dec (Rabs a) (1 / 2) then true else false). repeat split.
  - destruct (Rlt_dec _ _) as [|n]; auto. exfalso. apply n. rewrite Rabs_pos_eq; lra.
  - destruct (Rlt_dec _ _) as [n|]; auto. exfalso. rewrite Rabs_pos_eq in n; lra.
  - intros a. destruct (Rlt_dec _ _); [lra|discriminate].
Qed.
Example C55_nonvacuous :
  decompose Zcring (Z.eqb 0) 7 [1; 2; 3; 4; 5; 6; 7] 3 = Some [[-6; -4; -2]; [4; 10; 12]; [14]] /\
  recompose Zcring 3 [[-6; -4; -2]; [4; 10; 12]; [14]] 2 = series Zcring [1; 2; 3; 4; 5; 6; 7] 2.
Proof. vm_compute. auto. Qed.
Example C56_nonvacuous :
  option_map (map (depth Zcring)) (compute_chebyshev Zcring 9) = Some [0; 0; 1; 2; 2; 3; 3; 3; 3; 4] /\
  option_map (map (depth Zcring)) (compute_powers Zcring 9) = Some [0; 0; 1; 2; 2; 3; 3; 3; 3; 4] /\
  (c <- gen_powers Zcring 9 ;; d <- find_cache Zcring c 9 ;; Some (depth Zcring d, run Zcring 2 d)) = Some (4, T Zcring 9 2).
Proof. vm_compute. auto. Qed.
Example C57_nonvacuous :
  option_map (option_map (run Zcring 2)) (lower_monomial Zcring Automatic [(2, 0); (3, 5)]) = Some (Some 98) /\
  option_map (option_map (run Zcring 2)) (lower_monomial Zcring PatersonStockmeyer [(2, 0); (3, 6)]) = Some (Some 194).
Proof. vm_compute. auto. Qed.
