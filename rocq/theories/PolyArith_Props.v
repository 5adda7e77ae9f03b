(** C24 and C25: sparse polynomials and Chebyshev series. *)
From Coq Require Import ZArith List Bool Lia Ring Permutation QArith Qcanon.
From Verif Require Import Words ModArith_Proofs NumTheory_Model Kernel_Model Kernel_Spec Kernel_Proofs PolyArith_Model PolyArith_Spec PolyArith_Proofs PolyCheb_Proofs.
Import ListNotations.
Open Scope Z_scope.

Section Props.
Variable K : cring.
Add Ring Kring : (r_ok K).
Variable is0 : K -> bool.
Hypothesis is0_ok : forall x, is0 x = true -> x = r0 K.

(** A sum that is returned is the sum, term by term and at every point, and
    its exponents are increasing. Partial: the merge fails on interleaved
    exponents, see [C25_add_refuted]. *)
Theorem C25_add_partial p q r :
  increasing K 0 (2 ^ 64) p -> increasing K 0 (2 ^ 64) q -> add K is0 p q = Some r ->
  (forall d, coefficient K r d = radd K (coefficient K p d) (coefficient K q d)) /\
  (forall x, value K r x = radd K (value K p x) (value K q x)) /\
  increasing K 0 (2 ^ 64) r.
Proof.
  intros Hp Hq H. unfold add in H. split; [|split].
  - intros d. apply (add_loop_weigh K is0 is0_ok _ _ _ _ _ H).
  - intros x. apply (add_loop_weigh K is0 is0_ok _ _ _ _ _ H).
  - eapply add_loop_inc; [|exact H|exact Hp|exact Hq]. lia.
Qed.
(** it is returned when every exponent of one polynomial occurs in the other *)
Theorem C25_add_nested p q :
  increasing K 0 (2 ^ 64) p -> increasing K 0 (2 ^ 64) q ->
  incl (map snd p) (map snd q) \/ incl (map snd q) (map snd p) ->
  exists r, add K is0 p q = Some r.
Proof. intros Hp Hq H. eapply add_loop_nested; eauto. lia. Qed.

Theorem C25_sub_partial p q r :
  increasing K 0 (2 ^ 64) p -> increasing K 0 (2 ^ 64) q -> sub K is0 p q = Some r ->
  (forall d, coefficient K r d = rsub K (coefficient K p d) (coefficient K q d)) /\
  (forall x, value K r x = rsub K (value K p x) (value K q x)) /\
  increasing K 0 (2 ^ 64) r.
Proof.
  intros Hp Hq H. unfold sub, add in H. split; [|split].
  - intros d. etransitivity; [apply (add_loop_weigh K is0 is0_ok _ _ _ _ _ H)|]. rewrite weigh_scale. unfold coefficient. ring.
  - intros x. etransitivity; [apply (add_loop_weigh K is0 is0_ok _ _ _ _ _ H)|]. rewrite weigh_scale. unfold value. ring.
  - eapply add_loop_inc; [|exact H|exact Hp|apply inc_scale; exact Hq]. lia.
Qed.

Theorem C25_scale c p :
  increasing K 0 (2 ^ 64) p ->
  (forall d, coefficient K (scale K c p) d = rmul K c (coefficient K p d)) /\
  (forall x, value K (scale K c p) x = rmul K c (value K p x)) /\
  increasing K 0 (2 ^ 64) (scale K c p).
Proof.
  intros Hp. split; [|split].
  - intros d. apply weigh_scale.
  - intros x. apply weigh_scale.
  - apply inc_scale. auto.
Qed.

(** exponents must not exceed 64 bits *)
Theorem C25_monomial_mul e p :
  0 <= e -> increasing K 0 (2 ^ 64 - e) p ->
  (forall d, coefficient K (monomial_mul K e p) (d + e) = coefficient K p d) /\
  (forall x, value K (monomial_mul K e p) x = rmul K (rpow K x (Z.to_nat e)) (value K p x)) /\
  increasing K e (2 ^ 64) (monomial_mul K e p).
Proof.
  intros He Hp.
  assert (B : forall x, In x (map snd p) -> 0 <= x + e < 2 ^ 64) by (intros x Hx; pose proof (inc_bounds K _ _ _ Hp _ Hx); lia).
  split; [|split].
  - intros d. unfold coefficient. rewrite weigh_monomial_mul by auto. apply weigh_ext. intros x _.
    destruct (Z.eqb_spec (x + e) (d + e)), (Z.eqb_spec x d); auto; lia.
  - intros x. unfold value. rewrite weigh_monomial_mul by auto. rewrite <- weigh_mul_l. apply weigh_ext. intros y Hy.
    pose proof (inc_bounds K _ _ _ Hp _ Hy). rewrite Z.add_comm, Z2Nat.inj_add by lia. apply rpow_add.
  - clear B. unfold monomial_mul. assert (G : forall l lo, 0 <= lo -> increasing K lo (2 ^ 64 - e) l ->
      increasing K (lo + e) (2 ^ 64) (map (fun t => (fst t, wrap 64 (snd t + e))) l)).
    { induction l as [|[c f] l IH]; intros lo Hlo Hl; [exact I|]. destruct Hl as [B Hl]. cbn [map fst snd increasing].
      rewrite (wrap_small 64 (f + e)) by lia. split; [lia|]. replace (f + e + 1) with (f + 1 + e) by lia. apply IH; auto. lia. }
    apply (G p 0); auto. lia.
Qed.

(** the product of nonzero polynomials whose degrees fit in an int *)
Theorem C25_naive_mul p q m n :
  increasing K 0 (m + 1) p -> increasing K 0 (n + 1) q -> 0 <= m -> 0 <= n -> m + n < 2 ^ 31 ->
  p <> [] -> q <> [] ->
  exists r, naive_mul K is0 p q = Some r /\ same K r (pmul K p q) /\
    (forall x, value K r x = rmul K (value K p x) (value K q x)) /\
    increasing K 0 (m + n + 1) r.
Proof.
  intros Hp Hq Hm Hn Hmn Np Nq.
  destruct (snoc K p) as [|(p' & c & e & ->)]; [contradiction|]. destruct (snoc K q) as [|(q' & d & f & ->)]; [contradiction|].
  destruct (inc_last K _ _ _ _ _ Hp) as (_ & _ & Be). destruct (inc_last K _ _ _ _ _ Hq) as (_ & _ & Bf).
  destruct (naive_mul_some K is0 p' q' c e d f) as [r E]; [eapply inc_weaken; [exact Hp|lia|lia]|eapply inc_weaken; [exact Hq|lia|lia]|lia|].
  exists r. split; auto. apply (naive_mul_ok K is0 is0_ok) in E.
  2:{ intros x y Hx Hy. pose proof (inc_bounds K _ _ _ Hp _ Hx). pose proof (inc_bounds K _ _ _ Hq _ Hy). lia. }
  destruct E as [W (dp & dq & Dp & Dq & Ir)]. split; [|split].
  - intros k. unfold coefficient. rewrite W, weigh_pmul. reflexivity.
  - intros x. unfold value at 1. rewrite W. apply convolve_value; intros y Hy.
    + pose proof (inc_bounds K _ _ _ Hp _ Hy). lia.
    + pose proof (inc_bounds K _ _ _ Hq _ Hy). lia.
  - rewrite last_degree in Dp, Dq. injection Dp as <-. injection Dq as <-. change (2 ^ 31) with 2147483648 in *.
    rewrite (wrap_small 32 e), (wrap_small 32 f), (wrap_small 32 (e + f)) in Ir by (change (2 ^ 32) with 4294967296; lia).
    eapply inc_weaken; [exact Ir|lia|lia].
Qed.

(** A composition that is returned is the composition. *)
Theorem C25_compose_partial p q m n r :
  increasing K 0 (n + 1) p -> increasing K 0 (m + 1) q -> 0 <= m -> 0 <= n < 2 ^ 31 -> n * m < 2 ^ 31 ->
  compose K is0 p q = Some r ->
  same K r (pcompose K p q) /\
  (forall x, value K r x = value K p (value K q x)) /\
  increasing K 0 (n * m + 1) r.
Proof.
  intros Hp Hq Hm Hn Hnm E. destruct (snoc K p) as [->|(p' & a & k & ->)]; [discriminate|].
  destruct (inc_last K _ _ _ _ _ Hp) as (_ & _ & Bk).
  assert (Hkm : k * m <= n * m) by nia.
  apply (compose_weigh K is0 is0_ok p' q a k m) in E; auto; [|eapply inc_weaken; [exact Hp|lia|lia]|lia].
  destruct E as [W Ir]. split; [|split].
  - intros d. apply W.
  - intros x. unfold value at 1. rewrite W, weigh_pcompose. apply weigh_ext. intros e He.
    change (weigh K (fun e0 => rpow K x (Z.to_nat e0)) (ppow K q (Z.to_nat e))) with (value K (ppow K q (Z.to_nat e)) x).
    apply value_ppow. intros f Hf. pose proof (inc_bounds K _ _ _ Hq _ Hf). lia.
  - eapply inc_weaken; [exact Ir|lia|lia].
Qed.
(** Without zero divisors, and with nonzero coefficients, composing with a
    polynomial that is not constant is defined. *)
Theorem C25_compose_total p q m n :
  (forall x y : K, rmul K x y = r0 K -> x = r0 K \/ y = r0 K) ->
  increasing K 0 (n + 1) p -> increasing K 0 (m + 1) q -> 0 <= n < 2 ^ 31 -> 0 <= m -> n * m < 2 ^ 31 ->
  p <> [] -> (forall t, In t p -> fst t <> r0 K) -> (forall t, In t q -> fst t <> r0 K) ->
  (exists t, In t q /\ 0 < snd t) ->
  exists r, compose K is0 p q = Some r.
Proof.
  intros Dom Hp Hq Hn Hm Hnm Np Zp Zq (t & Ht & Ht0).
  destruct (snoc K p) as [|(p' & a & k & ->)]; [contradiction|].
  destruct (snoc K q) as [->|(q' & b & l & ->)]; [contradiction|].
  destruct (inc_last K _ _ _ _ _ Hp) as (_ & _ & Bk). destruct (inc_last K _ _ _ _ _ Hq) as (Ql & _ & Bl).
  assert (Hl : 1 <= l). { pose proof (inc_bounds K _ _ _ Ql _ (in_map snd _ _ Ht)). lia. }
  apply (compose_some K is0 is0_ok p' (q' ++ [(b, l)]) a k l) with (q' := q') (b := b); auto.
  - eapply inc_weaken; [exact Hp|lia|lia].
  - nia.
  - lia.
  - apply (Zp (a, k)). apply in_or_app. right. now left.
  - apply (Zq (b, l)). apply in_or_app. right. now left.
Qed.

(** the terms are sorted; equal exponents are reported *)
Theorem C25_from_monomials l :
  (forall e, In e (map snd l) -> 0 <= e < 2 ^ 64) ->
  (NoDup (map snd l) -> exists r, from_monomials K l = Some r /\ Permutation l r /\ increasing K 0 (2 ^ 64) r) /\
  (~ NoDup (map snd l) -> from_monomials K l = None).
Proof.
  intros H. pose proof (from_monomials_ok K l 0 (2 ^ 64) H) as F. destruct (from_monomials K l) as [r|].
  - destruct F as [P I0]. split; [eauto|]. intros N. exfalso. apply N.
    eapply Permutation_NoDup; [symmetry; apply Permutation_map; exact P|]. eapply increasing_nodup; eauto.
  - split; auto. contradiction.
Qed.
Theorem C25_from_coefficients l :
  exists r, from_coefficients K is0 l = Some r /\ increasing K 0 (Z.of_nat (length l)) r /\
    (forall i, coefficient K r (Z.of_nat i) = nth i l (r0 K)).
Proof.
  rewrite from_coefficients_eq. eexists. split; [reflexivity|]. split.
  - apply inc_canonicalize. eapply inc_weaken; [apply inc_combine|lia|lia].
  - intros i. rewrite coefficient_ind, weigh_canonicalize by auto. fold (dwo K 0 (ind K (Z.of_nat i)) l).
    destruct (Nat.lt_ge_cases i (length l)).
    + apply (dwo_ind K l 0 i). auto.
    + rewrite nth_overflow by auto. apply dwo_ind_out. lia.
Qed.
(** the dense coefficients of a polynomial of degree below 2^32 - 1 *)
Theorem C25_dense p :
  increasing K 0 (2 ^ 32 - 1) p ->
  exists l, dense K p = Some l /\ (forall i, nth i l (r0 K) = coefficient K p (Z.of_nat i)) /\
    (forall t, In t p -> snd t < Z.of_nat (length l)).
Proof.
  intros Hp. destruct (snoc K p) as [->|(p' & c & e & ->)].
  - exists []. split; [reflexivity|]. split; [intros []; reflexivity|contradiction].
  - destruct (dense_ok K p' c e Hp) as (l & E & L & N). exists l. split; auto. split; auto.
    intros t Ht. destruct (inc_last K _ _ _ _ _ Hp) as (A & _ & B). pose proof (inc_bounds K _ _ _ A _ (in_map snd _ _ Ht)). lia.
Qed.

(** Converting to the monomial basis preserves the function when it returns a
    polynomial. Partial: see [C24_to_standard_refuted]. *)
Theorem C24_to_standard_partial c r :
  Z.of_nat (length c) < 2 ^ 64 -> to_standard_basis K is0 c = Some r ->
  forall x, value K r x = series K c x.
Proof. intros Hc H x. apply (to_standard_ok K is0 is0_ok c r x Hc H). Qed.

(** Composing a Chebyshev series, of degree other than 2, with a x + b. *)
Theorem C24_compose_partial half c q :
  radd K half half = r1 K ->
  c <> [] -> length c <> 3%nat -> increasing K 0 2 q -> (exists a, In (a, 1) q) ->
  exists r, cheb_compose K is0 half c q = Some r /\
    forall x, series K r x = series K c (value K q x).
Proof.
  intros Hh Nc Lc Hq [a Ha].
  assert (exists r, cheb_compose K is0 half c q = Some r) as [r E].
  { destruct (snoc K q) as [->|(q' & b & e & ->)]; [contradiction|]. destruct (inc_last K _ _ _ _ _ Hq) as (A & _ & B).
    pose proof (inc_bounds K _ _ _ A _ (in_map snd _ _ Ha)) as B1. cbn [snd] in B1. assert (e = 1) by lia. subst e.
    unfold cheb_compose. rewrite last_degree. cbn [bind]. replace (negb (wrap 32 1 =? 1)) with false by reflexivity.
    destruct (nth_error c (if cheb_is_zero K is0 c then 0%nat else (length c - 1)%nat)) as [cn|] eqn:En.
    - cbn [bind]. destruct (cheb_loop _ _ _ _ _ _ _ _ _). eauto.
    - exfalso. apply nth_error_None in En. destruct c; [contradiction|]. destruct (cheb_is_zero K is0 _); cbn [length] in En; lia. }
  exists r. split; auto. intros x. apply (cheb_compose_ok K is0 half Hh c q r Hq Lc E).
Qed.
End Props.

(** Interleaved exponents: x^5 + (x^3 + x^7) trips the assertion. *)
Theorem C25_add_refuted : exists p q : list (Z * Z),
  increasing Zcring 0 (2 ^ 64) p /\ increasing Zcring 0 (2 ^ 64) q /\ add Zcring (Z.eqb 0) p q = None.
Proof. exists [(1, 5)], [(1, 3); (1, 7)]. cbn. repeat split; lia. Qed.
(** The zero polynomial cannot be multiplied, and a composition can pass
    through it: x^2 - x at the constant 1. *)
Theorem C25_mul_zero_refuted : exists p : list (Z * Z), forall q,
  increasing Zcring 0 (2 ^ 31) p /\ naive_mul Zcring (Z.eqb 0) p q = None.
Proof. exists []. intros q. split; [exact I|reflexivity]. Qed.
Theorem C25_compose_refuted : exists p q : list (Z * Z),
  increasing Zcring 0 (2 ^ 31) p /\ increasing Zcring 0 (2 ^ 31) q /\ p <> [] /\ q <> [] /\
  compose Zcring (Z.eqb 0) p q = None.
Proof.
  exists [(-1, 1); (1, 2)], [(1, 0)].
  split; [cbn; lia|]. split; [cbn; lia|]. split; [discriminate|]. split; [discriminate|]. reflexivity.
Qed.

(** 3 T_1 + T_3 + T_4 + T_5 cannot be converted: x cancels and the next sum
    interleaves. *)
Theorem C24_to_standard_refuted : exists c : list Z, to_standard_basis Zcring (Z.eqb 0) c = None.
Proof. exists [0; 3; 0; 1; 1; 1]. reflexivity. Qed.

(** The rational numbers. *)
Definition Qcring : cring :=
  {| car := Qc; r0 := 0%Qc; r1 := 1%Qc; radd := Qcplus; rmul := Qcmult; rsub := Qcminus; ropp := Qcopp; r_ok := Qcrt |}.
Definition Qc_is0 (x : Qc) : bool := Qeq_bool (this x) 0.
Lemma Qc_is0_ok x : Qc_is0 x = true -> x = r0 Qcring.
Proof. intros H. apply Qc_is_canon. apply Qeq_bool_eq in H. exact H. Qed.
Definition qhalf : Qc := Q2Qc (1 # 2).

(** Degree 2: composing T_2 with the identity gives another function. *)
Theorem C24_compose_refuted : exists (c r : list Qc) (x : Qc),
  cheb_compose Qcring Qc_is0 qhalf c [(1%Qc, 1)] = Some r /\
  series Qcring r x <> series Qcring c (value Qcring [(1%Qc, 1)] x).
Proof.
  pose (c := [0%Qc; 0%Qc; 1%Qc]).
  exists c. destruct (cheb_compose Qcring Qc_is0 qhalf c [(1%Qc, 1)]) as [r|] eqn:E; [|vm_compute in E; discriminate].
  exists r, 0%Qc. split; [reflexivity|]. intros H.
  assert (S : Qeq_bool (this (series Qcring (match cheb_compose Qcring Qc_is0 qhalf c [(1%Qc, 1)] with Some r => r | None => [] end) 0%Qc))
                       (this (series Qcring c (value Qcring [(1%Qc, 1)] 0%Qc))) = true).
  { rewrite E, H. apply Qeq_bool_refl. }
  vm_compute in S. discriminate.
Qed.
Print Assumptions C25_add_partial. Print Assumptions C25_add_nested. Print Assumptions C25_sub_partial. Print Assumptions C25_scale.
Print Assumptions C25_monomial_mul. Print Assumptions C25_naive_mul. Print Assumptions C25_compose_partial. Print Assumptions C25_compose_total.
Print Assumptions C25_from_monomials. Print Assumptions C25_from_coefficients. Print Assumptions C25_dense.
Print Assumptions C24_to_standard_partial. Print Assumptions C24_compose_partial.
Print Assumptions C25_add_refuted. Print Assumptions C25_mul_zero_refuted. Print Assumptions C25_compose_refuted.
Print Assumptions C24_to_standard_refuted. Print Assumptions C24_compose_refuted.

(** 2 + 3x^2 + x^5 and 4x^2: sum, difference, product, composition. *)
Example C25_nonvacuous :
  let p : list (Z * Z) := [(2, 0); (3, 2); (1, 5)] in
  let q : list (Z * Z) := [(4, 2)] in
  increasing Zcring 0 6 p /\ increasing Zcring 0 3 q /\
  add Zcring (Z.eqb 0) p q = Some [(2, 0); (7, 2); (1, 5)] /\
  sub Zcring (Z.eqb 0) p [(3, 2)] = Some [(2, 0); (1, 5)] /\
  naive_mul Zcring (Z.eqb 0) p q = Some [(8, 2); (12, 4); (4, 7)] /\
  compose Zcring (Z.eqb 0) q [(1, 0); (1, 1)] = Some [(4, 0); (8, 1); (4, 2)] /\
  monomial_mul Zcring 3 q = [(4, 5)] /\
  dense Zcring p = Some [2; 0; 3; 0; 0; 1] /\
  from_coefficients Zcring (Z.eqb 0) [0; 5; 0; 7] = Some [(5, 1); (7, 3)].
Proof. cbn [increasing]. repeat split; lia || reflexivity. Qed.
(** 1 + 2 T_1 + 3 T_2 + 4 T_3 *)
Example C24_nonvacuous :
  to_standard_basis Zcring (Z.eqb 0) [1; 2; 3; 4] = Some [(-2, 0); (-10, 1); (6, 2); (16, 3)] /\
  series Zcring [1; 2; 3; 4] 2 = 130 /\
  option_map (map this) (cheb_compose Qcring Qc_is0 qhalf [1%Qc; 0%Qc; 0%Qc; 1%Qc] [(1%Qc, 0); (Q2Qc 2, 1)]) =
    Some [(26 # 1); (42 # 1); (24 # 1); (8 # 1)]%Q.
Proof. vm_compute. auto. Qed.
