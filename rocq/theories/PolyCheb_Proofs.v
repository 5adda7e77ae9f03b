(** Proofs about construction, dense coefficients and Chebyshev series. *)
From Coq Require Import ZArith List Bool Lia Ring Setoid Permutation.
From Verif Require Import Words ModArith_Proofs NumTheory_Model Kernel_Model Kernel_Spec Kernel_Proofs PolyArith_Model PolyArith_Spec PolyArith_Proofs.
Import ListNotations.
Open Scope Z_scope.

Section Poly.
Variable K : cring.
Notation R := (car K).
Add Ring Kring : (r_ok K).
Local Notation "a +r b" := (radd K a b) (at level 50, left associativity).
Local Notation "a *r b" := (rmul K a b) (at level 40, left associativity).
Local Notation "a -r b" := (rsub K a b) (at level 50, left associativity).
Local Notation zero := (r0 K).
Variable is0 : R -> bool.
Hypothesis is0_ok : forall x, is0 x = true -> x = r0 K.
Notation weigh := (weigh K).
Notation increasing := (increasing K).
Notation wsorted := (wsorted K).
Notation T := (T K).

(** ** fromMonomials *)
Lemma insert_perm t l : Permutation (t :: l) (insert_term K t l).
Proof.
  induction l as [|u l IH]; cbn; auto. destruct (snd t <? snd u); auto.
  etransitivity; [apply perm_swap|]. constructor. auto.
Qed.
Lemma sort_perm l : Permutation l (fold_right (insert_term K) [] l).
Proof.
  induction l as [|t l IH]; cbn; auto. etransitivity; [|apply insert_perm]. constructor. auto.
Qed.
Lemma sort_wsorted lo l : (forall e, In e (map snd l) -> lo <= e) -> wsorted lo (fold_right (insert_term K) [] l).
Proof.
  induction l as [|t l IH]; intros H; cbn; auto. apply insert_wsorted; [apply H; cbn; auto|]. apply IH. intros; apply H; cbn; auto.
Qed.
Lemma increasing_nodup lo hi l : increasing lo hi l -> NoDup (map snd l).
Proof.
  revert lo. induction l as [|[c e] l IH]; intros lo H; cbn; [constructor|]. destruct H as [B H]. constructor; eauto.
  intros Hin. pose proof (inc_bounds K _ _ _ H _ Hin). lia.
Qed.
Lemma adjacent_dup l : has_adjacent K l = true -> ~ NoDup (map snd l).
Proof.
  induction l as [|t l IH]; cbn; [discriminate|]. destruct l as [|u l]; [discriminate|]. intros H N. inversion N as [|x y N1 N2]; subst.
  apply orb_prop in H. destruct H as [H|H].
  - apply Z.eqb_eq in H. apply N1. rewrite H. now left.
  - now apply IH.
Qed.
Lemma from_monomials_ok l lo hi : (forall e, In e (map snd l) -> lo <= e < hi) ->
  match from_monomials K l with
  | Some r => Permutation l r /\ increasing lo hi r
  | None => ~ NoDup (map snd l)
  end.
Proof.
  intros H. unfold from_monomials. pose proof (sort_perm l) as P.
  destruct (has_adjacent K (fold_right (insert_term K) [] l)) eqn:E.
  - intros N. apply (adjacent_dup _ E). eapply Permutation_NoDup; [|exact N]. now apply Permutation_map.
  - split; auto. apply wsorted_strict; auto; [apply sort_wsorted; intros; apply H; auto|].
    intros e He. apply H. eapply Permutation_in; [|exact He]. symmetry. now apply Permutation_map.
Qed.

(** ** Dense coefficients *)
Lemma list_set_nth (l : list R) : forall i v l', list_set l i v = Some l' ->
  length l' = length l /\ forall j, nth j l' zero = if Nat.eqb j i then v else nth j l zero.
Proof.
  induction l as [|x l IH]; intros i v l' H; [destruct i; discriminate|]. destruct i as [|i]; cbn [list_set] in H.
  - injection H as <-. split; auto. intros [|j]; auto.
  - destruct (list_set l i v) as [r|] eqn:E; [|discriminate]. injection H as <-. destruct (IH _ _ _ E) as [L N].
    split; [cbn; lia|]. intros [|j]; cbn; auto.
Qed.
Lemma list_set_some (l : list R) : forall i v, (i < length l)%nat -> exists l', list_set l i v = Some l'.
Proof.
  induction l as [|x l IH]; intros i v H; [cbn in H; lia|]. destruct i; cbn [list_set]; [eauto|].
  destruct (IH i v) as [r E]; [cbn in H; lia|]. rewrite E. cbn. eauto.
Qed.
Lemma coefficient_cons p c e d : coefficient K ((c, e) :: p) d = c *r ind K d e +r coefficient K p d.
Proof. reflexivity. Qed.
Lemma coefficient_none lo hi p d : increasing lo hi p -> (d < lo \/ hi <= d) -> coefficient K p d = zero.
Proof.
  intros H Hd. unfold coefficient. rewrite (weigh_ext K _ (fun _ => zero)); [apply weigh_zero; auto|].
  intros e He. pose proof (inc_bounds K _ _ _ H _ He). destruct (Z.eqb_spec e d); [lia|auto].
Qed.
Lemma dense_fold p : forall lo l n, increasing lo (Z.of_nat n) p -> 0 <= lo -> length l = n ->
  exists l', fold_left (fun acc t => l <- acc ;; list_set l (Z.to_nat (snd t)) (fst t)) p (Some l) = Some l' /\ length l' = n /\
    (forall i, (Z.of_nat i < lo) -> nth i l' zero = nth i l zero) /\
    ((forall i, (lo <= Z.of_nat i) -> nth i l zero = zero) -> forall i, (lo <= Z.of_nat i) -> nth i l' zero = coefficient K p (Z.of_nat i)).
Proof.
  induction p as [|[c e] p IH]; intros lo l n H Hlo L.
  - exists l. cbn. auto.
  - destruct H as [B H]. cbn [fold_left bind fst snd].
    destruct (list_set_some l (Z.to_nat e) c) as [l1 E1]; [lia|]. rewrite E1. destruct (list_set_nth _ _ _ _ E1) as [L1 N1].
    destruct (IH (e + 1) l1 n H) as (l2 & E2 & L2 & N2 & C2); [lia|lia|]. exists l2. split; auto. split; auto. split.
    + intros i Hi. rewrite N2 by lia. rewrite N1. destruct (Nat.eqb_spec i (Z.to_nat e)); [lia|auto].
    + intros Hz i Hi. rewrite coefficient_cons. destruct (Z_lt_le_dec (Z.of_nat i) (e + 1)) as [Hlt|Hge].
      * rewrite N2 by auto. rewrite N1. rewrite (coefficient_none _ _ p (Z.of_nat i) H) by lia. unfold ind.
        destruct (Nat.eqb_spec i (Z.to_nat e)), (Z.eqb_spec e (Z.of_nat i)); try lia; [ring|]. rewrite Hz by auto. ring.
      * rewrite C2; auto.
        -- unfold ind. destruct (Z.eqb_spec e (Z.of_nat i)); [lia|]. ring.
        -- intros j Hj. rewrite N1. destruct (Nat.eqb_spec j (Z.to_nat e)); [lia|]. apply Hz. lia.
Qed.
Lemma dense_ok p c e : increasing 0 (2 ^ 32 - 1) (p ++ [(c, e)]) ->
  exists l, dense K (p ++ [(c, e)]) = Some l /\ length l = Z.to_nat (e + 1) /\
    forall i, nth i l zero = coefficient K (p ++ [(c, e)]) (Z.of_nat i).
Proof.
  intros H. destruct (inc_last K _ _ _ _ _ H) as (A & _ & B).
  assert (D : dense K (p ++ [(c, e)]) =
     (n <- get_degree K (p ++ [(c, e)]) ;; fold_left (fun acc t => l <- acc ;; list_set l (Z.to_nat (snd t)) (fst t)) (p ++ [(c, e)])
        (Some (repeat zero (Z.to_nat (n + 1)))))).
  { unfold dense. destruct (p ++ [(c, e)]) eqn:E; auto. destruct p; discriminate. }
  rewrite D, last_degree. cbn [bind]. change (2 ^ 32 - 1) with 4294967295 in *.
  rewrite (wrap_small 32 e) by (change (2 ^ 32) with 4294967296; lia).
  destruct (dense_fold (p ++ [(c, e)]) 0 (repeat zero (Z.to_nat (e + 1))) (Z.to_nat (e + 1))) as (l & E & L & _ & C).
  - rewrite Z2Nat.id by lia. exact A.
  - lia.
  - apply repeat_length.
  - exists l. split; auto. split; auto. intros i. apply C; [|lia]. intros j _. apply nth_repeat.
Qed.

(** ** Chebyshev polynomials *)
Lemma T_S x n : T (S (S n)) x = two K *r x *r T (S n) x -r T n x.
Proof.
  unfold T. cbn [cheb_pair]. destruct (cheb_pair K x n) as [a b]. cbn. reflexivity.
Qed.
Lemma T_0 x : T 0 x = r1 K. Proof. reflexivity. Qed.
Lemma T_1 x : T 1 x = x. Proof. reflexivity. Qed.

Fixpoint good (x : R) (l : list (list (R * Z))) : Prop :=
  match l with
  | [] => True
  | p :: r => value K p x = T (length r) x /\ increasing 0 (Z.of_nat (length r) + 1) p /\ good x r
  end.
Lemma inc_shift lo hi p : increasing lo hi p -> 0 <= lo -> hi < 2 ^ 64 -> increasing (lo + 1) (hi + 1) (monomial_mul K 1 p).
Proof.
  unfold monomial_mul. revert lo. induction p as [|[c e] p IH]; intros lo H H1 H2; cbn [map]; [exact I|]. destruct H as [B H].
  cbn [PolyArith_Spec.increasing fst snd]. rewrite (wrap_small 64 (e + 1)) by lia. split; [lia|]. apply IH; auto. lia.
Qed.
Lemma inc_scale lo hi c p : increasing lo hi p -> increasing lo hi (scale K c p).
Proof.
  unfold scale. revert lo. induction p as [|[d e] p IH]; intros lo H; cbn [map]; [exact I|]. destruct H as [B H].
  cbn [PolyArith_Spec.increasing fst snd]. split; auto.
Qed.
Lemma cheb_polys_SSS n : cheb_polys K is0 (S (S (S n))) =
  (l <- cheb_polys K is0 (S (S n)) ;;
   match l with
   | last :: second_last :: _ => r <- sub K is0 (scale K (two K) (monomial_mul K 1 last)) second_last ;; Some (r :: l)
   | _ => None
   end).
Proof. reflexivity. Qed.
Lemma add_inc p q r lo hi : lo <= hi -> add K is0 p q = Some r -> increasing lo hi p -> increasing lo hi q -> increasing lo hi r.
Proof. intros H E. eapply add_loop_inc; eauto. Qed.
Lemma cheb_polys_good n l x : Z.of_nat n < 2 ^ 64 -> cheb_polys K is0 n = Some l -> length l = n /\ good x l.
Proof.
  revert l. induction n as [|n IH]; intros l Hn H; [injection H as <-; cbn; auto|].
  assert (P0 : forall p, from_coefficients K is0 [r1 K] = Some p -> value K p x = T 0 x /\ increasing 0 1 p).
  { intros p Hp. apply (from_coefficients_weigh K is0 is0_ok (fun e => rpow K x (Z.to_nat e))) in Hp. destruct Hp as [W I0]. split; auto.
    unfold value. rewrite W. unfold dwo. cbn. ring. }
  destruct n as [|n].
  - cbn [cheb_polys] in H. destruct (from_coefficients K is0 [r1 K]) as [p|] eqn:E; [|discriminate]. cbn [bind] in H. injection H as <-.
    destruct (P0 _ eq_refl). cbn. auto.
  - destruct n as [|n].
    + cbn [cheb_polys] in H. destruct (from_coefficients K is0 [r1 K]) as [p|] eqn:E; [|discriminate]. cbn [bind] in H.
      destruct (from_coefficients K is0 [r0 K; r1 K]) as [q|] eqn:E2; [|discriminate]. cbn [bind] in H. injection H as <-.
      destruct (P0 _ eq_refl). split; auto. cbn [good length]. split; [|split; [|split; [|split]]]; auto; try exact I.
      * apply (from_coefficients_weigh K is0 is0_ok (fun e => rpow K x (Z.to_nat e))) in E2. destruct E2 as [W _]. unfold value. rewrite W.
        rewrite T_1. unfold dwo. cbn. change (Pos.to_nat 1) with 1%nat. cbn. ring.
      * apply (from_coefficients_weigh K is0 is0_ok (fun e => rpow K x (Z.to_nat e))) in E2. tauto.
    + rewrite cheb_polys_SSS in H. destruct (cheb_polys K is0 (S (S n))) as [l0|]; [|discriminate].
      cbn [bind] in H. destruct (IH l0) as [L G]; auto; [lia|].
      destruct l0 as [|p1 [|p2 l0]]; try discriminate.
      destruct (sub K is0 (scale K (two K) (monomial_mul K 1 p1)) p2) as [r|] eqn:E; [|discriminate]. cbn [bind] in H. injection H as <-.
      split; [cbn in *; lia|]. cbn [good] in G |- *. destruct G as (V1 & I1 & V2 & I2 & G). split; [|split; [|split; [|split; [|split]]]]; auto.
      * unfold sub, add in E. unfold value. rewrite (add_loop_weigh K is0 is0_ok _ _ _ _ _ E).
        rewrite !(weigh_scale K), weigh_monomial_mul.
        2:{ intros e He. pose proof (inc_bounds K _ _ _ I1 _ He). cbn [length] in *. lia. }
        rewrite (weigh_ext K _ (fun e => x *r rpow K x (Z.to_nat e)) p1).
        2:{ intros e He. pose proof (inc_bounds K _ _ _ I1 _ He). replace (Z.to_nat (e + 1)) with (S (Z.to_nat e)) by lia. reflexivity. }
        rewrite weigh_mul_l. fold (value K p1 x) (value K p2 x). rewrite V1, V2. cbn [length] in *.
        rewrite (T_S x (length l0)). ring.
      * unfold sub in E. cbn [length] in *. eapply add_inc; [|exact E| |]; [lia| |].
        -- apply inc_scale. apply inc_shift in I1; [|lia|lia]. eapply inc_weaken; [exact I1|lia|lia].
        -- apply inc_scale. eapply inc_weaken; [exact I2|lia|lia].
Qed.

Lemma rsum_ext n f g : (forall i, (i < n)%nat -> f i = g i) -> rsum K n f = rsum K n g.
Proof. induction n; intros H; cbn; auto. rewrite IHn by auto. rewrite H by lia. auto. Qed.
Lemma series_snoc c d x : series K (c ++ [d]) x = series K c x +r d *r T (length c) x.
Proof.
  unfold series. rewrite app_length. cbn [length]. rewrite Nat.add_1_r. cbn [rsum]. f_equal.
  - apply rsum_ext. intros i Hi. rewrite app_nth1 by auto. auto.
  - rewrite app_nth2, Nat.sub_diag by lia. reflexivity.
Qed.
Definition tstep (acc : option (list (R * Z))) (pc : list (R * Z) * R) :=
  r <- acc ;; add K is0 r (scale K (snd pc) (fst pc)).
Lemma tfold_ok x l : forall c r, length l = length c -> good x l ->
  fold_left tstep (combine (rev l) c) (Some []) = Some r -> value K r x = series K c x.
Proof.
  induction l as [|p l IH]; intros c r L G H.
  - destruct c; [|discriminate]. injection H as <-. reflexivity.
  - destruct (exists_last (l := c)) as (c' & d & ->). { intros ->. discriminate. }
    rewrite app_length in L. cbn in L. cbn [rev] in H.
    assert (Cm : combine (rev l ++ [p]) (c' ++ [d]) = combine (rev l) c' ++ [(p, d)]).
    { assert (Lr : length (rev l) = length c') by (rewrite rev_length; lia). revert Lr. generalize (rev l), c'. clear.
      induction l as [|x l IH]; intros [|y c] H; cbn in *; try discriminate; auto. f_equal. apply IH. lia. }
    rewrite Cm, fold_left_app in H. cbn [fold_left] in H. destruct (fold_left tstep (combine (rev l) c') (Some [])) as [s|] eqn:E; [|discriminate].
    unfold tstep in H. cbn [bind fst snd] in H. destruct G as (V & _ & G).
    unfold value. unfold add in H. rewrite (add_loop_weigh K is0 is0_ok _ _ _ _ _ H), weigh_scale.
    fold (value K s x) (value K p x). rewrite (IH c' s) by (auto; lia). rewrite V, series_snoc. repeat f_equal. lia.
Qed.
Lemma to_standard_ok c r x : Z.of_nat (length c) < 2 ^ 64 -> to_standard_basis K is0 c = Some r -> value K r x = series K c x.
Proof.
  intros Hc H. unfold to_standard_basis in H. destruct (cheb_polys K is0 (length c)) as [l|] eqn:E; [|discriminate]. cbn [bind] in H.
  destruct (cheb_polys_good _ _ x Hc E) as [L G]. apply (tfold_ok x l); auto.
Qed.

(** ** Clenshaw's recurrence *)
Lemma rsum_add n f g : rsum K n (fun i => f i +r g i) = rsum K n f +r rsum K n g.
Proof. induction n; cbn; [ring|]. rewrite IHn. ring. Qed.
Lemma rsum_scale n c f : rsum K n (fun i => c *r f i) = c *r rsum K n f.
Proof. induction n; cbn; [ring|]. rewrite IHn. ring. Qed.
Lemma rsum_left n f : rsum K (S n) f = f O +r rsum K n (fun i => f (S i)).
Proof. induction n; [cbn; ring|]. cbn [rsum] in *. rewrite IHn. ring. Qed.
Lemma rsum_cut n m f : (n <= m)%nat -> (forall i, (n <= i < m)%nat -> f i = zero) -> rsum K m f = rsum K n f.
Proof.
  induction m; intros H1 H2.
  - assert (n = 0)%nat by lia. subst; auto.
  - destruct (Nat.eq_dec n (S m)) as [->|]; auto. cbn [rsum]. rewrite IHm by (try lia; intros; apply H2; lia). rewrite H2 by lia. ring.
Qed.
Lemma series_pad c n x : (length c <= n)%nat -> series K c x = rsum K n (fun i => nth i c zero *r T i x).
Proof.
  intros H. symmetry. apply rsum_cut; auto. intros i Hi. rewrite nth_overflow by lia. ring.
Qed.
Lemma at0_nat l i : at0 K l (Z.of_nat i) = nth i l zero.
Proof. unfold at0. destruct (Z.ltb_spec (Z.of_nat i) 0); [lia|]. now rewrite Nat2Z.id. Qed.
(** multiplication of a series by 2x *)
Lemma twice_x d n x : (length d <= n)%nat ->
  two K *r x *r series K d x =
  rsum K (S (S n)) (fun m => (match m with
      | O => nth 1 d zero
      | 1%nat => two K *r nth 0 d zero +r nth 2 d zero
      | S (S j) => nth (S j) d zero +r nth (S (S (S j))) d zero end) *r T m x).
Proof.
  intros H.
  assert (A : two K *r x *r series K d x = rsum K n (fun i => nth i d zero *r (two K *r x *r T i x))).
  { rewrite (series_pad d n) by auto. rewrite <- rsum_scale. apply rsum_ext. intros. ring. }
  rewrite A. clear A. destruct n as [|n].
  - destruct d; [|cbn in H; lia]. cbn. ring.
  - rewrite (rsum_left n). rewrite (rsum_ext n _ (fun i => nth (S i) d zero *r T (S (S i)) x +r nth (S i) d zero *r T i x)).
    2:{ intros i _. rewrite T_S. ring. }
    rewrite rsum_add. rewrite (rsum_left (S (S n))), (rsum_left (S n)). rewrite T_0, T_1. cbn beta iota.
    rewrite (rsum_ext (S n) _ (fun i => nth (S i) d zero *r T (S (S i)) x +r nth (S (S (S i))) d zero *r T (S (S i)) x)).
    2:{ intros i _. ring. }
    rewrite rsum_add.
    assert (B1 : rsum K (S n) (fun i => nth (S i) d zero *r T (S (S i)) x) = rsum K n (fun i => nth (S i) d zero *r T (S (S i)) x)).
    { apply rsum_cut; [lia|]. intros i Hi. rewrite nth_overflow by lia. ring. }
    assert (B2 : rsum K n (fun i => nth (S i) d zero *r T i x) =
                 nth 1 d zero +r (nth 2 d zero *r x +r rsum K (S n) (fun i => nth (S (S (S i))) d zero *r T (S (S i)) x))).
    { rewrite <- (rsum_cut n (S (S (S n))) (fun i => nth (S i) d zero *r T i x)).
      - rewrite (rsum_left (S (S n))), (rsum_left (S n)). rewrite T_0, T_1. ring.
      - lia.
      - intros i Hi. rewrite nth_overflow by lia. ring. }
    rewrite B1, B2. unfold two. ring.
Qed.
Lemma twice_x' d n x : (length d <= n)%nat ->
  two K *r x *r series K d x =
  rsum K (S n) (fun m => (match m with
      | O => nth 1 d zero
      | 1%nat => two K *r nth 0 d zero +r nth 2 d zero
      | S (S j) => nth (S j) d zero +r nth (S (S (S j))) d zero end) *r T m x).
Proof.
  intros H. rewrite (twice_x d n x H). apply rsum_cut; [lia|]. intros i Hi. assert (i = S n) by lia. subst i.
  destruct n as [|n]; rewrite !nth_overflow by lia; ring.
Qed.
Lemma cheb_step_ok a b ck d1 d2 x n : (length d1 <= n)%nat -> (length d2 <= S n)%nat ->
  series K (cheb_step K a b ck (S n) d1 d2) x =
  ck +r two K *r (a *r x +r b) *r series K d1 x -r series K d2 x.
Proof.
  intros H1 H2.
  assert (L : length (cheb_step K a b ck (S n) d1 d2) = S n) by (unfold cheb_step; rewrite map_length, seq_length; auto).
  rewrite (series_pad _ (S n)) by lia.
  rewrite (rsum_ext _ _ (fun m => a *r ((match m with
      | O => nth 1 d1 zero
      | 1%nat => two K *r nth 0 d1 zero +r nth 2 d1 zero
      | S (S j) => nth (S j) d1 zero +r nth (S (S (S j))) d1 zero end) *r T m x)
      +r (two K *r b *r (nth m d1 zero *r T m x) +r (ropp K (r1 K) *r (nth m d2 zero *r T m x) +r (match m with O => ck | _ => zero end) *r T m x)))).
  - rewrite !rsum_add, !rsum_scale. rewrite <- (twice_x' d1 n x H1).
    rewrite <- (series_pad d1 (S n) x) by lia. rewrite <- (series_pad d2 (S n) x) by lia.
    rewrite (rsum_cut 1 (S n) (fun m => (match m with O => ck | _ => zero end) *r T m x)).
    + cbn [rsum]. rewrite T_0. ring.
    + lia.
    + intros [|i] Hi; [lia|]. ring.
  - intros m Hm.
    assert (N : nth m (cheb_step K a b ck (S n) d1 d2) zero =
      (let z := Z.of_nat m in
         let v :=
           if z =? 0 then radd K (rmul K a (at0 K d1 1)) (rmul K (rmul K b (at0 K d1 0)) (two K))
           else if z =? 1 then
             radd K (rmul K a (radd K (rmul K (at0 K d1 0) (two K)) (at0 K d1 2))) (rmul K (rmul K b (at0 K d1 1)) (two K))
           else
             radd K (rmul K a (radd K (at0 K d1 (z - 1)) (at0 K d1 (z + 1)))) (rmul K (rmul K b (at0 K d1 z)) (two K)) in
         let v := if z =? 0 then radd K v ck else v in
         if Nat.ltb m (length d2) then rsub K v (at0 K d2 z) else v)).
    { unfold cheb_step. match goal with |- nth m (map ?f _) _ = _ => rewrite (nth_indep _ zero (f O)) by (rewrite map_length, seq_length; auto); rewrite (map_nth f) end.
      rewrite seq_nth by auto. reflexivity. }
    rewrite N. cbv zeta. clear N.
    change (at0 K d1 0) with (at0 K d1 (Z.of_nat 0)). change (at0 K d1 1) with (at0 K d1 (Z.of_nat 1)). change (at0 K d1 2) with (at0 K d1 (Z.of_nat 2)).
    assert (D2 : forall v, (if (m <? length d2)%nat then v -r at0 K d2 (Z.of_nat m) else v) = v -r nth m d2 zero).
    { intros v. destruct (Nat.ltb_spec m (length d2)); [now rewrite at0_nat|]. rewrite (nth_overflow d2) by lia. ring. }
    rewrite D2. destruct m as [|[|m]].
    + replace (Z.of_nat 0 =? 0) with true by reflexivity. rewrite !at0_nat. ring.
    + replace (Z.of_nat 1 =? 0) with false by reflexivity. replace (Z.of_nat 1 =? 1) with true by reflexivity. rewrite !at0_nat. ring.
    + destruct (Z.eqb_spec (Z.of_nat (S (S m))) 0); [lia|]. destruct (Z.eqb_spec (Z.of_nat (S (S m))) 1); [lia|].
      replace (Z.of_nat (S (S m)) - 1) with (Z.of_nat (S m)) by lia. replace (Z.of_nat (S (S m)) + 1) with (Z.of_nat (S (S (S m)))) by lia.
      rewrite !at0_nat. ring.
Qed.

(** d_k of Clenshaw's recurrence at y, as (d_k, d_{k+1}) with k = n + 1 - j *)
Section Clenshaw.
Variables (c : list R) (a b x : R).
Let y := a *r x +r b.
Fixpoint tail (k m : nat) : R :=   (* sum of c_i T_i(y) for k <= i < k + m *)
  match m with O => zero | S m' => tail k m' +r nth (k + m') c zero *r T (k + m') y end.
Lemma tail_left k m : tail k (S m) = nth k c zero *r T k y +r tail (S k) m.
Proof.
  induction m as [|m IH].
  - cbn. rewrite Nat.add_0_r. ring.
  - change (tail k (S (S m))) with (tail k (S m) +r nth (k + S m) c zero *r T (k + S m) y). rewrite IH. cbn [tail].
    replace (S k + m)%nat with (k + S m)%nat by lia. ring.
Qed.
(** state before the iteration for k: d1 = d_{k}, d2 = d_{k+1} *)
Lemma loop_ok n : forall k d1 d2 d2c d0 e0, (k <= n)%nat -> (length d1 <= n - k + 1)%nat -> (length d2 <= n - k)%nat ->
  (k <> 0%nat -> tail k (n - k + 1) = series K d1 x *r T k y -r series K d2 x *r T (k - 1) y) ->
  cheb_loop K n k c a b d1 d2 d2c = (d0, e0) -> (k <> 0%nat) ->
  exists D2, (length d0 <= n + 1)%nat /\
    series K d0 x = nth 0 c zero +r (tail 1 n +r D2) +r (tail 1 n +r D2) -r D2 /\
    ((2 < k)%nat -> series K e0 x = D2 /\ (length e0 <= n - 1)%nat) /\
    (k = 1%nat -> D2 = series K d2 x /\ e0 = d2c) /\ (k = 2%nat -> e0 = d2c /\ D2 = series K d1 x).
Proof.
  induction k as [|k IH]; intros d1 d2 d2c d0 e0 Hk L1 L2 Inv H Hk0; [congruence|]. clear Hk0.
  specialize (Inv ltac:(lia)). cbn [cheb_loop] in H. replace (S k - 1)%nat with k in Inv by lia.
  assert (Hlen : (n - k + 1 = S (n - k))%nat) by lia. rewrite Hlen in H.
  destruct (Nat.eq_dec k 0) as [->|Hk0].
  - cbn [cheb_loop] in H. injection H as <- <-.
    exists (series K d2 x). split; [unfold cheb_step; rewrite map_length, seq_length; lia|]. split; [|split; [|split]]; try lia; auto.
    pose proof (cheb_step_ok a b (nth 0 c zero) d1 d2 x (n - 0)) as St0. rewrite St0 by lia. fold y.
    replace (n - 1 + 1)%nat with n in Inv by lia. rewrite Inv, T_1, T_0. unfold two. ring.
  - set (dk := cheb_step K a b (nth k c zero) (S (n - k)) d1 d2) in *.
    assert (Ldk : length dk = (n - k + 1)%nat) by (unfold dk, cheb_step; rewrite map_length, seq_length; lia).
    assert (Sdk : series K dk x = nth k c zero +r two K *r y *r series K d1 x -r series K d2 x).
    { unfold dk. apply cheb_step_ok; lia. }
    destruct (IH dk d1 (if Nat.eqb k 2 then dk else d2c) d0 e0) as (D2 & P1 & P2 & P3 & P4 & P5); auto; try lia.
    + intros _. destruct k as [|k]; [congruence|]. replace (n - S k + 1)%nat with (S (n - S (S k) + 1)) by lia. rewrite tail_left, Inv, Sdk.
      replace (S k - 1)%nat with k by lia. rewrite (T_S y k). ring.
    + exists D2. split; auto. split; auto. split; [|split].
      * intros Hk2. destruct (Nat.eq_dec k 2) as [->|].
        -- destruct P5 as [E1 E2]; auto. rewrite Nat.eqb_refl in E1. rewrite E1, E2. split; auto. lia.
        -- apply P3. lia.
      * lia.
      * intros E. assert (k = 1)%nat by lia. subst k. destruct P4 as [E1 E2]; auto.
Qed.
End Clenshaw.

Variable half : R.
Hypothesis half_ok : half +r half = r1 K.
Lemma coeff_at_coefficient lo hi q d : increasing lo hi q ->
  match coeff_at K q d with Some c => c | None => zero end = coefficient K q d.
Proof.
  unfold coeff_at. revert lo. induction q as [|[c e] q IH]; intros lo H; [reflexivity|]. destruct H as [B H].
  rewrite coefficient_cons. unfold ind. cbn [find snd]. destruct (Z.eqb_spec e d) as [->|].
  - cbn. rewrite (coefficient_none _ _ q d H) by lia. ring.
  - rewrite (IH _ H). ring.
Qed.
Lemma linear_value q : increasing 0 2 q -> forall x, value K q x = coefficient K q 1 *r x +r coefficient K q 0.
Proof.
  intros H x. unfold value, coefficient. rewrite <- (Kmulc K x), <- weigh_mul_l, <- weigh_add2. apply weigh_ext. intros e He.
  pose proof (inc_bounds K _ _ _ H _ He). assert (e = 0 \/ e = 1) as [->| ->] by lia; [cbn; ring|cbn; change (Pos.to_nat 1) with 1%nat; cbn; ring].
Qed.
Lemma tail_series c a b x n : length c = S n -> nth 0 c zero +r tail c a b x 1 n = series K c (a *r x +r b).
Proof.
  intros H. unfold series. rewrite H, rsum_left, T_0.
  assert (E : forall m, tail c a b x 1 m = rsum K m (fun i => nth (S i) c zero *r T (S i) (a *r x +r b))).
  { induction m; cbn [tail rsum]; auto. rewrite IHm. reflexivity. }
  rewrite E. ring.
Qed.
Lemma cheb_compose_ok c q r : increasing 0 2 q -> length c <> 3%nat ->
  cheb_compose K is0 half c q = Some r -> forall x, series K r x = series K c (value K q x).
Proof.
  intros Hq Hc H x. unfold cheb_compose in H. destruct (get_degree K q) as [dq|]; [|discriminate]. cbn [bind] in H.
  destruct (negb (dq =? 1)); [discriminate|].
  rewrite !(coeff_at_coefficient 0 2) in H by auto. rewrite (linear_value q Hq).
  set (a := coefficient K q 1) in *. set (b := coefficient K q 0) in *.
  set (n := if cheb_is_zero K is0 c then 0%nat else (length c - 1)%nat) in *.
  destruct (nth_error c n) as [cn|] eqn:En; [|discriminate]. cbn [bind] in H.
  assert (Lc : length c = S n).
  { assert (n < length c)%nat by (apply nth_error_Some; congruence). unfold n, cheb_is_zero in *.
    destruct c as [|c0 [|c1 c]]; cbn in *; try lia. }
  assert (Hcn : nth n c zero = cn) by (apply nth_error_nth; auto).
  destruct (cheb_loop K n n c a b [cn] [] []) as [d0 e0] eqn:El. injection H as <-.
  assert (exists D2, (length d0 <= n + 1)%nat /\ (length e0 <= n + 1)%nat /\
    series K d0 x = nth 0 c zero +r (tail c a b x 1 n +r D2) +r (tail c a b x 1 n +r D2) -r D2 /\ series K e0 x = D2) as (D2 & L0 & L2 & S0 & S2).
  { destruct (Nat.eq_dec n 0) as [Hn|Hn].
    - rewrite Hn in *. cbn [cheb_loop] in El. injection El as <- <-. exists zero. cbn [length tail].
      split; [lia|]. split; [lia|]. split; [|reflexivity]. unfold series. cbn [length rsum nth]. rewrite T_0, Hcn. ring.
    - destruct (loop_ok c a b x n n [cn] [] [] d0 e0) as (D2 & P1 & P2 & P3 & P4 & P5); auto; cbn [length]; try lia.
      + intros _. rewrite Nat.sub_diag. cbn [Nat.add tail]. rewrite Nat.add_0_r, Hcn. unfold series. cbn [length rsum nth]. rewrite T_0. ring.
      + exists D2. split; auto. destruct (Nat.eq_dec n 1) as [H1|H1].
        * destruct P4 as [E1 ->]; auto. subst D2. cbn [length]. split; [lia|]. split; auto.
        * destruct P3 as [E1 E2]; [lia|]. split; [lia|]. split; auto. }
  rewrite <- (tail_series c a b x n Lc).
  set (f := fun i => _).
  assert (Lr : length (map f (seq 0 (n + 1))) = (n + 1)%nat) by (rewrite map_length, seq_length; auto).
  rewrite (series_pad _ (n + 1)) by lia.
  rewrite (rsum_ext _ _ (fun i => half *r (nth i d0 zero *r T i x) +r (ropp K half *r (nth i e0 zero *r T i x) +r (match i with O => nth 0 c zero *r half | _ => zero end) *r T i x))).
  - rewrite !rsum_add, !rsum_scale. rewrite <- !(series_pad _ (n + 1)) by lia. rewrite S0, S2.
    rewrite (rsum_cut 1 (n + 1) (fun m => (match m with O => nth 0 c zero *r half | _ => zero end) *r T m x)).
    + cbn [rsum]. rewrite T_0. set (t := tail c a b x 1 n). set (c0 := nth 0 c zero).
      transitivity ((half +r half) *r (c0 +r t)); [ring|]. rewrite half_ok. ring.
    + lia.
    + intros [|i] Hi; [lia|]. ring.
  - intros i Hi. rewrite (nth_indep _ zero (f O)) by lia. rewrite (map_nth f), seq_nth by lia. cbn [Nat.add]. unfold f. cbv zeta.
    destruct i as [|i]; cbn [Nat.eqb]; ring.
Qed.
End Poly.
