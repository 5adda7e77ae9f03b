From Coq Require Import ZArith Znumtheory QArith Qabs List Bool Lia Lqa Setoid Morphisms Ring Permutation.
Import ListNotations.
From Verif Require Import Noise_Spec Noise_Model.
Open Scope Z_scope.

Section Ring.
  Context {N : positive}.
  Notation elt := (elt N).
  Notation sum := (sum N).
  Notation L := (seq 0 (Pos.to_nat N)).

  Lemma sum_ext f g : (forall i, 0 <= i < Z.pos N -> f i = g i) -> sum f = sum g.
  Proof.
    intros H. unfold Noise_Spec.sum. f_equal. apply map_ext_in. intros a Ha. apply in_seq in Ha. apply H. lia.
  Qed.
  Lemma sum_plus f g : sum (fun i => f i + g i) = sum f + sum g.
  Proof. unfold Noise_Spec.sum. induction L as [|a l IH]; [reflexivity|]. cbn [map fold_right]. rewrite IH. ring. Qed.
  Lemma sum_mult c f : sum (fun i => c * f i) = c * sum f.
  Proof. unfold Noise_Spec.sum. induction L as [|a l IH]; [cbn; ring|]. cbn [map fold_right]. rewrite IH. ring. Qed.
  Lemma sum_zero : sum (fun _ => 0) = 0.
  Proof. unfold Noise_Spec.sum. induction L as [|a l IH]; [reflexivity|]. cbn [map fold_right]. rewrite IH. ring. Qed.
  Lemma sum_swap (f : Z -> Z -> Z) : sum (fun i => sum (fun j => f i j)) = sum (fun j => sum (fun i => f i j)).
  Proof.
    assert (A : forall l, fold_right Z.add 0 (map (fun i => sum (fun j => f (Z.of_nat i) j)) l) =
      sum (fun j => fold_right Z.add 0 (map (fun i => f (Z.of_nat i) j) l))).
    { induction l as [|a l IH]; cbn [map fold_right]; [symmetry; apply sum_zero|]. rewrite IH, <- sum_plus. reflexivity. }
    apply A.
  Qed.
  Lemma seq_split1 n : seq 0 (S n) = seq 0 n ++ [n].
  Proof. rewrite seq_S. reflexivity. Qed.
  Lemma fold_app (f : nat -> Z) l1 l2 : fold_right Z.add 0 (map f (l1 ++ l2)) = fold_right Z.add 0 (map f l1) + fold_right Z.add 0 (map f l2).
  Proof. induction l1 as [|a l IH]; [reflexivity|]. cbn [app map fold_right]. rewrite IH. ring. Qed.
  Lemma sum_shift1 g : (forall i, g (i + Z.pos N) = g i) -> sum (fun i => g (i + 1)) = sum g.
  Proof.
    intros H. unfold Noise_Spec.sum.
    assert (E : forall n, fold_right Z.add 0 (map (fun i => g (Z.of_nat i + 1)) (seq 0 n)) + g 0 =
      fold_right Z.add 0 (map (fun i => g (Z.of_nat i)) (seq 0 n)) + g (Z.of_nat n)).
    { induction n as [|n IH]; [reflexivity|]. rewrite seq_split1, !fold_app. cbn [map fold_right].
      replace (Z.of_nat n + 1) with (Z.of_nat (S n)) by lia. lia. }
    specialize (E (Pos.to_nat N)). rewrite positive_nat_Z in E. rewrite <- (Z.add_0_l (Z.pos N)), H in E. lia.
  Qed.
  Lemma sum_shift g c : (forall i, g (i + Z.pos N) = g i) -> sum (fun i => g (i + c)) = sum g.
  Proof.
    intros H.
    assert (A : forall c, 0 <= c -> forall g, (forall i, g (i + Z.pos N) = g i) -> sum (fun i => g (i + c)) = sum g).
    { intros c' Hc. pattern c'. apply natlike_ind; [| |exact Hc].
      - intros g' _. apply sum_ext. intros i _. f_equal. ring.
      - intros x Hx IH g' Hg.
        transitivity (sum (fun i => (fun j => g' (j + x)) (i + 1))).
        { apply sum_ext. intros i _. cbn. f_equal. ring. }
        etransitivity; [apply (sum_shift1 (fun j => g' (j + x)))|exact (IH g' Hg)]. intros i. replace (i + Z.pos N + x) with (i + x + Z.pos N) by ring. apply Hg. }
    destruct (Z.le_gt_cases 0 c) as [Hc|Hc]; [exact (A c Hc g H)|].
    rewrite <- (A (- c) ltac:(lia) (fun i => g (i + c))).
    - apply sum_ext. intros i _. f_equal. ring.
    - intros i. replace (i + Z.pos N + c) with (i + c + Z.pos N) by ring. apply H.
  Qed.
  Lemma fold_perm (l1 l2 : list Z) : Permutation l1 l2 -> fold_right Z.add 0 l1 = fold_right Z.add 0 l2.
  Proof. induction 1; cbn; lia. Qed.
  Lemma sum_reindex (g : Z -> Z) (p : Z -> Z) : (forall i, g (i + Z.pos N) = g i) ->
    (forall i j, 0 <= i < Z.pos N -> 0 <= j < Z.pos N -> p i mod Z.pos N = p j mod Z.pos N -> i = j) ->
    sum (fun i => g (p i)) = sum g.
  Proof.
    intros H I.
    assert (P : forall x, g x = g (x mod Z.pos N)).
    { intros x. rewrite (Z.div_mod x (Z.pos N)) at 1 by lia. generalize (x / Z.pos N) (x mod Z.pos N). intros a b. revert b.
      assert (A : forall a, 0 <= a -> forall b, g (Z.pos N * a + b) = g b).
      { intros a' Ha. pattern a'. apply natlike_ind; [| |exact Ha].
        - intros b. rewrite Z.mul_0_r. reflexivity.
        - intros y Hy IH b. replace (Z.pos N * Z.succ y + b) with (Z.pos N * y + b + Z.pos N) by ring. rewrite H. apply IH. }
      intros b. destruct (Z.le_gt_cases 0 a) as [Ha|Ha]; [exact (A a Ha b)|].
      rewrite <- (A (- a) ltac:(lia) (Z.pos N * a + b)). f_equal. ring. }
    unfold Noise_Spec.sum.
    transitivity (fold_right Z.add 0 (map (fun i => g (Z.of_nat i)) (map (fun i => Z.to_nat (p (Z.of_nat i) mod Z.pos N)) L))).
    { f_equal. rewrite map_map. apply map_ext. intros a. rewrite P, Z2Nat.id by (apply Z.mod_pos_bound; lia). reflexivity. }
    apply fold_perm, Permutation_map. apply NoDup_Permutation_bis.
    - assert (A : forall l, NoDup l -> (forall x, In x l -> In x L) -> NoDup (map (fun i => Z.to_nat (p (Z.of_nat i) mod Z.pos N)) l)).
      { induction 1 as [|a l Ha Hl IH]; intros Hin; [constructor|]. cbn [map]. constructor.
        - intros C. apply in_map_iff in C as (b & E & Hb). apply Ha.
          assert (Ia := Hin a (or_introl eq_refl)). assert (Ib := Hin b (or_intror Hb)). apply in_seq in Ia, Ib.
          apply Z2Nat.inj in E; [|apply Z.mod_pos_bound; lia|apply Z.mod_pos_bound; lia].
          apply I in E; [|lia|lia]. apply Nat2Z.inj in E. subst b. exact Hb.
        - apply IH. intros x Hx. apply Hin. right. exact Hx. }
      apply A; [apply seq_NoDup|tauto].
    - rewrite map_length. reflexivity.
    - intros x Hx. apply in_map_iff in Hx as (b & <- & _). apply in_seq.
      pose proof (Z.mod_pos_bound (p (Z.of_nat b)) (Z.pos N) ltac:(lia)). lia.
  Qed.
  Lemma sum_reflect g c : (forall i, g (i + Z.pos N) = g i) -> sum (fun i => g (c - i)) = sum g.
  Proof.
    intros H. apply (sum_reindex g (fun i => c - i)); [exact H|]. intros i j Hi Hj E.
    assert (D : (Z.pos N | i - j)).
    { exists ((c - j) / Z.pos N - (c - i) / Z.pos N).
      pose proof (Z.div_mod (c - i) (Z.pos N) ltac:(lia)). pose proof (Z.div_mod (c - j) (Z.pos N) ltac:(lia)). lia. }
    destruct D as [d D]. assert (d = 0) by nia. lia.
  Qed.

  Lemma anti_minus (x : elt) k : x (k - Z.pos N) = - x k.
  Proof. pose proof (anti _ x (k - Z.pos N)) as A. replace (k - Z.pos N + Z.pos N) with k in A by ring. lia. Qed.
  Lemma periodic (x y : elt) c : forall i, x (i + Z.pos N) * y (c - (i + Z.pos N)) = x i * y (c - i).
  Proof. intros i. rewrite anti. replace (c - (i + Z.pos N)) with (c - i - Z.pos N) by ring. rewrite anti_minus. ring. Qed.

  Lemma mult_comm (x y : elt) : same (mult x y) (mult y x).
  Proof.
    intros k. cbn [coef mult]. rewrite <- (sum_reflect (fun i => x i * y (k - i)) k (periodic x y k)).
    apply sum_ext. intros i _. replace (k - (k - i)) with i by ring. ring.
  Qed.
  Lemma mult_assoc (x y z : elt) : same (mult x (mult y z)) (mult (mult x y) z).
  Proof.
    intros k. cbn [coef mult].
    transitivity (sum (fun i => sum (fun j => x i * y (j - i) * z (k - j)))).
    - apply sum_ext. intros i _. rewrite <- (sum_shift (fun j => y j * z (k - i - j)) (- i) (periodic y z (k - i))).
      rewrite <- sum_mult. apply sum_ext. intros j _. replace (j + - i) with (j - i) by ring.
      replace (k - i - (j - i)) with (k - j) by ring. ring.
    - rewrite sum_swap. apply sum_ext. intros j _. rewrite Z.mul_comm, <- sum_mult. apply sum_ext. intros i _. ring.
  Qed.
  Lemma one_anti k : (if (k + Z.pos N) mod Z.pos N =? 0 then if Z.even ((k + Z.pos N) / Z.pos N) then 1 else -1 else 0) =
    - (if k mod Z.pos N =? 0 then if Z.even (k / Z.pos N) then 1 else -1 else 0).
  Proof.
    replace (k + Z.pos N) with (k + 1 * Z.pos N) by ring. rewrite Z.mod_add, Z.div_add by lia.
    destruct (_ =? 0); [|reflexivity]. rewrite Z.add_1_r, Z.even_succ, <- Z.negb_even. destruct (Z.even _); reflexivity.
  Qed.
  Definition one : elt := Elt N _ one_anti.
  Lemma sum_pick f : (forall i, 0 < i < Z.pos N -> f i = 0) -> sum f = f 0.
  Proof.
    intros H. unfold Noise_Spec.sum. destruct (Pos2Nat.is_succ N) as [n Hn]. 
    assert (E : forall m, (m < Pos.to_nat N)%nat -> fold_right Z.add 0 (map (fun i => f (Z.of_nat i)) (seq 1 m)) = 0).
    { induction m as [|m IH]; intros Hm; [reflexivity|]. rewrite seq_S, fold_app, IH by lia. cbn [map fold_right].
      rewrite H by lia. reflexivity. }
    rewrite Hn. cbn [seq map fold_right]. rewrite E by lia. rewrite Z.add_0_r. reflexivity.
  Qed.
  Lemma mult_one (x : elt) : same (mult one x) x.
  Proof.
    intros k. cbn [coef mult one]. rewrite sum_pick.
    - rewrite Z.mod_0_l, Z.div_0_l by lia. cbn. rewrite Z.sub_0_r. destruct (x k); reflexivity.
    - intros i Hi. rewrite Z.mod_small by lia. destruct (Z.eqb_spec i 0); [lia|]. ring.
  Qed.
  Lemma mult_plus (x y z : elt) : same (mult (plus x y) z) (plus (mult x z) (mult y z)).
  Proof. intros k. cbn [coef mult plus]. rewrite <- sum_plus. apply sum_ext. intros i _. ring. Qed.
  Lemma mult_ext (x x' y y' : elt) : same x x' -> same y y' -> same (mult x y) (mult x' y').
  Proof. intros H H' k. cbn [coef mult]. apply sum_ext. intros i _. rewrite H, H'. reflexivity. Qed.
  Lemma scale_mult c (x y : elt) : same (mult (scale c x) y) (scale c (mult x y)).
  Proof. intros k. cbn [coef mult scale]. rewrite <- sum_mult. apply sum_ext. intros i _. ring. Qed.
  Definition cst (c : Z) : elt := scale c one.
  Lemma scale_cst c (x : elt) : same (scale c x) (mult (cst c) x).
  Proof. intros k. unfold cst. rewrite scale_mult. cbn [coef scale]. rewrite mult_one. reflexivity. Qed.

  #[local] Instance same_equiv : Equivalence (@same N).
  Proof. split; [intros x k|intros x y H k|intros x y z H H' k]; [reflexivity|symmetry; apply H|rewrite H; apply H']. Qed.
  #[local] Instance plus_proper : Proper (same ==> same ==> same) (@plus N).
  Proof. intros x x' H y y' H' k. cbn. rewrite H, H'. reflexivity. Qed.
  #[local] Instance mult_proper : Proper (same ==> same ==> same) (@mult N).
  Proof. intros x x' H y y' H'. apply mult_ext; assumption. Qed.
  #[local] Instance opp_proper : Proper (same ==> same) (@opp N).
  Proof. intros x x' H k. cbn. rewrite H. reflexivity. Qed.
  #[local] Instance scale_proper c : Proper (same ==> same) (@scale N c).
  Proof. intros x x' H k. cbn. rewrite H. reflexivity. Qed.
  Lemma elt_ring : ring_theory (@zero N) one (@plus N) (@mult N) (fun x y => plus x (opp y)) (@opp N) (@same N).
  Proof.
    split.
    - intros x k. cbn. ring.
    - intros x y k. cbn. ring.
    - intros x y z k. cbn. ring.
    - exact mult_one.
    - exact mult_comm.
    - exact mult_assoc.
    - exact mult_plus.
    - intros x y k. reflexivity.
    - intros x k. cbn. ring.
  Qed.
  Lemma elt_ext : ring_eq_ext (@plus N) (@mult N) (@opp N) (@same N).
  Proof. split; [apply plus_proper|apply mult_proper|apply opp_proper]. Qed.
  Add Ring eltring : elt_ring (setoid same_equiv elt_ext).

  (** congruences *)
  Lemma quot_anti M (x : elt) : (forall k, (M | x k)) -> forall k, x (k + Z.pos N) / M = - (x k / M).
  Proof.
    intros H k. rewrite anti. destruct (H k) as [c Hc]. rewrite Hc. destruct (Z.eq_dec M 0) as [->|D].
    - rewrite Z.mul_0_r. destruct c; reflexivity.
    - replace (- (c * M)) with (- c * M) by ring. rewrite !Z.div_mul by exact D. reflexivity.
  Qed.
  Definition quot_elt M (x : elt) (H : forall k, (M | x k)) : elt := Elt N _ (quot_anti M x H).
  Lemma quot_spec M x H : M <> 0 -> same x (scale M (quot_elt M x H)).
  Proof. intros D k. cbn. destruct (H k) as [c Hc]. rewrite Hc, Z.div_mul by exact D. ring. Qed.

  Lemma cong_iff M (x y : elt) : M <> 0 -> (cong M x y <-> exists w, same x (plus y (scale M w))).
  Proof.
    intros D. split.
    - intros H. exists (quot_elt M (plus x (opp y)) H). intros k. cbn.
      destruct (H k) as [c Hc]. cbn in Hc. replace (x k + - y k) with (c * M) by lia. rewrite Z.div_mul by exact D. lia.
    - intros [w H] k. exists (w k). rewrite H. cbn. ring.
  Qed.
  Lemma cong_refl M (x : elt) : cong M x x.
  Proof. intros k. exists 0. ring. Qed.
  Lemma cong_sym M (x y : elt) : cong M x y -> cong M y x.
  Proof. intros H k. destruct (H k) as [c Hc]. exists (- c). lia. Qed.
  Lemma cong_trans M (x y z : elt) : cong M x y -> cong M y z -> cong M x z.
  Proof. intros H H' k. destruct (H k) as [c Hc], (H' k) as [d Hd]. exists (c + d). lia. Qed.
  Lemma same_cong M (x y : elt) : same x y -> cong M x y.
  Proof. intros H k. rewrite H. exists 0. ring. Qed.
  Lemma cong_plus M (x x' y y' : elt) : cong M x x' -> cong M y y' -> cong M (plus x y) (plus x' y').
  Proof. intros H H' k. destruct (H k) as [c Hc], (H' k) as [d Hd]. exists (c + d). cbn. lia. Qed.
  Lemma cong_opp M (x x' : elt) : cong M x x' -> cong M (opp x) (opp x').
  Proof. intros H k. destruct (H k) as [c Hc]. exists (- c). cbn. lia. Qed.
  Lemma cong_scale M c (x x' : elt) : cong M x x' -> cong M (scale c x) (scale c x').
  Proof. intros H k. destruct (H k) as [d Hd]. exists (c * d). cbn. rewrite <- Z.mul_sub_distr_l, Hd. ring. Qed.
  Lemma sum_divide M f : (forall i, (M | f i)) -> (M | sum f).
  Proof.
    intros H. unfold Noise_Spec.sum. induction L as [|a l IH]; [exists 0; reflexivity|]. cbn [map fold_right].
    apply Z.divide_add_r; [apply H|exact IH].
  Qed.
  Lemma cong_mult M (x x' y y' : elt) : cong M x x' -> cong M y y' -> cong M (mult x y) (mult x' y').
  Proof.
    intros H H' k. cbn [coef mult].
    replace (sum (fun i => x i * y (k - i)) - sum (fun i => x' i * y' (k - i)))
      with (sum (fun i => (x i - x' i) * y (k - i) + x' i * (y (k - i) - y' (k - i)))).
    - apply sum_divide. intros i. apply Z.divide_add_r; [apply Z.divide_mul_l, H|apply Z.divide_mul_r, H'].
    - rewrite <- Z.add_opp_r, <- (Z.mul_1_l (sum (fun i => x' i * y' (k - i)))), <- Z.mul_opp_l, <- sum_mult, <- sum_plus.
      apply sum_ext. intros i _. ring.
  Qed.
  Lemma cong_divide M M' (x y : elt) : (M' | M) -> cong M x y -> cong M' x y.
  Proof. intros H H' k. exact (Z.divide_trans _ _ _ H (H' k)). Qed.

  (** ciphertexts *)
  Lemma phase_add s (a b : ct N) : same (phase s (ct_add a b)) (plus (phase s a) (phase s b)).
  Proof.
    revert b. induction a as [|x a IH]; intros b; [cbn [ct_add phase]; ring|].
    destruct b as [|y b]; cbn [ct_add phase]; [ring|]. rewrite IH. ring.
  Qed.
  Lemma phase_opp s (a : ct N) : same (phase s (ct_opp a)) (opp (phase s a)).
  Proof. induction a as [|x a IH]; [intros k; reflexivity|]. cbn [ct_opp map phase]. unfold ct_opp in IH. rewrite IH. ring. Qed.
  Lemma phase_map s x (a : ct N) : same (phase s (map (mult x) a)) (mult x (phase s a)).
  Proof. induction a as [|y a IH]; cbn [map phase]; [ring|]. rewrite IH. ring. Qed.
  Lemma phase_mul s (a b : ct N) : same (phase s (ct_mul a b)) (mult (phase s a) (phase s b)).
  Proof.
    induction a as [|x a IH]; cbn [ct_mul phase]; [ring|]. rewrite phase_add, phase_map. cbn [phase]. rewrite IH. ring.
  Qed.
  Lemma phase_cong M s (a b : ct N) : ct_cong M a b -> cong M (phase s a) (phase s b).
  Proof.
    induction 1 as [|x y a b H _ IH]; [apply cong_refl|]. cbn [phase]. apply cong_plus; [exact H|].
    apply cong_mult; [apply cong_refl|exact IH].
  Qed.

  (** bounds *)
  Open Scope Q_scope.
  Lemma inj_le a b : (a <= b)%Z -> inject_Z a <= inject_Z b.
  Proof. rewrite Zle_Qle. tauto. Qed.
  Lemma bounded_nonneg (x : elt) B : bounded x B -> 0 <= B.
  Proof. intros H. specialize (H 0%Z). pose proof (inj_le 0 (Z.abs (x 0%Z)) ltac:(lia)). change (inject_Z 0) with 0 in *. lra. Qed.
  Lemma bounded_le (x : elt) A B : bounded x A -> A <= B -> bounded x B.
  Proof. intros H H' k. specialize (H k). lra. Qed.
  Lemma bounded_plus (x y : elt) A B : bounded x A -> bounded y B -> bounded (plus x y) (A + B).
  Proof.
    intros H H' k. specialize (H k). specialize (H' k). cbn [coef plus].
    pose proof (inj_le _ _ (Z.abs_triangle (x k) (y k))). rewrite inject_Z_plus in *. lra.
  Qed.
  Lemma bounded_opp (x : elt) A : bounded x A -> bounded (opp x) A.
  Proof. intros H k. cbn [coef opp]. rewrite Z.abs_opp. apply H. Qed.
  Lemma bounded_scale c (x : elt) A : (0 <= c)%Z -> bounded x A -> bounded (scale c x) (inject_Z c * A).
  Proof.
    intros Hc H k. specialize (H k). cbn [coef scale]. rewrite Z.abs_mul, (Z.abs_eq c) by exact Hc. rewrite inject_Z_mult.
    apply Qmult_le_compat_nonneg; split; try exact H; try apply Qle_refl; apply (inj_le 0); lia.
  Qed.
  Lemma bounded_mult (x y : elt) A B : bounded x A -> bounded y B -> bounded (mult x y) (inject_Z (Z.pos N) * A * B).
  Proof.
    intros H H' k. cbn [coef mult]. unfold Noise_Spec.sum. pose proof (bounded_nonneg _ _ H). pose proof (bounded_nonneg _ _ H').
    rewrite <- (positive_nat_Z N).
    assert (E : forall m, inject_Z (Z.abs (fold_right Z.add 0%Z (map (fun i => (x (Z.of_nat i) * y (k - Z.of_nat i))%Z) (seq 0 m))))
      <= inject_Z (Z.of_nat m) * A * B).
    { induction m as [|m IH]; [change (0 <= 0 * A * B); lra|]. rewrite seq_split1, fold_app. cbn [map fold_right]. rewrite Z.add_0_r.
      pose proof (inj_le _ _ (Z.abs_triangle (fold_right Z.add 0%Z (map (fun i => (x (Z.of_nat i) * y (k - Z.of_nat i))%Z) (seq 0 m)))
        (x (Z.of_nat m) * y (k - Z.of_nat m))%Z)) as T.
      rewrite inject_Z_plus, Z.abs_mul, inject_Z_mult in T.
      assert (U : inject_Z (Z.abs (x (Z.of_nat m))) * inject_Z (Z.abs (y (k - Z.of_nat m)%Z)) <= A * B).
      { apply Qmult_le_compat_nonneg; split; try apply H; try apply H'; apply (inj_le 0); lia. }
      replace (Z.of_nat (S m)) with (Z.of_nat m + 1)%Z by lia. rewrite inject_Z_plus. change (inject_Z 1) with 1.
      assert (R : (inject_Z (Z.of_nat m) + 1) * A * B == inject_Z (Z.of_nat m) * A * B + A * B) by ring. rewrite R.
      eapply Qle_trans; [exact T|]. apply Qplus_le_compat; [exact IH|exact U]. }
    apply E.
  Qed.
  Lemma bounded_two c (x : elt) : (forall k, (2 * Z.abs (x k) <= c)%Z) -> bounded x (inject_Z c / 2).
  Proof.
    intros H k. specialize (H k). apply inj_le in H. rewrite inject_Z_mult in H. change (inject_Z 2) with 2 in H.
    unfold Qdiv. change (/ 2) with (1 # 2). lra.
  Qed.
  Lemma bounded_same (x y : elt) A : same x y -> bounded y A -> bounded x A.
  Proof. intros H H' k. rewrite H. apply H'. Qed.

  (** centred representatives *)
  Open Scope Z_scope.
  Definition rnd (t x : Z) : Z := Z.sgn x * ((2 * Z.abs x + t) / (2 * t)).
  Lemma rnd_anti t (x : elt) k : rnd t (x (k + Z.pos N)) = - rnd t (x k).
  Proof. unfold rnd. rewrite anti, Z.sgn_opp, Z.abs_opp. ring. Qed.
  Definition rnd_elt t (x : elt) : elt := Elt N (fun k => rnd t (x k)) (rnd_anti t x).
  Definition rem_elt t (x : elt) : elt := plus x (opp (scale t (rnd_elt t x))).
  Lemma rem_small t (x : elt) k : 0 < t -> 2 * Z.abs (rem_elt t x k) <= t.
  Proof.
    intros Ht. change (rem_elt t x k) with (x k + - (t * rnd t (x k))). unfold rnd. set (y := x k). pose proof (Z.div_mod (2 * Z.abs y + t) (2 * t) ltac:(lia)) as D.
    pose proof (Z.mod_pos_bound (2 * Z.abs y + t) (2 * t) ltac:(lia)) as B.
    set (d := (2 * Z.abs y + t) / (2 * t)) in *. set (r := (2 * Z.abs y + t) mod (2 * t)) in *. clearbody d r y.
    destruct (Z.eq_dec y 0) as [->|N0]; [cbn [Z.sgn]; replace (0 + - (t * (0 * d))) with 0 by ring; cbn [Z.abs]; lia|].
    destruct (Z.abs_eq_or_opp y) as [E|E]; rewrite E in D.
    - rewrite (Z.sgn_pos y) by lia. lia.
    - rewrite (Z.sgn_neg y) by lia. lia.
  Qed.
  Lemma rem_same t (x : elt) : same x (plus (rem_elt t x) (scale t (rnd_elt t x))).
  Proof. unfold rem_elt. ring. Qed.
  Lemma rem_cong t (x : elt) : cong t (rem_elt t x) x.
  Proof. intros k. exists (- rnd t (x k)). cbn. ring. Qed.
  Lemma rnd_small t (x : elt) A : 0 < t -> bounded x (inject_Z t * A) -> bounded (rnd_elt t x) (A + (1 # 2))%Q.
  Proof.
    intros Ht H k. specialize (H k). pose proof (rem_small t x k Ht) as R. pose proof (rem_same t x k) as S. cbn [coef plus scale] in S.
    assert (T : 2 * t * Z.abs (rnd_elt t x k) <= 2 * Z.abs (x k) + t).
    { assert (Z.abs (t * rnd_elt t x k) = t * Z.abs (rnd_elt t x k)) by (rewrite Z.abs_mul, (Z.abs_eq t) by lia; reflexivity). lia. }
    apply inj_le in T. rewrite inject_Z_plus, !inject_Z_mult in T. change (inject_Z 2) with 2%Q in T.
    assert (P : (0 < inject_Z t)%Q) by (rewrite Zlt_Qlt in Ht; exact Ht).
    apply (Qmult_le_l _ _ (2 * inject_Z t)); [lra|]. 
    assert (E : (2 * inject_Z t * (A + (1 # 2)) == 2 * (inject_Z t * A) + inject_Z t)%Q) by ring. rewrite E. lra.
  Qed.
  Lemma rnd_one t (x : elt) : 0 < t -> (forall k, Z.abs (x k) <= t) -> bounded (rnd_elt t x) 1%Q.
  Proof.
    intros Ht H k. specialize (H k). pose proof (rem_small t x k Ht) as R. pose proof (rem_same t x k) as S. cbn [coef plus scale] in S.
    apply (inj_le _ 1). assert (Z.abs (t * rnd_elt t x k) = t * Z.abs (rnd_elt t x k)) by (rewrite Z.abs_mul, (Z.abs_eq t) by lia; reflexivity).
    nia.
  Qed.

  (** the operations *)
  Lemma holds_le M t s (c : ct N) p A B : holds M t s c p A -> (A <= B)%Q -> holds M t s c p B.
  Proof. intros (m & v & H1 & H2 & H3 & H4) L. exists m, v. repeat split; try assumption. exact (bounded_le _ _ _ H4 L). Qed.
  Lemma holds_ct M t s (c c' : ct N) p A : ct_cong M c' c -> holds M t s c p A -> holds M t s c' p A.
  Proof.
    intros C (m & v & H1 & H2 & H3 & H4). exists m, v. repeat split; try assumption.
    eapply cong_trans; [apply phase_cong, C|exact H1].
  Qed.
  Lemma ct_cong_refl M (c : ct N) : ct_cong M c c.
  Proof. induction c; constructor; [apply cong_refl|assumption]. Qed.

  Lemma holds_plain M t s (p : elt) : (forall k, 2 * Z.abs (p k) <= t) -> holds M t s [p] p 0%Q.
  Proof.
    intros H. exists p, zero. split; [|split; [|split]].
    - apply same_cong. intros k. cbn [phase coef plus scale zero]. cbn. rewrite <- (Z.mul_0_l 0) at 1. 
      assert (E : mult s zero k = 0) by (assert (F : same (mult s zero) zero) by ring; rewrite F; reflexivity). cbn in E. rewrite E. ring.
    - apply cong_refl.
    - exact H.
    - intros k. cbn. apply Qle_refl.
  Qed.
  Lemma holds_add M t s (a b : ct N) p q A B : 0 < t -> holds M t s a p A -> holds M t s b q B ->
    holds M t s (ct_add a b) (plus p q) (evalAdd A B).
  Proof.
    intros Ht (m & v & H1 & H2 & H3 & H4) (m' & v' & G1 & G2 & G3 & G4).
    exists (rem_elt t (plus m m')), (plus (plus v v') (rnd_elt t (plus m m'))). split; [|split; [|split]].
    - eapply cong_trans; [apply same_cong, phase_add|]. eapply cong_trans; [apply cong_plus; eassumption|].
      apply same_cong. intros k. pose proof (rem_same t (plus m m') k) as E.
      cbn [coef plus scale] in *. lia.
    - eapply cong_trans; [apply rem_cong|]. apply cong_plus; assumption.
    - intros k. apply rem_small, Ht.
    - unfold evalAdd. repeat apply bounded_plus; try assumption. apply rnd_one; [exact Ht|]. intros k. cbn [coef plus].
      specialize (H3 k). specialize (G3 k). lia.
  Qed.
  Lemma holds_opp M t s (a : ct N) p A : holds M t s a p A -> holds M t s (ct_opp a) (opp p) A.
  Proof.
    intros (m & v & H1 & H2 & H3 & H4). exists (opp m), (opp v). split; [|split; [|split]].
    - eapply cong_trans; [apply same_cong, phase_opp|]. eapply cong_trans; [apply cong_opp, H1|].
      apply same_cong. intros k. cbn [coef plus scale opp]. ring.
    - apply cong_opp, H2.
    - intros k. cbn [coef opp]. rewrite Z.abs_opp. apply H3.
    - apply bounded_opp, H4.
  Qed.

  (** N even, t positive *)
  Variable p : params.
  Hypothesis Hdim : ringDim p = Z.pos N.
  Hypothesis Heven : (2 | Z.pos N).
  Notation t := (plaintextModulus p).
  Hypothesis Ht : 0 < t.

  Lemma holds_mul M s (a b : ct N) x y A B : holds M t s a x A -> holds M t s b y B ->
    holds M t s (ct_mul a b) (mult x y) (evalMul p A B).
  Proof.
    intros (m & v & H1 & H2 & H3 & H4) (m' & v' & G1 & G2 & G3 & G4).
    exists (rem_elt t (mult m m')), (plus (plus (plus (mult v m') (mult v' m)) (scale t (mult v v'))) (rnd_elt t (mult m m'))).
    split; [|split; [|split]].
    - eapply cong_trans; [apply same_cong, phase_mul|]. eapply cong_trans; [apply cong_mult; eassumption|].
      apply same_cong. rewrite !(scale_cst t).
      transitivity (plus (mult m m') (mult (cst t) (plus (plus (mult v m') (mult v' m)) (mult (cst t) (mult v v'))))); [ring|].
      rewrite (rem_same t (mult m m')) at 1. rewrite !(scale_cst t). ring.
    - eapply cong_trans; [apply rem_cong|]. apply cong_mult; assumption.
    - intros k. apply rem_small, Ht.
    - apply bounded_two in H3, G3.
      pose proof (bounded_mult _ _ _ _ H4 G3) as B1. pose proof (bounded_mult _ _ _ _ G4 H3) as B2.
      pose proof (bounded_scale t _ _ ltac:(lia) (bounded_mult _ _ _ _ H4 G4)) as B3.
      pose proof (bounded_mult _ _ _ _ H3 G3) as B4.
      assert (B5 : bounded (rnd_elt t (mult m m')) (inject_Z (Z.pos N) * inject_Z t / 2 / 2 + (1 # 2))%Q).
      { apply rnd_small; [exact Ht|]. eapply bounded_le; [exact B4|]. apply Qle_lteq. right. field. }
      eapply bounded_le; [apply bounded_plus; [apply bounded_plus; [apply bounded_plus; [exact B1|exact B2]|exact B3]|exact B5]|].
      unfold evalMul, expansionFactor. rewrite Hdim. destruct Heven as [n Hn].
      replace (Z.quot (Z.pos N * t) 2) with (n * t) by (rewrite Hn; replace (n * 2 * t) with (n * t * 2) by ring; rewrite Z.quot_mul by lia; reflexivity).
      rewrite Hn, !inject_Z_mult. change (inject_Z 2) with 2%Q.
      assert (Hnt : (1 <= inject_Z n * inject_Z t)%Q).
      { rewrite <- inject_Z_mult. apply (inj_le 1). nia. }
      set (nt := (inject_Z n * inject_Z t)%Q) in *.
      assert (E : (inject_Z n * 2 * A * (inject_Z t / 2) + inject_Z n * 2 * B * (inject_Z t / 2) + inject_Z t * (inject_Z n * 2 * A * B) +
        (inject_Z n * 2 * inject_Z t / 2 / 2 + (1 # 2)) == nt * A + nt * B + 2 * (nt * (A * B)) + (nt / 2 + (1 # 2)))%Q) by (unfold nt; field).
      assert (F : (A * B * (inject_Z n * 2) * inject_Z t + (A + B + 1) * nt == nt * A + nt * B + 2 * (nt * (A * B)) + nt)%Q) by (unfold nt; ring).
      rewrite E, F. unfold Qdiv. change (/ 2)%Q with (1 # 2)%Q. lra.
  Qed.

  Lemma holds_pk M s Berr (m : elt) c : (forall k, 2 * Z.abs (m k) <= t) -> bounded s 1%Q -> encrypted_pk M t s Berr m c ->
    holds M t s c m (Berr * (1 + 2 * inject_Z (Z.pos N) * 1))%Q.
  Proof.
    intros Hm Hs (a & e & u & e0 & e1 & He & He0 & He1 & Hu & C). eapply holds_ct; [exact C|].
    exists m, (plus (plus (mult e u) e0) (mult s e1)). split; [|split; [|split]].
    - apply same_cong. cbn [phase]. rewrite !(scale_cst t). ring.
    - apply cong_refl.
    - exact Hm.
    - eapply bounded_le; [apply bounded_plus; [apply bounded_plus; [apply bounded_mult; eassumption|eassumption]|apply bounded_mult; eassumption]|].
      apply Qle_lteq. right. ring.
  Qed.
  Lemma holds_sk M s Berr (m : elt) c : (forall k, 2 * Z.abs (m k) <= t) -> encrypted_sk M t s Berr m c -> holds M t s c m Berr.
  Proof.
    intros Hm (a & e & He & C). eapply holds_ct; [exact C|]. exists m, e. split; [|split; [|split]]; try assumption.
    - apply same_cong. cbn [phase]. ring.
    - apply cong_refl.
  Qed.

  Lemma bounded_unscale c (x : elt) A : 0 < c -> bounded (scale c x) (inject_Z c * A) -> bounded x A.
  Proof.
    intros Hc H k. specialize (H k). cbn [coef scale] in H. rewrite Z.abs_mul, (Z.abs_eq c) in H by lia. rewrite inject_Z_mult in H.
    apply Qmult_le_l in H; [exact H|]. rewrite Zlt_Qlt in Hc. exact Hc.
  Qed.
  Lemma cong_unscale M c (x y : elt) : c <> 0 -> cong (c * M) (scale c x) (scale c y) -> cong M x y.
  Proof. intros Hc H k. destruct (H k) as [d Hd]. cbn [coef scale] in Hd. exists d. apply (Z.mul_reg_l _ _ c Hc). lia. Qed.

  Lemma key_switch_sound M P s' s n (c r0 r1 : elt) Berr : 0 < M -> 0 < P -> Z.gcd t P = 1 -> bounded s 1%Q -> (0 <= Berr)%Q ->
    key_switched M P t Berr s' s n c r0 r1 ->
    exists w, cong M (plus r0 (mult s r1)) (plus (mult c s') (scale t w)) /\
      bounded w (inject_Z (Z.of_nat n) * inject_Z (Z.pos N) * Berr / 2 + (1 + inject_Z (Z.pos N)) / 2)%Q.
  Proof.
    intros HM HP Hg Hs HB (l & Hn & Hc & Hl & (d0 & D1 & D2 & D3) & (d1 & F1 & F2 & F3)).
    set (U0 := sum_elts (map (fun '(d, _, (b, _), _) => mult d b) l)) in *.
    set (U1 := sum_elts (map (fun '(d, _, (_, a), _) => mult d a) l)) in *.
    set (G := sum_elts (map (fun '(d, g, _, _) => mult d g) l)) in *.
    set (E := sum_elts (map (fun '(d, _, _, e) => mult d e) l)).
    assert (K : cong (M * P) (plus U0 (mult U1 s)) (plus (scale t E) (mult (scale P G) s')) /\
      bounded E (inject_Z (Z.of_nat n) * inject_Z (Z.pos N) * (inject_Z P / 2) * Berr)%Q).
    { subst n U0 U1 G E. clear - Hl HB. induction l as [|[[[d g] [b a]] e] l IH].
      - split; [apply same_cong; cbn [sum_elts map fold_right]; rewrite !(scale_cst t), !(scale_cst P); ring|].
        intros k. cbn [map sum_elts fold_right zero coef length]. change (0 <= 0 * inject_Z (Z.pos N) * (inject_Z P / 2) * Berr)%Q.
        assert (R : (0 * inject_Z (Z.pos N) * (inject_Z P / 2) * Berr == 0)%Q) by ring. rewrite R. apply Qle_refl.
      - destruct IH as [I1 I2]; [intros; apply (Hl d0 g0 b0 a0 e0); right; assumption|].
        destruct (Hl d g b a e (or_introl eq_refl)) as (B1 & B2 & B3). unfold sum_elts in I1, I2 |- *. cbn [map fold_right length].
        split.
        + match goal with |- cong _ (plus (plus ?x ?u) (mult (plus ?y ?w) _)) (plus (scale _ (plus ?z ?f)) (mult (scale _ (plus ?g0 ?h)) _)) =>
            eapply cong_trans; [apply (same_cong _ _ (plus (mult d (plus b (mult a s))) (plus u (mult w s)))); ring|];
            eapply cong_trans; [apply cong_plus; [apply cong_mult; [apply cong_refl|exact B3]|exact I1]|] end.
          apply same_cong. rewrite !(scale_cst t), !(scale_cst P). ring.
        + eapply bounded_le; [apply bounded_plus; [apply bounded_mult; [apply bounded_two, B1|exact B2]|exact I2]|].
          replace (Z.of_nat (S (length l))) with (Z.of_nat (length l) + 1) by lia. rewrite inject_Z_plus. change (inject_Z 1) with 1%Q.
          apply Qle_lteq. right. field. }
    destruct K as [K KB].
    set (Zz := plus (plus (scale t E) d0) (mult s d1)).
    assert (C : cong (P * M) (scale P (plus r0 (mult s r1))) (plus (scale P (mult c s')) Zz)).
    { eapply cong_trans; [apply (same_cong _ _ (plus (scale P r0) (mult s (scale P r1)))); rewrite !(scale_cst P); ring|].
      eapply cong_trans; [apply cong_plus; [exact D1|apply cong_mult; [apply cong_refl|exact F1]]|].
      eapply cong_trans; [apply (same_cong _ _ (plus (plus U0 (mult U1 s)) (plus d0 (mult s d1)))); ring|].
      eapply cong_trans; [apply cong_plus; [rewrite Z.mul_comm; exact K|apply cong_refl]|].
      eapply cong_trans; [apply (same_cong _ _ (plus (scale P (mult G s')) Zz)); unfold Zz; rewrite !(scale_cst P), !(scale_cst t); ring|].
      apply cong_plus; [|apply cong_refl]. intros k.
      assert (X := cong_mult M _ _ _ _ (cong_sym _ _ _ Hc) (cong_refl M s') k). cbn [coef scale].
      rewrite <- Z.mul_sub_distr_l. apply Z.mul_divide_mono_l. exact X. }
    assert (T : forall k, (t * P | Zz k)).
    { intros k. assert (T1 : (t | Zz k)).
      { unfold Zz. cbn [coef plus scale]. apply Z.divide_add_r; [apply Z.divide_add_r; [apply Z.divide_factor_l|apply D2]|].
        cbn [mult coef]. apply sum_divide. intros i. apply Z.divide_mul_r, F2. }
      assert (T2 : (P | Zz k)).
      { destruct (C k) as [y Hy]. cbn [coef plus scale] in Hy. exists ((plus r0 (mult s r1)) k - (mult c s') k - y * M).
        cbn [coef plus scale]. lia. }
      destruct T1 as [y Hy]. rewrite Hy in T2. rewrite Z.mul_comm in T2.
      assert (T3 : (P | y)) by (apply (Z.gauss P t y); [exact T2|rewrite Z.gcd_comm; exact Hg]).
      destruct T3 as [z Hz]. exists z. rewrite Hy, Hz. ring. }
    assert (HtP : 0 < t * P) by nia.
    set (w := quot_elt (t * P) Zz T). assert (Hw : same Zz (scale (t * P) w)) by (apply quot_spec; lia).
    exists w. split.
    - apply (cong_unscale M P); [lia|]. eapply cong_trans; [exact C|]. apply same_cong. intros k. cbn [coef plus scale]. rewrite Hw.
      cbn [coef scale]. ring.
    - apply (bounded_unscale (t * P)); [exact HtP|]. eapply bounded_same; [symmetry; exact Hw|]. unfold Zz.
      eapply bounded_le.
      { apply bounded_plus; [apply bounded_plus; [apply bounded_scale; [lia|exact KB]|apply bounded_two, D3]|].
        apply bounded_mult; [exact Hs|apply bounded_two, F3]. }
      rewrite !inject_Z_mult. apply Qle_lteq. right. field.
  Qed.

  Lemma holds_relin M P s n (c c' : ct N) x A Berr : 0 < M -> 0 < P -> Z.gcd t P = 1 -> bounded s 1%Q -> (0 <= Berr)%Q ->
    holds M t s c x A -> relinearized M P t Berr s n c c' ->
    holds M t s c' x (A + inject_Z (Z.of_nat n) * inject_Z (Z.pos N) * Berr / 2 + (1 + inject_Z (Z.pos N)) / 2)%Q.
  Proof.
    intros HM HP Hg Hs HB (m & v & H1 & H2 & H3 & H4) (c0 & c1 & c2 & r0 & r1 & -> & K & C).
    destruct (key_switch_sound _ _ _ _ _ _ _ _ _ HM HP Hg Hs HB K) as (w & W & WB).
    eapply holds_ct; [exact C|]. exists m, (plus v w). split; [|split; [|split]]; try assumption.
    - eapply cong_trans; [apply (same_cong _ _ (plus (plus c0 (mult s c1)) (plus r0 (mult s r1)))); cbn [phase]; ring|].
      eapply cong_trans; [apply cong_plus; [apply cong_refl|exact W]|].
      eapply cong_trans; [apply (same_cong _ _ (plus (phase s [c0; c1; c2]) (scale t w))); cbn [phase]; ring|].
      eapply cong_trans; [apply cong_plus; [exact H1|apply cong_refl]|].
      apply same_cong. rewrite !(scale_cst t). ring.
    - eapply bounded_le; [apply bounded_plus; [exact H4|exact WB]|]. apply Qle_lteq. right. ring.
  Qed.

  (** automorphisms *)
  Variable logN : Z.
  Hypothesis Hpow : Z.pos N = 2 ^ logN.
  Lemma auto_mult h (x y : elt) : same (auto h (mult x y)) (mult (auto h x) (auto h y)).
  Proof.
    intros k. cbn [auto mult coef]. symmetry.
    transitivity (sum (fun i => (fun j => x j * y ((2 * h + 1) * k - j)) ((2 * h + 1) * i))).
    { apply sum_ext. intros i _. cbn. f_equal. f_equal. ring. }
    apply (sum_reindex (fun j => x j * y ((2 * h + 1) * k - j)) (fun i => (2 * h + 1) * i)); [apply periodic|].
    intros i j Hi Hj E.
    assert (D : (Z.pos N | (2 * h + 1) * (i - j))).
    { exists ((2 * h + 1) * i / Z.pos N - (2 * h + 1) * j / Z.pos N).
      pose proof (Z.div_mod ((2 * h + 1) * i) (Z.pos N) ltac:(lia)). pose proof (Z.div_mod ((2 * h + 1) * j) (Z.pos N) ltac:(lia)). lia. }
    apply Z.gauss in D.
    - destruct D as [d D]. assert (d = 0) by nia. lia.
    - rewrite Hpow. destruct (Z.le_gt_cases 0 logN) as [H|H]; [|rewrite Z.pow_neg_r in Hpow by exact H; lia].
      clear - H. pattern logN. apply natlike_ind; [apply Z.gcd_1_l| |exact H]. intros x Hx IH. rewrite Z.pow_succ_r by exact Hx.
      apply Zgcd_1_rel_prime. apply rel_prime_sym, rel_prime_mult; apply Zgcd_1_rel_prime; [|rewrite Z.gcd_comm; exact IH].
      apply Z.bezout_1_gcd. exists 1, (- h). ring.
  Qed.
  Lemma auto_plus h (x y : elt) : same (auto h (plus x y)) (plus (auto h x) (auto h y)).
  Proof. intros k. reflexivity. Qed.
  Lemma auto_scale h c (x : elt) : same (auto h (scale c x)) (scale c (auto h x)).
  Proof. intros k. reflexivity. Qed.
  Lemma auto_cong h M (x y : elt) : cong M x y -> cong M (auto h x) (auto h y).
  Proof. intros H k. apply H. Qed.
  Lemma auto_bounded h (x : elt) A : bounded x A -> bounded (auto h x) A.
  Proof. intros H k. apply H. Qed.

  Lemma holds_rotate M P s n h (c c' : ct N) x A Berr : 0 < M -> 0 < P -> Z.gcd t P = 1 -> bounded s 1%Q -> (0 <= Berr)%Q ->
    holds M t s c x A -> rotated M P t Berr s n h c c' ->
    holds M t s c' (auto h x) (A + inject_Z (Z.of_nat n) * inject_Z (Z.pos N) * Berr / 2 + (1 + inject_Z (Z.pos N)) / 2)%Q.
  Proof.
    intros HM HP Hg Hs HB (m & v & H1 & H2 & H3 & H4) (c0 & c1 & r0 & r1 & -> & K & C).
    destruct (key_switch_sound _ _ _ _ _ _ _ _ _ HM HP Hg Hs HB K) as (w & W & WB).
    eapply holds_ct; [exact C|]. exists (auto h m), (plus (auto h v) w). split; [|split; [|split]].
    - eapply cong_trans; [apply (same_cong _ _ (plus (auto h c0) (plus r0 (mult s r1)))); cbn [phase]; ring|].
      eapply cong_trans; [apply cong_plus; [apply cong_refl|exact W]|].
      assert (E : same (auto h (phase s [c0; c1])) (plus (auto h c0) (mult (auto h c1) (auto h s)))).
      { cbn [phase]. rewrite auto_plus, auto_mult, auto_plus, auto_mult. 
        assert (Z0 : same (auto h (@zero N)) zero) by (intros k; reflexivity). rewrite Z0. ring. }
      eapply cong_trans; [apply (same_cong _ _ (plus (auto h (phase s [c0; c1])) (scale t w))); rewrite E; ring|].
      eapply cong_trans; [apply cong_plus; [apply auto_cong, H1|apply cong_refl]|].
      apply same_cong. rewrite auto_plus, auto_scale, !(scale_cst t). ring.
    - apply auto_cong, H2.
    - intros k. apply H3.
    - eapply bounded_le; [apply bounded_plus; [apply auto_bounded, H4|exact WB]|]. apply Qle_lteq. right. ring.
  Qed.

  Lemma holds_mod_reduce M q qinv s (c c' : ct N) x A : 0 < M -> 0 < q -> (t | qinv * q - 1) -> bounded s 1%Q -> length c = 2%nat ->
    holds (q * M) t s c x A -> mod_reduced M q t c c' ->
    holds M t s c' (scale qinv x) (A * (1 / inject_Z q) + (1 + inject_Z (Z.pos N)) / 2 + (1 + 1 / inject_Z q) / 2)%Q.
  Proof.
    intros HM Hq Hi Hs HL (m & v & H1 & H2 & H3 & H4) R.
    destruct c as [|c0 [|c1 [|]]]; try discriminate HL. clear HL.
    inversion_clear R as [|? c0' ? ? (d0 & D1 & D2 & D3) R']. inversion_clear R' as [|? c1' ? ? (d1 & F1 & F2 & F3) R]. inversion_clear R.
    set (X := plus (plus m (scale t v)) (plus d0 (mult s d1))).
    assert (C : cong (q * M) (scale q (phase s [c0'; c1'])) X).
    { eapply cong_trans; [apply (same_cong _ _ (plus (scale q c0') (mult s (scale q c1')))); cbn [phase]; rewrite !(scale_cst q); ring|].
      eapply cong_trans; [apply cong_plus; [exact D1|apply cong_mult; [apply cong_refl|exact F1]]|].
      eapply cong_trans; [apply (same_cong _ _ (plus (phase s [c0; c1]) (plus d0 (mult s d1)))); cbn [phase]; ring|].
      apply cong_plus; [exact H1|apply cong_refl]. }
    assert (T : forall k, (q | X k)).
    { intros k. destruct (C k) as [y Hy]. cbn [coef scale] in Hy. exists (phase s [c0'; c1'] k - y * M). lia. }
    set (Y := quot_elt q X T). assert (HY : same X (scale q Y)) by (apply quot_spec; lia).
    exists (rem_elt t Y), (rnd_elt t Y). split; [|split; [|split]].
    - apply (cong_unscale M q); [lia|]. eapply cong_trans; [exact C|]. apply same_cong. rewrite HY.
      rewrite <- (rem_same t Y). reflexivity.
    - eapply cong_trans; [apply rem_cong|]. intros k. cbn [coef scale].
      assert (T1 : (t | q * Y k - x k)).
      { specialize (HY k). cbn [coef scale] in HY. rewrite <- HY. destruct (H2 k) as [y Hy].
        replace (X k - x k) with (y * t + t * v k + (d0 k + mult s d1 k)) by (unfold X; cbn [coef plus scale]; lia).
        apply Z.divide_add_r; [apply Z.divide_add_r; [apply Z.divide_factor_r|apply Z.divide_factor_l]|].
        apply Z.divide_add_r; [apply D2|]. cbn [mult coef]. apply sum_divide. intros i. apply Z.divide_mul_r, F2. }
      destruct T1 as [y Hy], Hi as [z Hz]. exists (qinv * y - z * Y k). 
      assert (x k = q * Y k - y * t) by lia. replace (qinv * x k) with ((qinv * q) * Y k - qinv * y * t) by (rewrite H; ring).
      replace (qinv * q) with (1 + z * t) by lia. ring.
    - intros k. apply rem_small, Ht.
    - assert (P0 : (0 < inject_Z q)%Q) by (rewrite Zlt_Qlt in Hq; exact Hq).
      assert (P1 : (0 < inject_Z t)%Q) by (pose proof Ht as Ht'; rewrite Zlt_Qlt in Ht'; exact Ht').
      eapply bounded_le.
      + apply (rnd_small t Y (((1 # 2) + A) / inject_Z q + (1 + inject_Z (Z.pos N)) / 2)%Q Ht).
        apply (bounded_unscale q); [exact Hq|]. eapply bounded_same; [symmetry; exact HY|]. unfold X.
        eapply bounded_le.
        { apply bounded_plus; [apply bounded_plus; [apply bounded_two, H3|apply bounded_scale; [lia|exact H4]]|].
          apply bounded_plus; [apply bounded_two, D3|apply bounded_mult; [exact Hs|apply bounded_two, F3]]. }
        rewrite !inject_Z_mult. apply Qle_lteq. right. field. intros E. rewrite E in P0. apply (Qlt_irrefl _ P0).
      + apply Qle_lteq. right. field. intros E. rewrite E in P0. apply (Qlt_irrefl _ P0).
  Qed.

  Lemma modulus_divide (q : nat -> Z) l l' : (l <= l')%nat -> (modulus_at q l | modulus_at q l').
  Proof. induction 1; [apply Z.divide_refl|]. cbn [modulus_at]. apply Z.divide_mul_r. assumption. Qed.
  Lemma modulus_pos (q : nat -> Z) l : (forall i, 0 < q i) -> 0 < modulus_at q l.
  Proof. intros H. clear - H. induction l as [|l IH]; cbn [modulus_at]; [apply H|]. specialize (H (S l)). nia. Qed.
  Lemma holds_divide M M' s (c c' : ct N) x A : (M' | M) -> ct_cong M' c' c -> holds M t s c x A -> holds M' t s c' x A.
  Proof.
    intros D C (m & v & H1 & H2 & H3 & H4). eapply holds_ct; [exact C|]. exists m, v. repeat split; try assumption.
    exact (cong_divide _ _ _ _ D H1).
  Qed.

  Lemma decrypt_core M s (c : ct N) (x m v : elt) k : 0 < M -> cong M (phase s c) (plus m (scale t v)) -> cong t m x ->
    2 * Z.abs (m k + t * v k) < M -> (t | decrypt M t s c k - x k).
  Proof.
    clear dependent logN. clear Hdim Heven. intros HM H1 H2 W. unfold decrypt.
    assert (E : centred (phase s c k) M = m k + t * v k).
    { destruct (H1 k) as [y Hy]. cbn [coef plus scale] in Hy.
      unfold centred. pose proof (Z.div_mod M 2 ltac:(lia)). pose proof (Z.mod_pos_bound M 2 ltac:(lia)).
      replace (phase s c k + M / 2) with ((m k + t * v k + M / 2) + y * M) by lia. rewrite Z.mod_add by lia.
      rewrite Z.mod_small by lia. lia. }
    rewrite E. unfold centred. destruct (H2 k) as [z Hz].
    pose proof (Z.div_mod (m k + t * v k + t / 2) t ltac:(lia)).
    exists (z + v k - (m k + t * v k + t / 2) / t). lia.
  Qed.
  Lemma noise_room M (m v : elt) B k : 2 * Z.abs (m k) <= t -> bounded v B -> ((B + (1 # 2)) * inject_Z t <= inject_Z M / 2)%Q ->
    2 * Z.abs (m k + t * v k) <= M.
  Proof.
    clear dependent logN. clear Hdim Heven. intros H3 H4 HB. specialize (H4 k).
    assert (P1 : (0 < inject_Z t)%Q) by (pose proof Ht as Ht'; rewrite Zlt_Qlt in Ht'; exact Ht').
    assert (U : 2 * (t * Z.abs (v k)) + t <= M).
    { rewrite Zle_Qle, inject_Z_plus, !inject_Z_mult. change (inject_Z 2) with 2%Q.
      assert (V : (inject_Z t * inject_Z (Z.abs (v k)) <= inject_Z t * B)%Q) by (apply Qmult_le_l; assumption).
      assert (W : ((B + (1 # 2)) * inject_Z t == inject_Z t * B + inject_Z t * (1 # 2))%Q) by ring. rewrite W in HB.
      unfold Qdiv in HB. change (/ 2)%Q with (1 # 2)%Q in HB. lra. }
    assert (Z.abs (t * v k) = t * Z.abs (v k)) by (rewrite Z.abs_mul, (Z.abs_eq t) by lia; reflexivity). lia.
  Qed.
  Lemma noise_room_lt M (m v : elt) B k : 2 * Z.abs (m k) <= t -> bounded v B -> ((B + (1 # 2)) * inject_Z t < inject_Z M / 2)%Q ->
    2 * Z.abs (m k + t * v k) < M.
  Proof.
    clear dependent logN. clear Hdim Heven. intros H3 H4 HB. specialize (H4 k).
    assert (P1 : (0 < inject_Z t)%Q) by (pose proof Ht as Ht'; rewrite Zlt_Qlt in Ht'; exact Ht').
    assert (U : 2 * (t * Z.abs (v k)) + t < M).
    { rewrite Zlt_Qlt, inject_Z_plus, !inject_Z_mult. change (inject_Z 2) with 2%Q.
      assert (V : (inject_Z t * inject_Z (Z.abs (v k)) <= inject_Z t * B)%Q) by (apply Qmult_le_l; assumption).
      assert (W : ((B + (1 # 2)) * inject_Z t == inject_Z t * B + inject_Z t * (1 # 2))%Q) by ring. rewrite W in HB.
      unfold Qdiv in HB. change (/ 2)%Q with (1 # 2)%Q in HB. lra. }
    assert (Z.abs (t * v k) = t * Z.abs (v k)) by (rewrite Z.abs_mul, (Z.abs_eq t) by lia; reflexivity). lia.
  Qed.
  Lemma decrypt_sound M s (c : ct N) x B k : 0 < M -> holds M t s c x B -> ((B + (1 # 2)) * inject_Z t < inject_Z M / 2)%Q ->
    (t | decrypt M t s c k - x k).
  Proof.
    intros HM (m & v & H1 & H2 & H3 & H4) HB. apply (decrypt_core M s c x m v k HM H1 H2). exact (noise_room_lt M m v B k (H3 k) H4 HB).
  Qed.
  Lemma decrypt_odd M s (c : ct N) x B k : 0 < M -> Z.odd M = true -> holds M t s c x B -> ((B + (1 # 2)) * inject_Z t <= inject_Z M / 2)%Q ->
    (t | decrypt M t s c k - x k).
  Proof.
    intros HM HO (m & v & H1 & H2 & H3 & H4) HB. apply (decrypt_core M s c x m v k HM H1 H2).
    pose proof (noise_room M m v B k (H3 k) H4 HB) as R. apply Z.odd_spec in HO as [y Hy]. clear - R Hy. lia.
  Qed.

  (** programs *)
  Variables (P alpha : Z) (s : elt) (plains : nat -> nat -> elt) (lev : nat -> nat) (dim : nat -> Z) (qinv : nat -> Z).
  Notation q := (qi p).
  Hypothesis Hq : forall i, 0 < q i.
  Hypothesis HP : 0 < P.
  Hypothesis HtP : Z.gcd t P = 1.
  Hypothesis Hs : bounded s 1%Q.
  Hypothesis Hpl : forall j k i, 2 * Z.abs (plains j k i) <= t.
  Hypothesis Hinv : forall l, (t | qinv l * q l - 1).
  Hypothesis Hdig : forall i, digits alpha (lev i) <= currentNumDigit p (lev i).

  Definition good (cs : list (nat -> ct N)) (ms : list (nat -> elt)) (bs : list Q) : Prop :=
    length cs = length bs /\ length ms = length bs /\
    forall i k, (i < length bs)%nat -> holds (modulus_at q (lev i)) t s (nth i cs (@nocts N) k) (nth i ms (@nomsg N) k) (nth i bs 0%Q).

  (** operations for which the code bounds the noise *)
  Definition covered (fresh : nat) (o : op) : Prop :=
    match o with ModReduce _ | InsertSlice _ _ _ => False | BlockArg i => (i < fresh)%nat | _ => True end.

  Lemma nth_error_nth' {A} (l : list A) i d : (i < length l)%nat -> nth_error l i = Some (nth i l d).
  Proof. apply nth_error_nth'. Qed.
  Lemma good_operand cs ms bs n l a b k : good cs ms bs -> length cs = n -> at_level lev n l a -> noise_of bs a = Some b ->
    holds (modulus_at q l) t s (cts plains cs a k) (msg plains ms a k) b.
  Proof.
    intros (G1 & G2 & G3) Hn A E. destruct a as [i|j]; cbn [at_level cts msg noise_of] in *.
    - destruct A as [A <-]. rewrite (nth_error_nth' _ _ 0%Q) in E by lia. injection E as <-. apply G3. lia.
    - injection E as <-. apply holds_plain. intros i. apply Hpl.
  Qed.
  Lemma relin_le l A n i : lev i = l -> n = Z.to_nat (digits alpha l) -> 0 < alpha ->
    (A + inject_Z (Z.of_nat n) * inject_Z (Z.pos N) * boundErr / 2 + (1 + inject_Z (Z.pos N)) / 2 <= evalRelinearize p l A)%Q.
  Proof.
    intros <- -> Ha. set (l := lev i). unfold evalRelinearize, expansionFactor, expansionFactorMS, boundKey. rewrite Hdim.
    assert (D : 0 <= digits alpha l) by (unfold digits, ceil_div; apply Z.div_pos; lia).
    rewrite Z2Nat.id by exact D. pose proof (Hdig i) as Hd. fold l in Hd. apply inj_le in Hd.
    assert (NB : (0 <= inject_Z (Z.pos N) * boundErr)%Q) by (apply Qmult_le_0_compat; [apply (inj_le 0); lia|discriminate]).
    assert (X : (inject_Z (digits alpha l) * (inject_Z (Z.pos N) * boundErr) <= inject_Z (currentNumDigit p l) * (inject_Z (Z.pos N) * boundErr))%Q)
      by (apply Qmult_le_compat_r; assumption).
    assert (E1 : (inject_Z (digits alpha l) * inject_Z (Z.pos N) * boundErr / 2 == inject_Z (digits alpha l) * (inject_Z (Z.pos N) * boundErr) * (1 # 2))%Q) by field.
    assert (E2 : (inject_Z (currentNumDigit p l) * inject_Z (Z.pos N) * boundErr / 2 == inject_Z (currentNumDigit p l) * (inject_Z (Z.pos N) * boundErr) * (1 # 2))%Q) by field.
    assert (E3 : ((1 + inject_Z (Z.pos N) * 1) / 2 == (1 + inject_Z (Z.pos N)) / 2)%Q) by field.
    rewrite E1, E2, E3. lra.
  Qed.

  Hypothesis Halpha : 0 < alpha.
  Hypothesis Hext : extended p = false.

  Lemma step_sound fresh cs ms bs o r b : good cs ms bs -> executes t q P alpha s boundErr plains lev cs o r ->
    (fresh <= length bs)%nat -> (forall i, (i < fresh)%nat -> (nth i bs 0%Q <= (if usePublicKey p then evalEncryptPk p else evalEncryptSk))%Q) ->
    covered fresh o -> visitOperation p lev dim bs o = Some b ->
    forall k, holds (modulus_at q (lev (length bs))) t s (r k) (clear plains lev qinv ms o k) b.
  Proof.
    intros G X Hf Hfr C V.
      intros k. pose proof G as (G1 & G2 & G3). unfold executes in X. rewrite G1 in X.
      assert (MP := modulus_pos q (lev (length bs)) Hq).
      destruct o; cbn [visitOperation covered clear] in *; try contradiction.
      - destruct X as (A1 & A2 & A3). destruct (noise_of bs a) eqn:E1; [|discriminate V]. destruct (noise_of bs b0) eqn:E2; [|discriminate V].
        injection V as <-. eapply holds_ct; [apply A3|]. apply holds_add; [exact Ht|eapply good_operand; eassumption|eapply good_operand; eassumption].
      - destruct X as (A1 & A2 & A3). destruct (noise_of bs a) eqn:E1; [|discriminate V]. destruct (noise_of bs b0) eqn:E2; [|discriminate V].
        injection V as <-. eapply holds_ct; [apply A3|]. apply holds_add; [exact Ht|eapply good_operand; eassumption|apply holds_opp; eapply good_operand; eassumption].
      - destruct X as (A1 & A2 & A3). destruct (noise_of bs a) eqn:E1; [|discriminate V]. destruct (noise_of bs b0) eqn:E2; [|discriminate V].
        injection V as <-. eapply holds_ct; [apply A3|]. apply holds_mul; eapply good_operand; eassumption.
      - destruct X as (A1 & A2 & A3). rewrite (nth_error_nth' _ _ 0%Q) in V by exact A1. injection V as <-.
        eapply holds_le; [|eapply relin_le; [reflexivity|reflexivity|exact Halpha]]. rewrite A2.
        eapply holds_rotate; [exact MP|exact HP|exact HtP|exact Hs|discriminate| |apply A3]. rewrite <- A2. apply G3, A1.
      - destruct X as (A1 & A2 & A3). rewrite (nth_error_nth' _ _ 0%Q) in V by exact A1. injection V as <-.
        eapply holds_ct; [apply A3|]. apply holds_mul; [rewrite <- A2; apply G3, A1|apply holds_plain; intros; apply Hpl].
      - destruct X as (A1 & A2 & A3). rewrite (nth_error_nth' _ _ 0%Q) in V by exact A1. injection V as <-.
        eapply holds_divide; [apply modulus_divide, A2|apply A3|apply G3, A1].
      - destruct X as (A1 & A2 & A3). rewrite (nth_error_nth' _ _ 0%Q) in V by exact A1. injection V as <-.
        eapply holds_le; [|eapply relin_le; [reflexivity|reflexivity|exact Halpha]]. rewrite A2.
        eapply holds_relin; [exact MP|exact HP|exact HtP|exact Hs|discriminate| |apply A3]. rewrite <- A2. apply G3, A1.
      - destruct X as (A1 & A2 & A3). rewrite (nth_error_nth' _ _ 0%Q) in V by exact A1. injection V as <-.
        rewrite A3, <- A2. apply G3, A1.
      - destruct X as (A1 & A2 & A3). unfold evalEncrypt in V. rewrite Hext in V. injection V as <-. rewrite A3, <- A2.
        eapply holds_le; [apply G3, A1|apply Hfr, C].
  Qed.
  Lemma good_app cs ms bs r m b : good cs ms bs -> (forall k, holds (modulus_at q (lev (length bs))) t s (r k) (m k) b) ->
    good (cs ++ [r]) (ms ++ [m]) (bs ++ [b]).
  Proof.
    intros (G1 & G2 & G3) K. split; [|split]; [rewrite !app_length, G1; reflexivity|rewrite !app_length, G2; reflexivity|].
    intros i k Hi. rewrite app_length in Hi. cbn in Hi. destruct (Nat.eq_dec i (length bs)) as [->|D].
    - rewrite !app_nth2 by lia. rewrite G1, G2, !Nat.sub_diag. cbn [nth]. apply K.
    - rewrite !app_nth1 by lia. apply G3. lia.
  Qed.
  Lemma sound fresh os : forall cs ms bs cs' bs', good cs ms bs -> runs t q P alpha s boundErr plains lev cs os cs' ->
    (fresh <= length bs)%nat -> (forall i, (i < fresh)%nat -> (nth i bs 0%Q <= (if usePublicKey p then evalEncryptPk p else evalEncryptSk))%Q) ->
    Forall (covered fresh) os -> analyse p lev dim bs os = Some bs' -> good cs' (clear_all plains lev qinv ms os) bs'.
  Proof.
    induction os as [|o os IH]; intros cs ms bs cs' bs' G R Hf Hfr C A; inversion R; subst; cbn [analyse clear_all] in *.
    - injection A as <-. exact G.
    - destruct (visitOperation p lev dim bs o) as [b|] eqn:V; [|discriminate A]. inversion C; subst.
      eapply IH; [|eassumption| | |assumption|exact A].
      + apply good_app; [exact G|]. eapply step_sound; eassumption.
      + rewrite app_length. cbn. lia.
      + intros i Hi. rewrite app_nth1 by lia. apply Hfr, Hi.
  Qed.

  (** the analysis with the three corrections *)
  Definition repaired (bs : list Q) (o : op) : option Q :=
    match o with
    | ModReduce i => match visitOperation p lev dim bs o with
                     | Some x => Some (x + (1 + 1 / inject_Z (q (lev i))) / 2)%Q | None => None end
    | InsertSlice i j _ => match nth_error bs i, nth_error bs j with
                           | Some x, Some y => Some (if Qle_bool x y then y else x) | _, _ => None end
    | BlockArg i => nth_error bs i
    | _ => visitOperation p lev dim bs o
    end.
  Fixpoint analyse_repaired (bs : list Q) (os : list op) : option (list Q) :=
    match os with [] => Some bs | o :: os => match repaired bs o with Some x => analyse_repaired (bs ++ [x]) os | None => None end end.
  Lemma sound_repaired os : forall cs ms bs cs' bs', good cs ms bs -> runs t q P alpha s boundErr plains lev cs os cs' ->
    analyse_repaired bs os = Some bs' -> good cs' (clear_all plains lev qinv ms os) bs'.
  Proof.
    induction os as [|o os IH]; intros cs ms bs cs' bs' G R A; inversion R; subst; cbn [analyse_repaired clear_all] in *.
    - injection A as <-. exact G.
    - destruct (repaired bs o) as [b|] eqn:V; [|discriminate A]. eapply IH; [|eassumption|exact A]. apply good_app; [exact G|].
      assert (D : covered 0 o \/ ~ covered 0 o) by (destruct o; cbn; auto using Nat.nlt_0_r). destruct D as [D|D].
      + eapply (step_sound 0); [exact G|eassumption|lia|intros; lia|exact D|]. destruct o; try exact V; cbn in D; try contradiction. lia.
      + destruct G as (G1 & G2 & G3). destruct o; cbn [covered] in D; try (exfalso; apply D; exact I); cbn [executes clear] in *;
          rewrite G1 in *; intros k.
        * destruct H2 as (A1 & A2 & A3). unfold repaired, visitOperation in V. rewrite (nth_error_nth' _ _ 0%Q) in V by exact A1.
          unfold evalModReduce in V. destruct (negb _); [discriminate V|]. injection V as <-. destruct (A3 k) as [L1 L2].
          unfold expansionFactorMS, boundKey. rewrite Hdim, A2. eapply holds_le.
          -- eapply (holds_mod_reduce _ (q (S (lev (length bs)))) (qinv (S (lev (length bs)))));
               [apply modulus_pos, Hq|apply Hq|apply Hinv|exact Hs|exact L1| |exact L2].
             specialize (G3 i k A1). rewrite A2 in G3. exact G3.
          -- apply Qle_lteq. right. rewrite Qmult_1_r. reflexivity.
        * destruct H2 as (A1 & A2 & A3 & A4 & A5). cbn [repaired] in V.
          rewrite (nth_error_nth' _ _ 0%Q) in V by exact A1. rewrite (nth_error_nth' bs j 0%Q) in V by exact A2. injection V as <-.
          rewrite A5. destruct (f k) as [k'|].
          -- rewrite <- A3. eapply holds_le; [apply G3, A1|]. destruct (Qle_bool _ _) eqn:E; [apply Qle_bool_iff, E|apply Qle_refl].
          -- rewrite <- A4. eapply holds_le; [apply G3, A2|]. destruct (Qle_bool _ _) eqn:E; [apply Qle_refl|].
             apply Qnot_lt_le. intros F. apply Qlt_le_weak, Qle_bool_iff in F. rewrite F in E. discriminate E.
        * destruct H2 as (A1 & A2 & A3). cbn [repaired] in V. rewrite (nth_error_nth' _ _ 0%Q) in V by exact A1. injection V as <-.
          rewrite A3, <- A2. apply G3, A1.
  Qed.
End Ring.
