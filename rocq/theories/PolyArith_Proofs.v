(** Proofs about sparse polynomials and Chebyshev series. *)
From Coq Require Import ZArith List Bool Lia Ring Setoid.
From Verif Require Import Words ModArith_Proofs NumTheory_Model Kernel_Model Kernel_Spec Kernel_Proofs PolyArith_Model PolyArith_Spec.
Import ListNotations.
Open Scope Z_scope.

Section Poly.
Variable K : cring.
Notation R := (car K).
Add Ring Kring : (r_ok K).
Notation "0" := (r0 K) : ring_scope.
Local Notation "a +r b" := (radd K a b) (at level 50, left associativity).
Local Notation "a *r b" := (rmul K a b) (at level 40, left associativity).
Local Notation "a -r b" := (rsub K a b) (at level 50, left associativity).
Local Notation zero := (r0 K).
Variable is0 : R -> bool.
Hypothesis is0_ok : forall x, is0 x = true -> x = r0 K.
Notation weigh := (weigh K).
Notation add_loop := (add_loop K is0).
Notation increasing := (increasing K).

Lemma weigh_app phi a b : weigh phi (a ++ b) = weigh phi a +r weigh phi b.
Proof. induction a as [|[c e] a IH]; cbn; [ring|]. rewrite IH. ring. Qed.
Lemma weigh_canonicalize phi p : weigh phi (canonicalize K is0 p) = weigh phi p.
Proof.
  unfold canonicalize. induction p as [|[c e] p IH]; cbn; auto. destruct (is0 c) eqn:E; cbn; rewrite IH; auto.
  rewrite (is0_ok c E). ring.
Qed.
Lemma weigh_scale phi c p : weigh phi (scale K c p) = c *r weigh phi p.
Proof. unfold scale. induction p as [|[d e] p IH]; cbn; [ring|]. unfold scale in IH. rewrite IH. ring. Qed.
Lemma weigh_ext phi psi p : (forall e, In e (map snd p) -> phi e = psi e) -> weigh phi p = weigh psi p.
Proof.
  induction p as [|[c e] p IH]; intros H; cbn; auto. rewrite IH by (intros; apply H; cbn; auto).
  rewrite (H e) by (cbn; auto). reflexivity.
Qed.
Lemma weigh_monomial_mul phi e p : (forall x, In x (map snd p) -> 0 <= x + e < 2 ^ 64) ->
  weigh phi (monomial_mul K e p) = weigh (fun d => phi (d + e)) p.
Proof.
  unfold monomial_mul. induction p as [|[c d] p IH]; intros H; cbn [map weigh fst snd]; auto.
  rewrite IH by (intros; apply H; cbn; auto).
  rewrite (wrap_small 64 (d + e)) by (apply H; cbn; auto). reflexivity.
Qed.

Lemma take_lt_app b l : forall a c, take_lt K b l = (a, c) -> l = a ++ c.
Proof.
  induction l as [|t l IH]; cbn; intros a c H; [injection H as <- <-; auto|].
  destruct (snd t <? b).
  - destruct (take_lt K b l) as [a' c'] eqn:E. injection H as <- <-. cbn. f_equal. auto.
  - injection H as <- <-. reflexivity.
Qed.
Lemma take_lt_head b l : forall a c, take_lt K b l = (a, c) ->
  (forall t r, c = t :: r -> b <= snd t) /\ (forall t, In t a -> snd t < b).
Proof.
  induction l as [|t l IH]; cbn; intros a c H.
  - injection H as <- <-. split; [discriminate|contradiction].
  - destruct (Z.ltb_spec (snd t) b).
    + destruct (take_lt K b l) as [a' c'] eqn:E. injection H as <- <-. destruct (IH _ _ eq_refl) as [A B].
      split; auto. intros t' [<-|]; auto.
    + injection H as <- <-. split; [|contradiction]. intros t' r [= <- <-]. auto.
Qed.

Lemma add_loop_weigh phi fuel : forall l1 l2 r, add_loop fuel l1 l2 = Some r ->
  weigh phi r = weigh phi l1 +r weigh phi l2.
Proof.
  induction fuel as [|f IH]; intros l1 l2 r H; [discriminate|]. cbn [PolyArith_Model.add_loop] in H.
  destruct l1 as [|t1 l1], l2 as [|t2 l2].
  - injection H as <-. cbn. ring.
  - destruct (add_loop f [] l2) as [q|] eqn:E; [|discriminate]. injection H as <-.
    destruct t2 as [c e]. cbn [PolyArith_Spec.weigh]. rewrite (IH _ _ _ E). cbn. ring.
  - destruct (add_loop f l1 []) as [q|] eqn:E; [|discriminate]. injection H as <-.
    destruct t1 as [c e]. cbn [PolyArith_Spec.weigh]. rewrite (IH _ _ _ E). cbn. ring.
  - remember (t1 :: l1) as m1. remember (t2 :: l2) as m2.
    destruct (take_lt K (snd t2) m1) as [a l1'] eqn:E1. apply take_lt_app in E1.
    destruct l1' as [|u1 r1].
    + destruct (add_loop f [] m2) as [q|] eqn:E; [|discriminate]. injection H as <-.
      rewrite weigh_app, (IH _ _ _ E). rewrite E1, app_nil_r. cbn. ring.
    + destruct (take_lt K (snd u1) m2) as [b l2'] eqn:E2. apply take_lt_app in E2.
      destruct l2' as [|u2 r2].
      * destruct (add_loop f (u1 :: r1) []) as [q|] eqn:E; [|discriminate]. injection H as <-.
        rewrite !weigh_app, (IH _ _ _ E). rewrite E1, E2, app_nil_r, weigh_app. cbn. ring.
      * destruct (Z.eqb_spec (snd u1) (snd u2)) as [He|]; [|discriminate].
        destruct (add_loop f r1 r2) as [q|] eqn:E; [|discriminate]. injection H as <-.
        rewrite !weigh_app, (IH _ _ _ E). rewrite E1, E2, !weigh_app.
        destruct u1 as [c1 e1], u2 as [c2 e2]. cbn [fst snd] in *. subst e2.
        destruct (is0 (c1 +r c2)) eqn:Ez; cbn [PolyArith_Spec.weigh].
        -- apply is0_ok in Ez.
           replace (weigh phi a +r (c1 *r phi e1 +r weigh phi r1) +r (weigh phi b +r (c2 *r phi e1 +r weigh phi r2)))
             with (weigh phi a +r weigh phi b +r (c1 +r c2) *r phi e1 +r weigh phi r1 +r weigh phi r2) by ring.
           rewrite Ez. ring.
        -- ring.
Qed.

(** ** Order *)
Lemma inc_weaken lo lo' hi hi' p : increasing lo hi p -> lo' <= lo -> hi <= hi' -> increasing lo' hi' p.
Proof.
  revert lo lo'. induction p as [|[c e] p IH]; intros lo lo' H H1 H2; cbn in *; auto.
  destruct H as [B H]. split; [lia|]. eapply IH; eauto. lia.
Qed.
Lemma inc_app lo hi mid a b : increasing lo mid a -> increasing mid hi b -> lo <= mid -> mid <= hi ->
  increasing lo hi (a ++ b).
Proof.
  revert lo. induction a as [|[c e] a IH]; intros lo H1 H2 H3 H4; cbn in *.
  - eapply inc_weaken; eauto; lia.
  - destruct H1 as [B H1]. split; [lia|]. apply IH; auto. lia.
Qed.
Lemma inc_bounds lo hi p : increasing lo hi p -> forall e, In e (map snd p) -> lo <= e < hi.
Proof.
  revert lo. induction p as [|[c d] p IH]; intros lo H e He; cbn in *; [contradiction|].
  destruct H as [B H]. destruct He as [<-|He]; [auto|]. specialize (IH _ H _ He). lia.
Qed.
Lemma inc_app_inv lo hi a b : increasing lo hi (a ++ b) ->
  increasing lo hi a /\ increasing lo hi b /\
  forall x y, In x (map snd a) -> In y (map snd b) -> x < y.
Proof.
  revert lo. induction a as [|[c e] a IH]; intros lo H; cbn in *.
  - split; auto. split; auto. intros x y [].
  - destruct H as [B H]. destruct (IH _ H) as (H1 & H2 & H3). split; [auto|]. split.
    + eapply inc_weaken; eauto; lia.
    + intros x y [<-|Hx] Hy; auto. pose proof (inc_bounds _ _ _ H2 _ Hy). lia.
Qed.
Lemma inc_filter lo hi f p : increasing lo hi p -> increasing lo hi (filter f p).
Proof.
  revert lo. induction p as [|[c e] p IH]; intros lo H; cbn in *; auto. destruct H as [B H].
  destruct (f (c, e)); cbn; [split; auto|]. eapply inc_weaken; [apply IH; eauto|lia|lia].
Qed.
Lemma inc_narrow lo hi hi' p : increasing lo hi p -> (forall e, In e (map snd p) -> e < hi') -> increasing lo hi' p.
Proof.
  revert lo. induction p as [|[c e] p IH]; intros lo H H'; cbn in *; auto. destruct H as [B H].
  split; [specialize (H' e); intuition lia|]. apply IH; auto.
Qed.
Lemma inc_raise lo lo' hi p : increasing lo hi p -> (forall e, In e (map snd p) -> lo' <= e) -> increasing lo' hi p.
Proof.
  destruct p as [|[c e] p]; cbn; auto. intros [B H] H'. split; auto. specialize (H' e). intuition lia.
Qed.

Lemma add_loop_inc fuel : forall l1 l2 r lo hi, lo <= hi -> add_loop fuel l1 l2 = Some r ->
  increasing lo hi l1 -> increasing lo hi l2 -> increasing lo hi r.
Proof.
  induction fuel as [|f IH]; intros l1 l2 r lo hi Hlh H H1 H2; [discriminate|]. cbn [PolyArith_Model.add_loop] in H.
  destruct l1 as [|t1 l1], l2 as [|t2 l2].
  - injection H as <-. exact I.
  - destruct (add_loop f [] l2) as [q|] eqn:E; [|discriminate]. injection H as <-.
    destruct t2 as [c e]. cbn in H2 |- *. destruct H2 as [B H2]. split; auto.
    eapply IH; [|exact E| |]; try exact I; auto; lia.
  - destruct (add_loop f l1 []) as [q|] eqn:E; [|discriminate]. injection H as <-.
    destruct t1 as [c e]. cbn in H1 |- *. destruct H1 as [B H1]. split; auto.
    eapply IH; [|exact E| |]; try exact I; auto; lia.
  - remember (t1 :: l1) as m1. remember (t2 :: l2) as m2.
    assert (B2 : lo <= snd t2 < hi).
    { apply (inc_bounds _ _ _ H2). subst m2. cbn. auto. }
    destruct (take_lt K (snd t2) m1) as [a l1'] eqn:E1.
    destruct (take_lt_head _ _ _ _ E1) as [A1 A2]. apply take_lt_app in E1. rewrite E1 in H1.
    apply inc_app_inv in H1. destruct H1 as (Ia & I1 & _).
    assert (Ia' : increasing lo (snd t2) a).
    { eapply inc_narrow; eauto. intros e He. apply in_map_iff in He. destruct He as (t & <- & Ht). auto. }
    assert (M2 : increasing (snd t2) hi m2).
    { subst m2. destruct t2 as [c e]. cbn in *. split; [lia|]. tauto. }
    destruct l1' as [|u1 r1].
    + destruct (add_loop f [] m2) as [q|] eqn:E; [|discriminate]. injection H as <-.
      apply inc_app with (mid := snd t2); auto; try lia.
      eapply IH; [|exact E|exact I|]; auto. lia.
    + specialize (A1 u1 r1 eq_refl).
      assert (I1' : increasing (snd u1) hi (u1 :: r1)).
      { destruct u1 as [c e]. cbn in *. split; [lia|tauto]. }
      assert (Bu1 : snd t2 <= snd u1 < hi) by (destruct u1; cbn in *; lia).
      destruct (take_lt K (snd u1) m2) as [b l2'] eqn:E2.
      destruct (take_lt_head _ _ _ _ E2) as [C1 C2]. apply take_lt_app in E2. rewrite E2 in M2.
      apply inc_app_inv in M2. destruct M2 as (Ib & I2 & _).
      assert (Ib' : increasing (snd t2) (snd u1) b).
      { eapply inc_narrow; eauto. intros e He. apply in_map_iff in He. destruct He as (t & <- & Ht). auto. }
      destruct l2' as [|u2 r2].
      * destruct (add_loop f (u1 :: r1) []) as [q|] eqn:E; [|discriminate]. injection H as <-.
        apply inc_app with (mid := snd t2); auto; try lia. apply inc_app with (mid := snd u1); auto; try lia.
        eapply IH; [|exact E| |exact I]; auto. lia.
      * destruct (Z.eqb_spec (snd u1) (snd u2)) as [He|]; [|discriminate].
        destruct (add_loop f r1 r2) as [q|] eqn:E; [|discriminate]. injection H as <-.
        apply inc_app with (mid := snd t2); auto; try lia. apply inc_app with (mid := snd u1); auto; try lia.
        assert (Q : increasing (snd u1 + 1) hi q).
        { eapply IH; [|exact E| |]; [lia| |].
          - destruct u1 as [c e]; cbn in *; tauto.
          - rewrite He. destruct u2 as [c e]; cbn in *; tauto. }
        destruct (is0 _); cbn [app].
        -- eapply inc_weaken; eauto; lia.
        -- cbn. split; [lia|auto].
Qed.

(** ** When the merge succeeds: one support contains the other *)
Definition support (p : list (R * Z)) : list Z := map snd p.
Lemma add_loop_nested fuel : forall l1 l2 lo hi, (length l1 + length l2 < fuel)%nat ->
  increasing lo hi l1 -> increasing lo hi l2 ->
  (incl (support l1) (support l2) \/ incl (support l2) (support l1)) ->
  exists r, add_loop fuel l1 l2 = Some r.
Proof.
  induction fuel as [|f IH]; intros l1 l2 lo hi Hf H1 H2 Hn; [lia|]. cbn [PolyArith_Model.add_loop].
  destruct l1 as [|[c1 e1] l1], l2 as [|[c2 e2] l2].
  - eauto.
  - destruct (IH [] l2 (e2 + 1) hi) as [q E]; [cbn [length] in *; lia|exact I|cbn in H2; tauto|left; intros ? []|].
    rewrite E. cbn [bind]. eauto.
  - destruct (IH l1 [] (e1 + 1) hi) as [q E]; [cbn [length] in *; lia|cbn in H1; tauto|exact I|right; intros ? []|]. rewrite E. cbn [bind]. eauto.
  - remember ((c1, e1) :: l1) as m1. remember ((c2, e2) :: l2) as m2. cbn [snd].
    destruct (take_lt K e2 m1) as [a l1'] eqn:E1.
    destruct (take_lt_head _ _ _ _ E1) as [A1 A2]. pose proof (take_lt_app _ _ _ _ E1) as P1.
    destruct l1' as [|u1 r1].
    + (* everything of m1 is below e2 *)
      assert (Hl : (length m1 = length a)%nat) by (rewrite P1, app_nil_r; auto).
      destruct (IH [] m2 lo hi) as [q E]; cbn; auto.
      * subst m1. cbn in Hl, Hf. lia.
      * left. intros ? [].
      * rewrite E. cbn [bind]. eauto.
    + specialize (A1 u1 r1 eq_refl). destruct u1 as [d1 x1]. cbn [snd] in *.
      assert (H1c := H1). rewrite P1 in H1c. apply inc_app_inv in H1c. destruct H1c as (Ia & I1 & I12).
      destruct (take_lt K x1 m2) as [b l2'] eqn:E2.
      destruct (take_lt_head _ _ _ _ E2) as [C1 C2]. pose proof (take_lt_app _ _ _ _ E2) as P2.
      assert (H2c := H2). rewrite P2 in H2c. apply inc_app_inv in H2c. destruct H2c as (Ib & I2 & I22).
      assert (Hl1 : length m1 = (length a + S (length r1))%nat) by (rewrite P1, app_length; reflexivity).
      destruct l2' as [|u2 r2].
      * assert (Hl2 : length m2 = length b) by (rewrite P2, app_nil_r; auto).
        destruct (IH ((d1, x1) :: r1) [] lo hi) as [q E]; cbn [length]; auto.
        -- subst m2. cbn [length] in *. lia.
        -- right. intros ? [].
        -- rewrite E. cbn [bind]. eauto.
      * specialize (C1 u2 r2 eq_refl). destruct u2 as [d2 x2]. cbn [snd] in *.
        assert (Hl2 : length m2 = (length b + S (length r2))%nat) by (rewrite P2, app_length; reflexivity).
        assert (Eq : x1 = x2).
        { destruct (Z_lt_ge_dec x1 x2) as [Lt|]; [|lia]. exfalso. destruct Hn as [Hn|Hn].
          - (* x1 in m2 *)
            assert (In x1 (support m2)). { apply Hn. unfold support. rewrite P1, map_app. apply in_or_app. right. now left. }
            unfold support in H. rewrite P2, map_app in H. apply in_app_or in H. destruct H as [H|H].
            + apply in_map_iff in H. destruct H as (t & Et & Ht). specialize (C2 t Ht). lia.
            + cbn in H. destruct H as [H|H]; [lia|]. cbn in I2. destruct I2 as [_ I2].
              pose proof (inc_bounds _ _ _ I2 _ H). lia.
          - (* the head e2 of m2 is in m1, so x1 = e2 and nothing was moved *)
            assert (In e2 (support m1)). { apply Hn. subst m2. now left. }
            unfold support in H. rewrite P1, map_app in H. apply in_app_or in H.
            assert (x1 = e2).
            { destruct H as [H|H].
              - apply in_map_iff in H. destruct H as (t & Et & Ht). specialize (A2 t Ht). lia.
              - cbn in H. destruct H as [H|H]; [lia|]. cbn in I1. destruct I1 as [_ I1].
                pose proof (inc_bounds _ _ _ I1 _ H). lia. }
            subst x1. destruct b as [|bt b'].
            + cbn in P2. subst m2. injection P2 as _ E3 _. lia.
            + subst m2. cbn in P2. injection P2 as P3 _. specialize (C2 bt ltac:(now left)). subst bt. cbn in C2. lia. }
        subst x2. rewrite Z.eqb_refl.
        cbn in I1, I2. destruct I1 as [B1 I1], I2 as [B2 I2].
        destruct (IH r1 r2 (x1 + 1) hi) as [q E]; auto; try lia.
        { destruct Hn as [Hn|Hn]; [left|right]; intros y Hy.
          - assert (In y (support m2)). { apply Hn. unfold support. rewrite P1, map_app. apply in_or_app. right. now right. }
            unfold support in H. rewrite P2, map_app in H. apply in_app_or in H.
            pose proof (inc_bounds _ _ _ I1 _ Hy) as By. destruct H as [H|H].
            + apply in_map_iff in H. destruct H as (t & Et & Ht). specialize (C2 t Ht). lia.
            + cbn in H. destruct H as [H|H]; [lia|auto].
          - assert (In y (support m1)). { apply Hn. unfold support. rewrite P2, map_app. apply in_or_app. right. now right. }
            unfold support in H. rewrite P1, map_app in H. apply in_app_or in H.
            pose proof (inc_bounds _ _ _ I2 _ Hy) as By. destruct H as [H|H].
            + apply in_map_iff in H. destruct H as (t & Et & Ht). specialize (A2 t Ht). lia.
            + cbn in H. destruct H as [H|H]; [lia|auto]. }
        rewrite E. cbn [bind]. eauto.
Qed.

(** ** Products *)
Definition dwo (k : nat) (phi : Z -> R) (l : list R) : R :=
  weigh phi (combine l (map Z.of_nat (seq k (length l)))).
Lemma dwo_cons k phi c l : dwo k phi (c :: l) = c *r phi (Z.of_nat k) +r dwo (S k) phi l.
Proof. reflexivity. Qed.
Lemma dwo_zero k phi n : dwo k phi (repeat zero n) = zero.
Proof. revert k. induction n as [|n IH]; intros k; [reflexivity|]. cbn [repeat]. rewrite dwo_cons, IH. ring. Qed.
Lemma add_at_ok phi l : forall k i c l', add_at K l i c = Some l' ->
  length l' = length l /\ dwo k phi l' = dwo k phi l +r c *r phi (Z.of_nat (k + i)).
Proof.
  induction l as [|x l IH]; intros k i c l' H; [destruct i; discriminate|]. destruct i as [|i]; cbn [add_at] in H.
  - injection H as <-. split; auto. rewrite !dwo_cons, Nat.add_0_r. ring.
  - destruct (add_at K l i c) as [r|] eqn:E; [|discriminate]. injection H as <-.
    destruct (IH (S k) _ _ _ E) as [L W]. split; [cbn; lia|]. rewrite !dwo_cons, W.
    replace (S k + i)%nat with (k + S i)%nat by lia. ring.
Qed.
Lemma add_at_some l i c : (i < length l)%nat -> exists l', add_at K l i c = Some l'.
Proof.
  revert i. induction l as [|x l IH]; intros i H; [cbn in H; lia|]. destruct i; cbn [add_at]; [eauto|].
  destruct (IH i) as [r E]; [cbn in H; lia|]. rewrite E. cbn. eauto.
Qed.
Lemma int32_small d : 0 <= d < 2 ^ 31 -> sgn 32 (wrap 32 d) = d.
Proof. intros H. apply sgn_wrap_small; [lia|]. change (2 ^ (32 - 1)) with (2 ^ 31). lia. Qed.
Lemma mul_step_ok phi t u l l' : 0 <= snd t + snd u < 2 ^ 31 -> mul_step K t u l = Some l' ->
  length l' = length l /\ dwo 0 phi l' = dwo 0 phi l +r fst t *r fst u *r phi (snd t + snd u).
Proof.
  intros H E. unfold mul_step in E. rewrite int32_small in E by auto. destruct (Z.ltb_spec (snd t + snd u) 0); [lia|].
  destruct (add_at_ok phi _ 0 _ _ _ E) as [L W]. split; auto. rewrite W. cbn [Nat.add]. rewrite Z2Nat.id by lia. reflexivity.
Qed.
Definition inner (t : R * Z) (q : list (R * Z)) (acc : option (list R)) : option (list R) :=
  fold_left (fun acc u => l <- acc ;; mul_step K t u l) q acc.
Lemma inner_none t q : inner t q None = None.
Proof. unfold inner. induction q; cbn; auto. Qed.
Lemma inner_ok phi t q : forall l l', (forall f, In f (map snd q) -> 0 <= snd t + f < 2 ^ 31) ->
  inner t q (Some l) = Some l' ->
  length l' = length l /\ dwo 0 phi l' = dwo 0 phi l +r fst t *r weigh (fun f => phi (snd t + f)) q.
Proof.
  induction q as [|u q IH]; intros l l' H E.
  - injection E as <-. split; auto. cbn. ring.
  - cbn in E. fold (inner t q (mul_step K t u l)) in E.
    destruct (mul_step K t u l) as [l1|] eqn:E1; [|rewrite inner_none in E; discriminate].
    apply (mul_step_ok phi) in E1; [|apply H; cbn; auto]. destruct E1 as [L1 W1].
    destruct (IH l1 l') as [L2 W2]; auto. { intros f Hf. apply H. cbn. auto. }
    split; [lia|]. rewrite W2, W1. destruct u as [c e]. cbn [PolyArith_Spec.weigh fst snd]. ring.
Qed.
Definition outer (p q : list (R * Z)) (acc : option (list R)) : option (list R) :=
  fold_left (fun acc t => inner t q acc) p acc.
Lemma outer_none p q : outer p q None = None.
Proof. unfold outer. induction p; cbn [fold_left]; auto. rewrite inner_none. auto. Qed.
Lemma outer_ok phi p q : forall l l', (forall e f, In e (map snd p) -> In f (map snd q) -> 0 <= e + f < 2 ^ 31) ->
  outer p q (Some l) = Some l' ->
  length l' = length l /\ dwo 0 phi l' = dwo 0 phi l +r weigh (fun e => weigh (fun f => phi (e + f)) q) p.
Proof.
  induction p as [|t p IH]; intros l l' H E.
  - injection E as <-. split; auto. cbn. ring.
  - change (outer (t :: p) q (Some l)) with (outer p q (inner t q (Some l))) in E.
    destruct (inner t q (Some l)) as [l1|] eqn:E1; [|rewrite outer_none in E; discriminate].
    apply (inner_ok phi) in E1; [|intros f Hf; apply H; cbn; auto]. destruct E1 as [L1 W1].
    destruct (IH l1 l') as [L2 W2]; auto. { intros e f He Hf. apply H; cbn; auto. }
    split; [lia|]. rewrite W2, W1. destruct t as [c e]. cbn [PolyArith_Spec.weigh fst snd]. ring.
Qed.
Lemma inc_combine (l : list R) k : increasing (Z.of_nat k) (Z.of_nat k + Z.of_nat (length l)) (combine l (map Z.of_nat (seq k (length l)))).
Proof.
  revert k. induction l as [|c l IH]; intros k; [exact I|]. cbn [length seq map combine PolyArith_Spec.increasing].
  split; [lia|]. specialize (IH (S k)). eapply inc_weaken; [exact IH|lia|lia].
Qed.
Lemma inc_canonicalize lo hi p : increasing lo hi p -> increasing lo hi (canonicalize K is0 p).
Proof. apply inc_filter. Qed.
Definition convolve phi (p q : list (R * Z)) : R := weigh (fun e => weigh (fun f => phi (e + f)) q) p.
Lemma naive_mul_unfold p q : naive_mul K is0 p q =
  (dp <- get_degree K p ;; dq <- get_degree K q ;;
   l <- outer p q (Some (repeat zero (Z.to_nat (wrap 32 (dp + dq) + 1)))) ;;
   Some (canonicalize K is0 (combine l (map Z.of_nat (seq 0 (length l)))))).
Proof. reflexivity. Qed.
Lemma naive_mul_ok p q r :
  (forall e f, In e (map snd p) -> In f (map snd q) -> 0 <= e + f < 2 ^ 31) ->
  naive_mul K is0 p q = Some r ->
  (forall phi, weigh phi r = convolve phi p q) /\
  exists dp dq, get_degree K p = Some dp /\ get_degree K q = Some dq /\ increasing 0 (wrap 32 (dp + dq) + 1) r.
Proof.
  intros H E. rewrite naive_mul_unfold in E.
  destruct (get_degree K p) as [dp|]; [|discriminate]. destruct (get_degree K q) as [dq|]; [|discriminate]. cbn [bind] in E.
  destruct (outer p q _) as [l|] eqn:El; [|discriminate]. cbn [bind] in E. injection E as <-.
  assert (0 <= wrap 32 (dp + dq)) by (apply Z.mod_pos_bound; lia).
  split.
  - intros phi. destruct (outer_ok phi _ _ _ _ H El) as [L W]. rewrite weigh_canonicalize. fold (dwo 0 phi l).
    rewrite W, dwo_zero. unfold convolve. ring.
  - exists dp, dq. split; auto. split; auto. apply inc_canonicalize.
    destruct (outer_ok (fun _ => zero) _ _ _ _ H El) as [L _]. rewrite repeat_length in L.
    eapply inc_weaken; [apply inc_combine|lia|lia].
Qed.

Lemma last_degree p c e : get_degree K (p ++ [(c, e)]) = Some (wrap 32 e).
Proof. unfold get_degree. rewrite rev_app_distr. reflexivity. Qed.
Lemma snoc p : p = [] \/ exists p' c e, p = p' ++ [(c, e)] :> list (R * Z).
Proof.
  destruct (rev p) as [|[c e] r] eqn:E.
  - left. rewrite <- (rev_involutive p), E. reflexivity.
  - right. exists (rev r), c, e. rewrite <- (rev_involutive p), E. reflexivity.
Qed.
Lemma inc_last lo hi p c e : increasing lo hi (p ++ [(c, e)]) -> increasing lo (e + 1) (p ++ [(c, e)]) /\ increasing lo e p /\ lo <= e < hi.
Proof.
  revert lo. induction p as [|[d f] p IH]; intros lo H; cbn in *.
  - intuition lia.
  - destruct H as [B H]. destruct (IH _ H) as (I1 & I2 & I3). repeat split; auto; lia.
Qed.
Lemma inner_some t q : forall l n, length l = n -> (forall f, In f (map snd q) -> 0 <= snd t + f < 2 ^ 31 /\ snd t + f < Z.of_nat n) ->
  exists l', inner t q (Some l) = Some l' /\ length l' = n.
Proof.
  induction q as [|u q IH]; intros l n L H; [exists l; auto|].
  change (inner t (u :: q) (Some l)) with (inner t q (mul_step K t u l)).
  destruct (H (snd u)) as [B1 B2]; [cbn; auto|].
  assert (exists l1, mul_step K t u l = Some l1) as [l1 E1].
  { unfold mul_step. rewrite int32_small by auto. destruct (Z.ltb_spec (snd t + snd u) 0); [lia|]. apply add_at_some. lia. }
  rewrite E1. apply (mul_step_ok (fun _ => zero)) in E1; auto. apply IH; [lia|]. intros f Hf. apply H. cbn. auto.
Qed.
Lemma outer_some p q : forall l n, length l = n ->
  (forall e f, In e (map snd p) -> In f (map snd q) -> 0 <= e + f < 2 ^ 31 /\ e + f < Z.of_nat n) ->
  exists l', outer p q (Some l) = Some l' /\ length l' = n.
Proof.
  induction p as [|t p IH]; intros l n L H; [exists l; auto|].
  change (outer (t :: p) q (Some l)) with (outer p q (inner t q (Some l))).
  destruct (inner_some t q l n L) as (l1 & E1 & L1). { intros f Hf. apply H; cbn; auto. }
  rewrite E1. apply IH; auto. intros e f He Hf. apply H; cbn; auto.
Qed.
Lemma naive_mul_some p q c e d f : increasing 0 (2 ^ 31) (p ++ [(c, e)]) -> increasing 0 (2 ^ 31) (q ++ [(d, f)]) -> e + f < 2 ^ 31 ->
  exists r, naive_mul K is0 (p ++ [(c, e)]) (q ++ [(d, f)]) = Some r.
Proof.
  intros H1 H2 H3. rewrite naive_mul_unfold, !last_degree. cbn [bind].
  destruct (inc_last _ _ _ _ _ H1) as (A1 & _ & A2). destruct (inc_last _ _ _ _ _ H2) as (B1 & _ & B2).
  change (2 ^ 31) with 2147483648 in *.
  rewrite (wrap_small 32 e), (wrap_small 32 f), (wrap_small 32 (e + f)) by (change (2 ^ 32) with 4294967296; lia).
  destruct (outer_some (p ++ [(c, e)]) (q ++ [(d, f)]) (repeat zero (Z.to_nat (e + f + 1))) (Z.to_nat (e + f + 1))) as (l & El & _).
  - apply repeat_length.
  - intros x y Hx Hy. pose proof (inc_bounds _ _ _ A1 _ Hx). pose proof (inc_bounds _ _ _ B1 _ Hy).
    change (2 ^ 31) with 2147483648. lia.
  - rewrite El. cbn [bind]. eauto.
Qed.

Lemma weigh_pmul phi p q : weigh phi (pmul K p q) = convolve phi p q.
Proof.
  unfold pmul, convolve. induction p as [|[c e] p IH]; [reflexivity|]. cbn [flat_map PolyArith_Spec.weigh]. rewrite weigh_app, IH. f_equal.
  clear IH. cbn [fst snd]. induction q as [|[d f] q IH]; cbn [map PolyArith_Spec.weigh fst snd]; [ring|]. rewrite IH. ring.
Qed.
Lemma weigh_scale' phi c p : weigh phi (map (fun u : R * Z => (c *r fst u, snd u)) p) = c *r weigh phi p.
Proof. induction p as [|[d e] p IH]; cbn [map PolyArith_Spec.weigh fst snd]; [ring|]. rewrite IH. ring. Qed.
Lemma weigh_pcompose phi p q : weigh phi (pcompose K p q) = weigh (fun e => weigh phi (ppow K q (Z.to_nat e))) p.
Proof.
  unfold pcompose. induction p as [|[c e] p IH]; [reflexivity|]. cbn [flat_map PolyArith_Spec.weigh]. rewrite weigh_app, IH. f_equal.
  apply weigh_scale'.
Qed.
Lemma weigh_mul_l c phi p : weigh (fun e => c *r phi e) p = c *r weigh phi p.
Proof. induction p as [|[d e] p IH]; cbn; [ring|]. rewrite IH. ring. Qed.
Lemma rpow_add x a b : rpow K x (a + b) = rpow K x a *r rpow K x b.
Proof. induction a; cbn; [ring|]. rewrite IHa. ring. Qed.
Lemma convolve_value p q x : (forall e, In e (map snd p) -> 0 <= e) -> (forall e, In e (map snd q) -> 0 <= e) ->
  convolve (fun e => rpow K x (Z.to_nat e)) p q = value K p x *r value K q x.
Proof.
  intros Hp Hq. unfold convolve, value.
  rewrite (weigh_ext _ (fun e => weigh (fun f => rpow K x (Z.to_nat f)) q *r rpow K x (Z.to_nat e))).
  - rewrite weigh_mul_l. ring.
  - intros e He. rewrite (weigh_ext _ (fun f => rpow K x (Z.to_nat e) *r rpow K x (Z.to_nat f))).
    + rewrite weigh_mul_l. ring.
    + intros f Hf. rewrite Z2Nat.inj_add by auto. apply rpow_add.
Qed.
Lemma convolve_shift phi p q : convolve phi p q = weigh (fun e => weigh (fun f => phi (e + f)) q) p.
Proof. reflexivity. Qed.
Lemma weigh_add2 phi psi p : weigh (fun e => phi e +r psi e) p = weigh phi p +r weigh psi p.
Proof. induction p as [|[d e] p IH]; cbn; [ring|]. rewrite IH. ring. Qed.
Lemma weigh_zero p : weigh (fun _ => zero) p = zero.
Proof. induction p as [|[d e] p IH]; cbn; [ring|]. rewrite IH. ring. Qed.
Lemma convolve_comm phi p q : convolve phi p q = convolve phi q p.
Proof.
  unfold convolve. revert q. induction p as [|[c e] p IH]; intros q; cbn [PolyArith_Spec.weigh].
  - rewrite (weigh_zero q). auto.
  - rewrite IH. rewrite weigh_add2. f_equal. rewrite weigh_mul_l. f_equal. apply weigh_ext. intros f _. f_equal. lia.
Qed.
Lemma value_ppow q x n : (forall e, In e (map snd q) -> 0 <= e) -> value K (ppow K q n) x = rpow K (value K q x) n.
Proof.
  intros Hq. assert (P : forall n e, In e (map snd (ppow K q n)) -> 0 <= e).
  { clear n. induction n as [|n IH]; intros e He; [cbn in He; lia|]. cbn [ppow] in He. unfold pmul in He.
    apply in_map_iff in He. destruct He as ([c e'] & <- & He). apply in_flat_map in He. destruct He as ([c1 e1] & H1 & H2).
    apply in_map_iff in H2. destruct H2 as ([c2 e2] & H2 & H3). cbn [fst snd] in *. injection H2 as <- <-.
    assert (0 <= e1) by (apply Hq; apply (in_map snd) in H1; exact H1).
    assert (0 <= e2) by (apply IH; apply (in_map snd) in H3; exact H3). lia. }
  induction n as [|n IH]; [cbn; unfold value; cbn; ring|]. cbn [ppow rpow]. rewrite <- IH.
  unfold value at 1. rewrite weigh_pmul. apply convolve_value; [exact Hq|apply P].
Qed.

(** ** Composition *)
(** multiplication by q seen from the weights *)
Definition Q (q : list (R * Z)) (phi : Z -> R) : Z -> R := fun d => weigh (fun f => phi (d + f)) q.
Fixpoint Qn q n phi := match n with O => phi | S m => Qn q m (Q q phi) end.
Lemma Q_ext q phi psi : (forall d, phi d = psi d) -> forall d, Q q phi d = Q q psi d.
Proof. intros H d. unfold Q. apply weigh_ext. intros. apply H. Qed.
Lemma Qn_ext q n : forall phi psi, (forall d, phi d = psi d) -> forall d, Qn q n phi d = Qn q n psi d.
Proof. induction n; intros phi psi H d; cbn; auto. apply IHn. apply Q_ext. auto. Qed.
Lemma Qn_ppow q n : forall phi d, Qn q n phi d = weigh (fun f => phi (d + f)) (ppow K q n).
Proof.
  induction n as [|n IH]; intros phi d.
  - cbn. rewrite Z.add_0_r. ring.
  - cbn [Qn ppow]. rewrite IH. rewrite weigh_pmul. rewrite convolve_comm. unfold convolve, Q. apply weigh_ext. intros e _.
    apply weigh_ext. intros f _. f_equal. lia.
Qed.
(** the terms of exponent at least i, divided by x^i *)
Definition above (i : Z) (phi : Z -> Z -> R) (p : list (R * Z)) : R :=
  weigh (fun e => if i <=? e then phi i e else zero) p.
Lemma above_step p i psi hi : increasing 0 hi p ->
  weigh (fun e => if i <=? e then psi e else zero) p =
  weigh (fun e => if (i + 1) <=? e then psi e else zero) p +r
  match coeff_at K p i with Some c => c *r psi i | None => zero end.
Proof.
  unfold coeff_at. generalize 0 at 1. induction p as [|[c e] p IH]; intros lo H; cbn; [ring|].
  cbn in H. destruct H as [B H]. rewrite (IH _ H). clear IH.
  destruct (Z.eqb_spec e i) as [->|Hne]; cbn [option_map fst].
  - destruct (Z.leb_spec i i); [|lia]. destruct (Z.leb_spec (i + 1) i); [lia|].
    assert (F : find (fun t : R * Z => snd t =? i) p = None).
    { apply find_none_iff || idtac. destruct (find _ p) as [[c' e']|] eqn:F; auto. apply find_some in F. destruct F as [F1 F2].
      apply Z.eqb_eq in F2. cbn in F2. subst e'. pose proof (inc_bounds _ _ _ H i (in_map snd _ _ F1)). lia. }
    rewrite F. cbn. ring.
  - destruct (Z.leb_spec i e), (Z.leb_spec (i + 1) e); try lia; ring.
Qed.
Lemma increasing_single c : increasing 0 1 [(c, 0)].
Proof. cbn. lia. Qed.

Section Compose.
Variables (p' q : list (R * Z)) (a : R) (n m : Z).
Notation p := (p' ++ [(a, n)]).
Hypothesis Hp : increasing 0 (2 ^ 31) p.
Hypothesis Hq : increasing 0 (m + 1) q.
Hypothesis Hnm : n * m < 2 ^ 31.
Hypothesis Hm : 0 <= m.
Definition cstep (acc : option (list (R * Z))) (i : Z) : option (list (R * Z)) :=
  r <- acc ;; r' <- naive_mul K is0 r q ;;
  match coeff_at K p i with Some c => add K is0 r' [(c, 0)] | None => Some r' end.
Definition Inv (i : Z) (r : list (R * Z)) : Prop :=
  increasing 0 ((n - i) * m + 1) r /\
  forall phi, weigh phi r = weigh (fun e => if i <=? e then Qn q (Z.to_nat (e - i)) phi 0 else zero) p.
Lemma cstep_none l : fold_left cstep l None = None.
Proof. induction l; auto. Qed.
Lemma n_small : 0 <= n < 2 ^ 31.
Proof. apply inc_last in Hp. lia. Qed.
Lemma m_or : 0 < n -> m < 2 ^ 31.
Proof. intros. nia. Qed.
Lemma inv_step i r r' : 0 <= i < n -> Inv (i + 1) r -> cstep (Some r) i = Some r' -> Inv i r'.
Proof.
  intros Hi [I1 I2] H. unfold cstep in H. cbn [bind] in H.
  pose proof n_small as Hn.
  assert (Hb : (n - (i + 1)) * m + m < 2 ^ 31) by nia.
  destruct (naive_mul K is0 r q) as [s|] eqn:E; [|discriminate]. cbn [bind] in H.
  apply naive_mul_ok in E.
  2:{ intros e f He Hf. pose proof (inc_bounds _ _ _ I1 _ He). pose proof (inc_bounds _ _ _ Hq _ Hf). lia. }
  destruct E as [W (dr & dq & Dr & Dq & Is)].
  assert (Bs : increasing 0 ((n - i) * m + 1) s).
  { eapply inc_weaken; [exact Is|lia|].
    destruct (snoc r) as [->|(r1 & c1 & e1 & ->)]; [discriminate|]. rewrite last_degree in Dr. injection Dr as <-.
    destruct (snoc q) as [Eq|(q1 & c2 & e2 & Eq)]; [rewrite Eq in Dq; discriminate|]. rewrite Eq in Dq, Hq. rewrite last_degree in Dq. injection Dq as <-.
    destruct (inc_last _ _ _ _ _ I1) as (_ & _ & A). destruct (inc_last _ _ _ _ _ Hq) as (_ & _ & B).
    change (2 ^ 31) with 2147483648 in *.
    rewrite (wrap_small 32 e1), (wrap_small 32 e2), (wrap_small 32 (e1 + e2)) by (change (2 ^ 32) with 4294967296; lia). lia. }
  assert (Ws : forall phi, weigh phi s = weigh (fun e => if i + 1 <=? e then Qn q (Z.to_nat (e - i)) phi 0 else zero) p).
  { intros phi. rewrite W. unfold convolve. fold (Q q phi). change (weigh (fun e => weigh (fun f => phi (e + f)) q) r) with (weigh (Q q phi) r).
    rewrite I2. apply weigh_ext. intros e _. destruct (Z.leb_spec (i + 1) e); auto.
    replace (Z.to_nat (e - i)) with (S (Z.to_nat (e - (i + 1)))) by lia. reflexivity. }
  assert (St : forall phi, weigh (fun e => if i <=? e then Qn q (Z.to_nat (e - i)) phi 0 else zero) p =
     weigh phi s +r match coeff_at K p i with Some c => c *r phi 0 | None => zero end).
  { intros phi. rewrite (above_step p i (fun e => Qn q (Z.to_nat (e - i)) phi 0) (2 ^ 31)) by auto. rewrite Ws. f_equal.
    destruct (coeff_at K p i); auto. rewrite Z.sub_diag. reflexivity. }
  destruct (coeff_at K p i) as [c|].
  - split.
    + unfold add in H. eapply add_loop_inc; [|exact H|exact Bs|]; [nia|]. cbn. split; [nia|exact I].
    + intros phi. rewrite St. unfold add in H. rewrite (add_loop_weigh phi _ _ _ _ H). cbn. ring.
  - injection H as <-. split; auto. intros phi. rewrite St. ring.
Qed.
Lemma inv_fold k : forall r r', (Z.of_nat k <= n) -> Inv (Z.of_nat k) r ->
  fold_left cstep (map (fun j => Z.of_nat k - 1 - Z.of_nat j) (seq 0 k)) (Some r) = Some r' -> Inv 0 r'.
Proof.
  induction k as [|k IH]; intros r r' Hk I0 H.
  - cbn in H. injection H as <-. exact I0.
  - cbn [seq map fold_left] in H. rewrite <- seq_shift, map_map in H.
    replace (Z.of_nat (S k) - 1 - Z.of_nat 0) with (Z.of_nat k) in H by lia.
    destruct (cstep (Some r) (Z.of_nat k)) as [r1|] eqn:E; [|rewrite cstep_none in H; discriminate].
    apply (IH r1 r'); [lia| |].
    + eapply inv_step; [|replace (Z.of_nat k + 1) with (Z.of_nat (S k)) by lia; exact I0|exact E]. lia.
    + rewrite <- H. f_equal. apply map_ext. intros j. lia.
Qed.
Lemma inv_init : Inv n [(a, 0)].
Proof.
  split.
  - cbn. split; [lia|exact I].
  - intros phi. rewrite weigh_app. apply inc_last in Hp. destruct Hp as (_ & Hp' & _).
    rewrite (weigh_ext _ (fun _ => zero) p').
    + rewrite weigh_zero. cbn [PolyArith_Spec.weigh]. destruct (Z.leb_spec n n); [|lia]. rewrite Z.sub_diag. cbn. ring.
    + intros e He. pose proof (inc_bounds _ _ _ Hp' _ He). destruct (Z.leb_spec n e); [lia|auto].
Qed.
Lemma compose_unfold : compose K is0 p q =
  (r <- fold_left cstep (map (fun j => n - 1 - Z.of_nat j) (seq 0 (Z.to_nat n))) (Some [(a, 0)]) ;; Some (canonicalize K is0 r)).
Proof.
  unfold compose. rewrite rev_app_distr. cbn [rev app]. rewrite last_degree. cbn [bind].
  pose proof n_small as Hn. change (2 ^ 31) with 2147483648 in *.
  rewrite (wrap_small 32 n) by (change (2 ^ 32) with 4294967296; lia).
  replace (sgn 32 (wrap 32 (n - 1))) with (n - 1).
  - replace (n - 1 + 1) with n by lia. reflexivity.
  - symmetry. apply sgn_wrap_small; [lia|]. change (2 ^ (32 - 1)) with 2147483648. lia.
Qed.
Lemma compose_weigh r : compose K is0 p q = Some r ->
  (forall phi, weigh phi r = weigh phi (pcompose K p q)) /\ increasing 0 (n * m + 1) r.
Proof.
  rewrite compose_unfold. intros H. destruct (fold_left cstep _ _) as [s|] eqn:E; [|discriminate]. cbn [bind] in H. injection H as <-.
  pose proof n_small as Hn.
  assert (I0 : Inv 0 s).
  { apply (inv_fold (Z.to_nat n) [(a, 0)]); [lia|rewrite Z2Nat.id by lia; apply inv_init|rewrite Z2Nat.id by lia; exact E]. }
  destruct I0 as [I1 I2]. split.
  - intros phi. rewrite weigh_canonicalize, I2, weigh_pcompose. apply weigh_ext. intros e He.
    pose proof (inc_bounds _ _ _ Hp _ He). destruct (Z.leb_spec 0 e); [|lia]. rewrite Qn_ppow, Z.sub_0_r. reflexivity.
  - apply inc_canonicalize. replace (n * m) with ((n - 0) * m) by lia. exact I1.
Qed.

(** with nonzero leading coefficients and no zero divisors, composition with a
    polynomial of positive degree is defined *)
Hypothesis domain : forall x y : R, x *r y = zero -> x = zero \/ y = zero.
Variables (q' : list (R * Z)) (b : R).
Hypothesis Eq : q = q' ++ [(b, m)].
Hypothesis Ha : a <> zero.
Hypothesis Hb : b <> zero.
Hypothesis Hm1 : 1 <= m.

Definition ind (d e : Z) : R := if e =? d then r1 K else zero.
Lemma coefficient_ind r d : coefficient K r d = weigh (ind d) r.
Proof. reflexivity. Qed.
Lemma lead_exists r D : increasing 0 (D + 1) r -> weigh (ind D) r <> zero -> exists r' c, r = r' ++ [(c, D)] /\ c <> zero.
Proof.
  intros H1 H2. destruct (snoc r) as [->|(r' & c & e & ->)]; [now destruct H2|].
  destruct (inc_last _ _ _ _ _ H1) as (_ & A & B).
  assert (W : weigh (ind D) r' = zero).
  { rewrite (weigh_ext _ (fun _ => zero)); [apply weigh_zero|]. intros f Hf. pose proof (inc_bounds _ _ _ A _ Hf). unfold ind.
    destruct (Z.eqb_spec f D); [lia|auto]. }
  rewrite weigh_app, W in H2. cbn [PolyArith_Spec.weigh] in H2. unfold ind in H2. destruct (Z.eqb_spec e D) as [Ee|].
  - exists r', c. rewrite Ee. split; auto. intros E0. apply H2. rewrite E0. ring.
  - exfalso. apply H2. ring.
Qed.
Lemma lead_mul r' c E : increasing 0 (E + 1) (r' ++ [(c, E)]) ->
  convolve (ind (E + m)) (r' ++ [(c, E)]) q = c *r b.
Proof.
  intros H. destruct (inc_last _ _ _ _ _ H) as (_ & A & B). unfold convolve. rewrite weigh_app.
  assert (Hq' := Hq). rewrite Eq in Hq'. destruct (inc_last _ _ _ _ _ Hq') as (_ & A' & B').
  rewrite (weigh_ext _ (fun _ => zero) r').
  - rewrite weigh_zero. cbn [PolyArith_Spec.weigh]. rewrite Eq, weigh_app. rewrite (weigh_ext _ (fun _ => zero) q').
    + rewrite weigh_zero. cbn [PolyArith_Spec.weigh]. unfold ind. rewrite Z.eqb_refl. ring.
    + intros f Hf. pose proof (inc_bounds _ _ _ A' _ Hf). unfold ind. destruct (Z.eqb_spec (E + f) (E + m)); [lia|auto].
  - intros e He. pose proof (inc_bounds _ _ _ A _ He). rewrite (weigh_ext _ (fun _ => zero) q); [apply weigh_zero|].
    intros f Hf. pose proof (inc_bounds _ _ _ Hq _ Hf). unfold ind. destruct (Z.eqb_spec (e + f) (E + m)); [lia|auto].
Qed.
Lemma add_single s c hi : 0 < hi -> increasing 0 hi s -> exists r, add K is0 s [(c, 0)] = Some r.
Proof.
  intros Hhi H. unfold add.
  assert (N : forall f l lo, (length l < f)%nat -> increasing lo hi l -> exists r, add_loop f l [] = Some r).
  { intros f l lo Hf Hl. apply (add_loop_nested f l [] lo hi); [cbn; lia|auto|exact I|right; intros ? []]. }
  destruct s as [|[d e] s].
  - cbn. eauto.
  - cbn [length Nat.add]. replace (length s + 1 + 1)%nat with (S (S (length s))) by lia. cbn in H. destruct H as [B H].
    destruct (Z.eq_dec e 0) as [->|Hne].
    + apply (add_loop_nested _ _ _ 0 hi); [cbn [length]; lia|cbn; split; [lia|auto]|cbn; lia|].
      right. intros y [<-|[]]. left. reflexivity.
    + cbn [PolyArith_Model.add_loop PolyArith_Model.take_lt snd]. destruct (Z.ltb_spec e 0); [lia|]. cbn [PolyArith_Model.take_lt snd].
      destruct (Z.ltb_spec 0 e); [|lia]. cbn [PolyArith_Model.take_lt].
      destruct (N (S (S (length s))) ((d, e) :: s) 0) as [r E]; [cbn [length]; lia|cbn; split; [lia|auto]|].
      cbn [PolyArith_Model.add_loop] in E. rewrite E. cbn [bind]. eauto.
Qed.
Definition Lead (i : Z) (r : list (R * Z)) : Prop := exists r' c, r = r' ++ [(c, (n - i) * m)] /\ c <> zero.
Lemma cstep_some i r : 0 <= i < n -> Inv (i + 1) r -> Lead (i + 1) r -> exists r', cstep (Some r) i = Some r' /\ Lead i r'.
Proof.
  intros Hi HI (r0 & c0 & E0 & Hc0). pose proof HI as [I1 I2]. pose proof n_small as Hn.
  assert (HE : (n - i) * m = (n - (i + 1)) * m + m) by lia.
  assert (Hb31 : (n - (i + 1)) * m + m < 2 ^ 31) by nia.
  assert (Hnn : 0 <= (n - (i + 1)) * m) by nia.
  destruct (naive_mul_some r0 q' c0 ((n - (i + 1)) * m) b m) as [s Es].
  { rewrite <- E0. eapply inc_weaken; [exact I1|lia|lia]. }
  { rewrite <- Eq. eapply inc_weaken; [exact Hq|lia|nia]. }
  { exact Hb31. }
  rewrite <- Eq, <- E0 in Es.
  assert (exists r', cstep (Some r) i = Some r') as [r' Er].
  { unfold cstep. cbn [bind]. rewrite Es. cbn [bind]. destruct (coeff_at K p i); eauto.
    apply naive_mul_ok in Es.
    2:{ intros e f He Hf. pose proof (inc_bounds _ _ _ I1 _ He). pose proof (inc_bounds _ _ _ Hq _ Hf). lia. }
    destruct Es as [_ (dp & dq & _ & _ & Is)]. eapply add_single; [|exact Is].
    assert (0 <= wrap 32 (dp + dq)) by (apply Z.mod_pos_bound; lia). lia. }
  exists r'. split; auto. pose proof (inv_step i r r' Hi HI Er) as [J1 J2].
  apply lead_exists; [exact J1|].
  unfold cstep in Er. cbn [bind] in Er. rewrite Es in Er. cbn [bind] in Er.
  assert (Ws : weigh (ind ((n - i) * m)) s = c0 *r b).
  { apply naive_mul_ok in Es.
    2:{ intros e f He Hf. pose proof (inc_bounds _ _ _ I1 _ He). pose proof (inc_bounds _ _ _ Hq _ Hf). lia. }
    destruct Es as [W _]. rewrite W, HE, E0. apply lead_mul. rewrite <- E0. exact I1. }
  assert (Wr : weigh (ind ((n - i) * m)) r' = c0 *r b).
  { destruct (coeff_at K p i).
    - unfold add in Er. rewrite (add_loop_weigh _ _ _ _ _ Er), Ws. cbn [PolyArith_Spec.weigh]. unfold ind.
      destruct (Z.eqb_spec 0 ((n - i) * m)); [nia|]. ring.
    - injection Er as <-. auto. }
  rewrite Wr. intros H0. destruct (domain _ _ H0); contradiction.
Qed.
Lemma fold_some k : forall r, (Z.of_nat k <= n) -> Inv (Z.of_nat k) r -> Lead (Z.of_nat k) r ->
  exists r', fold_left cstep (map (fun j => Z.of_nat k - 1 - Z.of_nat j) (seq 0 k)) (Some r) = Some r'.
Proof.
  induction k as [|k IH]; intros r Hk I0 L0; [cbn; eauto|].
  cbn [seq map fold_left]. rewrite <- seq_shift, map_map.
  replace (Z.of_nat (S k) - 1 - Z.of_nat 0) with (Z.of_nat k) by lia.
  replace (Z.of_nat (S k)) with (Z.of_nat k + 1) in I0, L0 by lia.
  destruct (cstep_some (Z.of_nat k) r) as (r1 & E & L1); auto; [lia|]. rewrite E.
  destruct (IH r1) as [r' E']; [lia| |exact L1|].
  - eapply inv_step; [|exact I0|exact E]. lia.
  - exists r'. rewrite <- E'. f_equal. apply map_ext. intros j. lia.
Qed.
Lemma compose_some : exists r, compose K is0 p q = Some r.
Proof.
  rewrite compose_unfold. pose proof n_small as Hn.
  destruct (fold_some (Z.to_nat n) [(a, 0)]) as [r E]; rewrite ?Z2Nat.id by lia; [lia|apply inv_init| |].
  - exists [], a. rewrite Z.sub_diag. auto.
  - rewrite Z2Nat.id in E by lia. rewrite E. cbn [bind]. eauto.
Qed.
End Compose.

(** ** Construction *)
Lemma insert_least t l lo hi : increasing lo hi l -> snd t < lo -> insert_term K t l = t :: l.
Proof.
  destruct l as [|[c e] l]; cbn; auto. intros [B _] H. destruct (Z.ltb_spec (snd t) e); [auto|lia].
Qed.
Lemma sort_increasing lo hi l : increasing lo hi l -> fold_right (insert_term K) [] l = l.
Proof.
  revert lo. induction l as [|[c e] l IH]; intros lo H; auto. cbn [fold_right]. destruct H as [B H]. rewrite (IH _ H).
  eapply insert_least; [exact H|]. cbn. lia.
Qed.
Lemma adjacent_increasing lo hi l : increasing lo hi l -> has_adjacent K l = false.
Proof.
  revert lo. induction l as [|[c e] l IH]; intros lo H; auto. destruct H as [B H]. destruct l as [|[d f] l]; auto.
  cbn [has_adjacent snd]. destruct H as [B2 H2]. destruct (Z.eqb_spec e f); [lia|]. apply (IH (e + 1)). split; auto.
Qed.
Lemma from_coefficients_eq l : from_coefficients K is0 l = Some (canonicalize K is0 (combine l (map Z.of_nat (seq 0 (length l))))).
Proof.
  unfold from_coefficients, from_monomials.
  assert (H : increasing 0 (Z.of_nat (length l)) (canonicalize K is0 (combine l (map Z.of_nat (seq 0 (length l)))))).
  { apply inc_canonicalize. eapply inc_weaken; [apply inc_combine|lia|lia]. }
  rewrite (sort_increasing _ _ _ H), (adjacent_increasing _ _ _ H). reflexivity.
Qed.
Lemma from_coefficients_weigh phi l r : from_coefficients K is0 l = Some r ->
  weigh phi r = dwo 0 phi l /\ increasing 0 (Z.of_nat (length l)) r.
Proof.
  rewrite from_coefficients_eq. intros [= <-]. rewrite weigh_canonicalize. split; auto.
  apply inc_canonicalize. eapply inc_weaken; [apply inc_combine|lia|lia].
Qed.
Lemma dwo_ind l : forall k i, (i < length l)%nat -> dwo k (ind (Z.of_nat (k + i))) l = nth i l zero.
Proof.
  induction l as [|c l IH]; intros k i H; [cbn in H; lia|]. rewrite dwo_cons. destruct i as [|i]; cbn [nth].
  - rewrite Nat.add_0_r. unfold ind at 1. rewrite Z.eqb_refl.
    replace (dwo (S k) (ind (Z.of_nat k)) l) with zero; [ring|]. unfold dwo. rewrite (weigh_ext _ (fun _ => zero)); [now rewrite weigh_zero|].
    intros e He. pose proof (inc_bounds _ _ _ (inc_combine l (S k)) _ He). unfold ind. destruct (Z.eqb_spec e (Z.of_nat k)); [lia|auto].
  - unfold ind at 1. destruct (Z.eqb_spec (Z.of_nat k) (Z.of_nat (k + S i))); [lia|].
    replace (k + S i)%nat with (S k + i)%nat by lia. rewrite IH by (cbn in H; lia). ring.
Qed.
Lemma dwo_ind_out l k d : (d < Z.of_nat k \/ Z.of_nat k + Z.of_nat (length l) <= d) -> dwo k (ind d) l = zero.
Proof.
  intros H. unfold dwo. rewrite (weigh_ext _ (fun _ => zero)); [apply weigh_zero|]. intros e He.
  pose proof (inc_bounds _ _ _ (inc_combine l k) _ He). unfold ind. destruct (Z.eqb_spec e d); [lia|auto].
Qed.

Lemma insert_in t l x : In x (insert_term K t l) <-> x = t \/ In x l.
Proof.
  induction l as [|u l IH]; cbn; [intuition|]. destruct (snd t <? snd u); cbn; [intuition|]. rewrite IH. intuition.
Qed.
(** weakly sorted *)
Fixpoint wsorted (lo : Z) (l : list (R * Z)) : Prop := match l with [] => True | (_, e) :: r => lo <= e /\ wsorted e r end.
Lemma wsorted_weaken lo lo' l : wsorted lo l -> lo' <= lo -> wsorted lo' l.
Proof. destruct l as [|[c e] l]; cbn; auto. intuition lia. Qed.
Lemma insert_wsorted t l : forall lo, lo <= snd t -> wsorted lo l -> wsorted lo (insert_term K t l).
Proof.
  destruct t as [c e]. induction l as [|[d f] l IH]; intros lo H1 H2; cbn in *; [auto|].
  destruct H2 as [H2 H3]. destruct (Z.ltb_spec e f); cbn.
  - split; [lia|]. split; [lia|auto].
  - split; [lia|]. apply IH; [lia|auto].
Qed.
Lemma wsorted_strict hi l : forall lo, wsorted lo l -> has_adjacent K l = false -> (forall e, In e (map snd l) -> e < hi) -> increasing lo hi l.
Proof.
  induction l as [|[c e] l IH]; intros lo H1 H2 H3; cbn in *; auto.
  split; [specialize (H3 e); intuition lia|]. apply IH.
  - destruct l as [|[d f] l]; cbn in *; auto. apply orb_false_iff in H2. destruct H2 as [H2 _]. apply Z.eqb_neq in H2. intuition lia.
  - destruct l as [|[d f] l]; auto. apply orb_false_iff in H2. tauto.
  - intros. apply H3. auto.
Qed.
End Poly.
