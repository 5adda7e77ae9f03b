(** Proofs about key switching and relinearization (C78). *)
From Coq Require Import ZArith List Bool Lia Setoid Morphisms Ring Znumtheory.
From Verif Require Import Words Sums ModEq ModArith_Model ModArith_Props NumTheory_Model NumTheory_Proofs NumTheory_Props
  RNS_Model RNS_Proofs RNS_Props Rlwe_Spec Rlwe_Model Rlwe_Ring Rlwe_Proofs Rlwe2_Proofs.
Import ListNotations.
Open Scope Z_scope.

(** ** Parts *)
Lemma parts_map {A B} (f : A -> B) fuel size l : parts fuel size (map f l) = map (map f) (parts fuel size l).
Proof.
  revert l. induction fuel as [|fuel IH]; intros [|a l]; cbn [parts map]; auto.
  change (f a :: map f l) with (map f (a :: l)). rewrite firstn_map, skipn_map, IH. reflexivity.
Qed.
Lemma parts_chunks {A} size (subs : list (list A)) fuel : (1 <= size)%nat -> chunks size subs -> (length (concat subs) <= fuel)%nat ->
  parts fuel size (concat subs) = subs.
Proof.
  intros Hs. revert fuel. induction subs as [|sub rest IH]; intros fuel Hc Hf.
  - simpl. destruct fuel; auto.
  - destruct rest as [|r rest].
    + cbn [chunks] in Hc. cbn [concat] in *. rewrite app_nil_r in *. destruct fuel as [|fuel]; [lia|]. destruct sub as [|a sub]; [simpl in Hc; lia|].
      cbn [parts]. rewrite firstn_all2 by lia. rewrite skipn_all2 by lia. destruct fuel; auto.
    + destruct Hc as [L Hc]. remember (r :: rest) as tl. cbn [concat] in *. rewrite app_length in Hf.
      destruct fuel as [|fuel]; [lia|]. destruct sub as [|a sub]; [simpl in L; lia|].
      cbn [parts app]. change (a :: sub ++ concat tl) with ((a :: sub) ++ concat tl).
      replace (firstn size ((a :: sub) ++ concat tl)) with (a :: sub)
        by (rewrite <- L, firstn_app, firstn_all, Nat.sub_diag; cbn [firstn]; rewrite app_nil_r; reflexivity).
      replace (skipn size ((a :: sub) ++ concat tl)) with (concat tl)
        by (rewrite <- L, skipn_app, skipn_all, Nat.sub_diag; reflexivity). f_equal. apply IH; auto. simpl in Hf. lia.
Qed.
Lemma partition_chunks {A} size (subs : list (list A)) : (1 <= size)%nat -> chunks size subs -> partition size (concat subs) = subs.
Proof. intros. apply parts_chunks; auto. Qed.
Lemma chunks_length {A} size (subs : list (list A)) sub : (1 <= size)%nat -> chunks size subs -> In sub subs -> (1 <= length sub <= size)%nat.
Proof.
  intros Hs. induction subs as [|x rest IH]; intros Hc Hin; [destruct Hin|]. destruct rest as [|r rest].
  - destruct Hin as [->|[]]. exact Hc.
  - destruct Hc as [L Hc]. destruct Hin as [->|Hin]; [lia|auto].
Qed.

(** ** The sum over the parts *)
Definition lin (n : nat) (sel : key_part -> list Z) (acc : list Z) (l : list (list Z * key_part)) : list Z :=
  fold_left (fun acc t => padd n acc (pmul n (fst t) (sel (snd t)))) l acc.
Lemma lin_cons n sel acc t l : lin n sel acc (t :: l) = lin n sel (padd n acc (pmul n (fst t) (sel (snd t)))) l.
Proof. reflexivity. Qed.
Definition key_value (n : nat) (basis : list Z) (k : key_part) : value := Tensor [prns n basis (part_b k); prns n basis (part_a k)].

Lemma elt_mul_prns n qs a b : Forall (fun q => 0 < q) qs -> elt_mul n qs (prns n qs a) (prns n qs b) = prns n qs (pmul n a b).
Proof. intros. apply zip_prns; auto; [intros; apply pmul_len|intros; apply pc_mul; auto]. Qed.
Lemma elt_add_prns n qs a b : Forall (fun q => 0 < q) qs -> elt_add n qs (prns n qs a) (prns n qs b) = prns n qs (padd n a b).
Proof. intros. apply zip_prns; auto; [intros; apply padd_len|intros; apply pc_add; auto]. Qed.

Lemma dot_some n basis a b l : Forall (fun q => 0 < q) basis ->
  dot n basis (Some (Tensor [prns n basis a; prns n basis b]))
    (map (fun t => (prns n basis (fst t), key_value n basis (snd t))) l) =
  Some (Tensor [prns n basis (lin n part_b a l); prns n basis (lin n part_a b l)]).
Proof.
  intros Hb. revert a b. induction l as [|[d k] l IH]; intros a b; [reflexivity|].
  cbn [map fst snd dot key_value lower_rmul_ring_elt poly_mul elementwise length Nat.eqb map2 bind].
  rewrite !elt_mul_prns by auto. unfold lower_radd, poly_add. cbn [elementwise length Nat.eqb map2 bind].
  rewrite !elt_add_prns by auto. rewrite IH. reflexivity.
Qed.
Lemma dot_none n basis t l : Forall (fun q => 0 < q) basis ->
  dot n basis None (map (fun t => (prns n basis (fst t), key_value n basis (snd t))) (t :: l)) =
  Some (Tensor [prns n basis (lin n part_b [] (t :: l)); prns n basis (lin n part_a [] (t :: l))]).
Proof.
  intros Hb. destruct t as [d k].
  cbn [map fst snd dot key_value lower_rmul_ring_elt poly_mul elementwise length Nat.eqb map2 bind].
  rewrite !elt_mul_prns by auto. rewrite !lin_cons. cbn [fst snd].
  assert (E : forall x, prns n basis x = prns n basis (padd n [] x)).
  { intros x. apply prns_ext. intros q Hq. split; [eapply Forall_forall in Hb; eauto|]. apply pc_eq. intros k' Hk.
    rewrite coef_padd, coef_nil by auto. ring. }
  rewrite (E (pmul n d (part_b k))), (E (pmul n d (part_a k))). apply dot_some. auto.
Qed.

Section Lin.
Variables (n : nat) (q : Z).
Add Ring pring3 : (pc_ring n q) (setoid (pc_equiv n q) (pc_ext n q)).
Notation "a == b" := (pc n q a b) (at level 70).
Lemma lin_acc sel a b l : a == b -> lin n sel a l == lin n sel b l.
Proof. revert a b. induction l as [|t l IH]; intros a b H; [exact H|]. rewrite !lin_cons. apply IH. rewrite H. reflexivity. Qed.
Lemma lin_cong sel sel' acc l : (forall t, In t l -> sel (snd t) == sel' (snd t)) -> lin n sel acc l == lin n sel' acc l.
Proof.
  revert acc. induction l as [|t l IH]; intros acc H; [reflexivity|]. rewrite !lin_cons.
  rewrite IH by (intros; apply H; right; auto). apply lin_acc. rewrite (H t) by (left; auto). reflexivity.
Qed.
Lemma lin_phase s a b l : padd n (lin n part_b a l) (pmul n s (lin n part_a b l)) ==
  lin n (fun k => padd n (part_b k) (pmul n s (part_a k))) (padd n a (pmul n s b)) l.
Proof.
  revert a b. induction l as [|t l IH]; intros a b; [reflexivity|]. rewrite !lin_cons. rewrite IH. apply lin_acc. ring.
Qed.
Lemma lin_split c a b l : lin n (fun k => padd n (part_noise k) (pmul n c [factor k])) (padd n a (pmul n c b)) l ==
  padd n (lin n part_noise a l) (pmul n c (lin n (fun k => [factor k]) b l)).
Proof.
  revert a b. induction l as [|t l IH]; intros a b; [reflexivity|]. rewrite !lin_cons. rewrite <- IH. apply lin_acc. ring.
Qed.
Lemma const_pc a b : (q | a - b) -> [a] == [b].
Proof. intros H k Hk. unfold coef. destruct k as [|[|k]]; simpl; auto; apply Z.divide_0_r. Qed.
Lemma lin_factor_zero acc l : (forall t, In t l -> (q | factor (snd t))) -> lin n (fun k => [factor k]) acc l == acc.
Proof.
  revert acc. induction l as [|t l IH]; intros acc H; [reflexivity|]. rewrite lin_cons. rewrite IH by (intros; apply H; right; auto).
  assert (E : [factor (snd t)] == []).
  { transitivity [0]. - apply const_pc. rewrite Z.sub_0_r. apply H. left. auto.
    - apply pc_eq. intros [|[|k]] _; reflexivity. }
  rewrite E. ring.
Qed.
Lemma lin_factor_one acc l i t C : nth_error l i = Some t -> (q | factor (snd t) - 1) -> fst t == C ->
  (forall i' t', nth_error l i' = Some t' -> i' <> i -> (q | factor (snd t'))) ->
  lin n (fun k => [factor k]) acc l == padd n acc C.
Proof.
  intros Hi H1 HC H0. destruct (nth_error_split l i Hi) as (l1 & l2 & -> & L).
  unfold lin. rewrite fold_left_app. cbn [fold_left].
  fold (lin n (fun k => [factor k]) acc l1).
  fold (lin n (fun k => [factor k]) (padd n (lin n (fun k => [factor k]) acc l1) (pmul n (fst t) [factor (snd t)])) l2).
  rewrite lin_factor_zero.
  - rewrite lin_factor_zero.
    + rewrite (const_pc _ _ H1), HC. ring.
    + intros t' Ht'. apply In_nth_error in Ht' as [i' Hi']. apply (H0 i').
      * rewrite nth_error_app1; auto. apply nth_error_Some. congruence.
      * assert (i' < length l1)%nat by (apply nth_error_Some; congruence). lia.
  - intros t' Ht'. apply In_nth_error in Ht' as [i' Hi']. apply (H0 (length l1 + S i')%nat).
    + rewrite nth_error_app2 by lia. replace (length l1 + S i' - length l1)%nat with (S i') by lia. exact Hi'.
    + lia.
Qed.
Lemma phase2 a b s : padd n b (pmul n s (padd n a (pmul n s []))) == padd n b (pmul n s a).
Proof. ring. Qed.
Lemma key_term c g s : pscale n (c * g) s == pmul n (pmul n [c] s) [g].
Proof.
  rewrite pscale_mul. transitivity (pmul n (pmul n [c] [g]) s); [|ring].
  apply pc_mul; [|apply pc_refl]. apply pc_sym. rewrite <- pscale_mul. apply pc_eq. intros k Hk. rewrite coef_pscale by auto.
  unfold coef. destruct k as [|[|k]]; simpl; ring.
Qed.
Lemma acc_nil s x : padd n [] (pmul n s []) == padd n [] (pmul n x []).
Proof. ring. Qed.
Lemma nil_algebra e s g : padd n e (pmul n (pmul n [] s) g) == e.
Proof. ring. Qed.
Lemma nil_algebra2 a0 a1 r0 r1 s :
  psub n (psub n (padd n (padd n (pmul n [] a0) r0) (pmul n s (padd n (pmul n [] a1) r1))) r0) (pmul n s r1) == [].
Proof. ring. Qed.
Lemma relin_algebra s c0 c1 a0 a1 a2 nu :
  phase n s [c0; c1] == padd n (pmul n a2 (pmul n s s)) nu ->
  phase n s [padd n c0 a0; padd n c1 a1] == padd n (phase n s [a0; a1; a2]) nu.
Proof.
  cbn [phase]. intros H. transitivity (padd n (padd n c0 (pmul n s (padd n c1 (pmul n s [])))) (padd n a0 (pmul n s a1))); [ring|].
  rewrite H. ring.
Qed.
(** the identity behind the result of key switching *)
Lemma switch_algebra s t0 t1 y0 y1 r0 r1 e g p sin nu :
  t0 == padd n (pmul n [p] y0) r0 -> t1 == padd n (pmul n [p] y1) r1 ->
  padd n t0 (pmul n s t1) == padd n e (pmul n (pmul n [p] sin) g) ->
  psub n (psub n e r0) (pmul n s r1) == pmul n [p] nu ->
  pmul n [p] (padd n y0 (pmul n s y1)) == pmul n [p] (padd n (pmul n g sin) nu).
Proof.
  intros H0 H1 HT HN.
  transitivity (psub n (psub n (padd n t0 (pmul n s t1)) r0) (pmul n s r1)).
  - rewrite H0, H1. ring.
  - rewrite HT. transitivity (padd n (pmul n (pmul n [p] sin) g) (psub n (psub n e r0) (pmul n s r1))); [ring|]. rewrite HN. ring.
Qed.
End Lin.

(** ** Bounds *)
Lemma sumn_abs m f : Z.abs (sumn m f) <= sumn m (fun i => Z.abs (f i)).
Proof. induction m; simpl; [lia|]. lia. Qed.
Lemma sumn_le m f g : (forall i, (i < m)%nat -> f i <= g i) -> sumn m f <= sumn m g.
Proof. induction m; simpl; intros H; [lia|]. pose proof (H m ltac:(lia)). specialize (IHm ltac:(intros; apply H; lia)). lia. Qed.
Lemma sumn_const m c : sumn m (fun _ => c) = Z.of_nat m * c.
Proof. induction m; cbn [sumn]; [simpl; lia|]. rewrite IHm. lia. Qed.
Lemma pmul_bound n A B a b k : (k < n)%nat -> (forall i, (i < n)%nat -> 2 * Z.abs (coef a i) <= A) -> bounded n B b -> 0 <= A ->
  2 * Z.abs (coef (pmul n a b) k) <= Z.of_nat n * (A * B).
Proof.
  intros Hk Ha Hb HA. rewrite coef_pmul by auto.
  assert (HI : forall i, (i < n)%nat ->
    2 * Z.abs (sumn n (fun j => fold_sign n (i + j) k * (coef a i * coef b j))) <= A * B).
  { intros i Hi. set (j := if (i <=? k)%nat then (k - i)%nat else (k + n - i)%nat).
    assert (Hj : (j < n)%nat) by (unfold j; destruct (Nat.leb_spec i k); lia).
    rewrite (sumn_single n _ j Hj).
    - rewrite Z.abs_mul. specialize (Ha i Hi). specialize (Hb j Hj). rewrite Z.abs_mul.
      assert (Z.abs (fold_sign n (i + j) k) <= 1).
      { unfold fold_sign. destruct (_ =? _)%nat; [simpl; lia|]. destruct (_ =? _)%nat; simpl; lia. }
      pose proof (Z.abs_nonneg (coef a i)). pose proof (Z.abs_nonneg (coef b j)). pose proof (Z.abs_nonneg (fold_sign n (i + j) k)).
      assert (2 * Z.abs (coef a i) * Z.abs (coef b j) <= A * B) by (apply Z.mul_le_mono_nonneg; lia).
      assert (0 <= Z.abs (coef a i) * Z.abs (coef b j)) by (apply Z.mul_nonneg_nonneg; lia).
      assert (Z.abs (fold_sign n (i + j) k) * (Z.abs (coef a i) * Z.abs (coef b j)) <= 1 * (Z.abs (coef a i) * Z.abs (coef b j))) by (apply Z.mul_le_mono_nonneg_r; lia).
      lia.
    - intros j' Hj' Hne. unfold fold_sign. destruct (Nat.eqb_spec (i + j') k).
      { exfalso. apply Hne. unfold j. destruct (Nat.leb_spec i k); lia. }
      destruct (Nat.eqb_spec (i + j') (k + n)); [|ring].
      exfalso. apply Hne. unfold j. destruct (Nat.leb_spec i k); lia. }
  eapply Z.le_trans.
  - apply Z.mul_le_mono_nonneg_l; [lia|]. apply sumn_abs.
  - rewrite <- sumn_scal. eapply Z.le_trans; [apply (sumn_le n _ (fun _ => A * B)); auto|]. rewrite sumn_const. lia.
Qed.
Lemma lin_noise_bound n B acc l k : (k < n)%nat ->
  (forall t, In t l -> bounded n B (part_noise (snd t))) ->
  forall Ms, Forall2 (fun t M => 0 <= M /\ forall i, (i < n)%nat -> 2 * Z.abs (coef (fst t) i) <= M) l Ms ->
  2 * Z.abs (coef (lin n part_noise acc l) k) <= 2 * Z.abs (coef acc k) + Z.of_nat n * B * fold_right Z.add 0 Ms.
Proof.
  intros Hk. revert acc. induction l as [|t l IH]; intros acc HB Ms H; inversion H; subst.
  - simpl. unfold lin. simpl. lia.
  - rewrite lin_cons. eapply Z.le_trans; [apply IH; [intros; apply HB; right; auto|eassumption]|].
    rewrite coef_padd by auto. cbn [fold_right].
    match goal with H : _ /\ _ |- _ => destruct H as [HM Ht] end.
    pose proof (pmul_bound n y B (fst t) (part_noise (snd t)) k Hk Ht (HB t (or_introl eq_refl)) HM).
    assert (Z.of_nat n * B * (y + fold_right Z.add 0 l') = Z.of_nat n * (y * B) + Z.of_nat n * B * fold_right Z.add 0 l') by ring.
    lia.
Qed.

Section Switch.
Variables (n : nat) (w : Z) (subs : list (list Z)) (ps : list Z) (s_in s_out : list Z) (B Sb : Z) (key : list key_part) (C : list Z).
Let qs := concat subs.
Let P := modulus_product ps.
Let Q := modulus_product qs.
Hypothesis Hgood : forall q, In q (qs ++ ps) -> good_modulus w q.
Hypothesis Hco : pw_coprime (qs ++ ps).
Hypothesis Hlen : (1 <= length ps <= 2)%nat.
Hypothesis Hchunks : chunks (length ps) subs.
Hypothesis Hne : subs <> [].
Hypothesis Hkey : switching_key n subs ps s_in s_out B key.
Hypothesis HS : bounded n Sb s_out.
Let D (sub : list Z) : list Z := pcentre n (modulus_product sub) C.
Let L := combine (map D subs) key.
Let T0 := lin n part_b [] L.
Let T1 := lin n part_a [] L.
Let Y0 := pquot n P T0.
Let Y1 := pquot n P T1.
Let r0 := pcentre n P T0.
Let r1 := pcentre n P T1.
Let E := lin n part_noise [] L.
Let G := lin n (fun k => [factor k]) [] L.
Let N := psub n (psub n E r0) (pmul n s_out r1).
Let v := map (fun k => coef N k / P) (seq 0 n).

Lemma sub_in sub q : In sub subs -> In q sub -> In q qs.
Proof. intros. unfold qs. apply in_concat. eauto. Qed.
Lemma coprimes_concat (l : list (list Z)) sub : pw_coprime (concat l) -> In sub l -> pw_coprime sub.
Proof.
  induction l as [|x l IH]; intros H Hin; [destruct Hin|]. cbn [concat] in H. apply coprime_sub in H as (H1 & H2 & _).
  destruct Hin as [->|Hin]; auto.
Qed.
Lemma Q_pos : 0 < Q.
Proof. apply modulus_pos. exact (qs_pos w qs ps Hgood Hlen). Qed.
Lemma sub_pos sub : In sub subs -> 0 < modulus_product sub.
Proof.
  intros Hin. apply modulus_pos. apply Forall_forall. intros q Hq. destruct (Hgood q) as (_ & ? & _); [|lia].
  apply in_or_app. left. eapply sub_in; eauto.
Qed.
Lemma sub_odd sub : In sub subs -> Z.odd (modulus_product sub) = true.
Proof. intros Hin. apply modulus_odd. intros q Hq. apply (Hgood q). apply in_or_app. left. eapply sub_in; eauto. Qed.

Lemma switch_run : key_switch n w qs ps (prns n qs C) (map (key_value n (qs ++ ps)) key) = Some (prns n qs Y0, prns n qs Y1).
Proof.
  unfold key_switch. rewrite (nonempty_match ps) by lia.
  assert (E1 : partition (length ps) qs = subs) by (apply partition_chunks; [lia|auto]).
  assert (E2 : partition (length ps) (prns n qs C) = map (fun sub => prns n sub C) subs).
  { unfold prns at 1, partition. rewrite map_length. rewrite parts_map. fold (partition (length ps) qs). rewrite E1.
    apply map_ext. reflexivity. }
  rewrite E1, E2, map_length. destruct Hkey as [KL _]. rewrite KL, Nat.eqb_refl. cbn [negb].
  assert (Em : forall l : list (list Z), map2 (fun sub part => convert_elt n w sub (qs ++ ps) part) l (map (fun sub => prns n sub C) l) =
    map (fun sub => convert_elt n w sub (qs ++ ps) (prns n sub C)) l).
  { induction l as [|a l IH]; [reflexivity|]. cbn [map map2]. rewrite IH. reflexivity. }
  rewrite Em. rewrite (oseq_map _ (fun sub => prns n (qs ++ ps) (D sub))).
  2:{ intros sub Hin. apply convert_ok.
      - pose proof (chunks_length (length ps) subs sub ltac:(lia) Hchunks Hin). lia.
      - intros q Hq. apply Hgood. apply in_or_app. left. eapply sub_in; eauto.
      - exact Hgood.
      - apply coprime_verify. apply (coprimes_concat subs); auto. apply coprime_sub in Hco. tauto. }
  cbn [bind].
  assert (Ec : forall (l : list (list Z)) (k : list key_part), combine (map (fun sub => prns n (qs ++ ps) (D sub)) l) (map (key_value n (qs ++ ps)) k) =
    map (fun t => (prns n (qs ++ ps) (fst t), key_value n (qs ++ ps) (snd t))) (combine (map D l) k)).
  { induction l as [|a l IH]; intros [|b k]; try reflexivity. cbn [map combine fst snd]. rewrite IH. reflexivity. }
  rewrite Ec. fold L. assert (HL : exists t l, L = t :: l).
  { unfold L. destruct subs as [|a l]; [congruence|]. destruct key as [|b k]; [simpl in KL; lia|]. simpl. eauto. }
  destruct HL as (t & l & HL). unfold Y0, Y1, T0, T1. rewrite HL. rewrite dot_none by (exact (basis_pos w qs ps Hgood Hlen)). cbn [bind].
  set (t0 := lin n part_b [] (t :: l)). set (t1 := lin n part_a [] (t :: l)).
  pose proof (mod_down_ok n w qs ps Hgood Hco Hlen [t0; t1]) as HD. cbn [map] in HD. rewrite HD. reflexivity.
Qed.

Lemma L_in t : In t L -> In (snd t) key.
Proof. destruct t as [a b]. intros H. apply in_combine_r in H. auto. Qed.
Lemma noise_parts t : In t L -> bounded n B (part_noise (snd t)).
Proof. intros H. apply L_in in H. apply In_nth_error in H as [i Hi]. destruct Hkey as [_ HK]. apply (HK i _ Hi). Qed.
Lemma QP_pos : 0 < modulus_product (qs ++ ps).
Proof. apply modulus_pos. exact (basis_pos w qs ps Hgood Hlen). Qed.

Lemma T_phase m : (m | modulus_product (qs ++ ps)) ->
  pc n m (padd n T0 (pmul n s_out T1)) (padd n E (pmul n (pmul n [P] s_in) G)).
Proof.
  intros Hm. eapply pc_divide; [exact Hm|]. set (M := modulus_product (qs ++ ps)).
  unfold T0, T1. rewrite lin_phase.
  rewrite (lin_cong n M _ (fun k => padd n (part_noise k) (pmul n (pmul n [P] s_in) [factor k]))).
  - unfold E, G. rewrite <- lin_split. apply lin_acc. apply acc_nil.
  - intros t Ht. apply L_in in Ht. apply In_nth_error in Ht as [i Hi]. destruct Hkey as [_ HK]. destruct (HK i _ Hi) as (H1 & _ & _).
    pose proof QP_pos as HQP. apply pc_pcong in H1; [|fold qs; fold M; unfold M; lia]. cbn [phase] in H1.
    change (modulus_product (concat subs ++ ps)) with M in H1. rewrite phase2 in H1. rewrite H1.
    apply pc_add; [apply pc_refl|]. apply key_term.
Qed.
Lemma G_ok q : In q qs -> pc n q G C.
Proof.
  intros Hq. apply in_concat in Hq as (sub & Hsub & Hq). pose proof (In_nth_error _ _ Hsub) as [j Hj].
  destruct Hkey as [KL HK].
  assert (exists part, nth_error key j = Some part) as [part Hp].
  { destruct (nth_error key j) eqn:Ej; [eauto|]. apply nth_error_None in Ej.
    assert (j < length subs)%nat by (apply nth_error_Some; congruence). lia. }
  assert (HLn : forall i, nth_error L i = match nth_error subs i, nth_error key i with Some a, Some b => Some (D a, b) | _, _ => None end).
  { unfold L. clear. revert key. induction subs as [|a l IH]; intros key i; [destruct i; reflexivity|].
    destruct key as [|b k]; [destruct i; simpl; [reflexivity|destruct (nth_error l i); reflexivity]|]. destruct i; [reflexivity|]. simpl. apply IH. }
  unfold G. rewrite (lin_factor_one n q [] L j (D sub, part) C).
  - apply pc_eq. intros k Hk. rewrite coef_padd, coef_nil by auto. ring.
  - rewrite HLn, Hj, Hp. reflexivity.
  - cbn [snd]. destruct (HK j part Hp) as (_ & _ & H). specialize (H j sub q Hj Hq). rewrite Nat.eqb_refl in H.
    assert (1 < q). { destruct (Hgood q) as (_ & ? & _); [apply in_or_app; left; eapply sub_in; eauto|auto]. }
    exists (factor part / q). pose proof (Z.div_mod (factor part) q). lia.
  - cbn [fst]. unfold D. apply pc_sym. eapply pc_divide; [apply modulus_divide; exact Hq|]. apply pcentre_pc; [apply sub_pos|apply sub_odd]; auto.
  - intros i' t' Hi' Hn. rewrite HLn in Hi'. destruct (nth_error subs i') as [a|]; [|discriminate]. destruct (nth_error key i') as [b|] eqn:Eb; [|discriminate].
    injection Hi' as <-. cbn [snd]. destruct (HK i' b Eb) as (_ & _ & H). specialize (H j sub q Hj Hq).
    apply Nat.eqb_neq in Hn. rewrite Hn in H.
    assert (1 < q). { destruct (Hgood q) as (_ & ? & _); [apply in_or_app; left; eapply sub_in; eauto|auto]. }
    apply Z.mod_divide; lia.
Qed.
Lemma quot_pc m T : pc n m T (padd n (pmul n [P] (pquot n P T)) (pcentre n P T)).
Proof.
  apply pc_trans with (padd n (pscale n P (pquot n P T)) (pcentre n P T)).
  - apply pc_eq. intros k Hk. rewrite coef_padd, coef_pscale by auto.
    rewrite (pquot_spec n P T k (P_pos w qs ps Hgood Hlen) (P_odd w qs ps Hgood) Hk). ring.
  - apply pc_add; [apply pscale_mul|apply pc_refl].
Qed.
Lemma N_divides k : (k < n)%nat -> coef N k = P * coef v k.
Proof.
  intros Hk. unfold v. rewrite coef_map by auto.
  assert (HP : 0 < P) by (apply (P_pos w qs ps Hgood Hlen)).
  assert (HD : (P | coef N k - coef [] k)).
  { apply (fun H : pc n P N [] => H k Hk). unfold N.
    assert (HT : pc n P (padd n T0 (pmul n s_out T1)) (padd n E (pmul n (pmul n [P] s_in) G))).
    { apply T_phase. rewrite modulus_app. fold P. apply Z.divide_factor_r. }
    assert (HP0 : pc n P [P] []). { intros [|[|i]] _; unfold coef; simpl; rewrite ?Z.sub_0_r; try apply Z.divide_refl; apply Z.divide_0_r. }
    apply pc_trans with (psub n (psub n (padd n T0 (pmul n s_out T1)) r0) (pmul n s_out r1)).
    - apply pc_sub; [apply pc_sub; [|apply pc_refl]|apply pc_refl]. apply pc_sym. rewrite HT, HP0. apply nil_algebra.
    - pose proof (quot_pc P T0) as H0. pose proof (quot_pc P T1) as H1. fold r0 in H0. fold r1 in H1. rewrite HP0 in H0, H1.
      rewrite H0, H1. apply nil_algebra2. }
  rewrite coef_nil, Z.sub_0_r in HD. destruct HD as [z Hz]. rewrite Hz, Z.div_mul by lia. ring.
Qed.
Lemma switch_phase q : In q qs -> pcong n q (phase n s_out [Y0; Y1]) (padd n (pmul n C s_in) v).
Proof.
  intros Hq. assert (Hq1 : 1 < q). { destruct (Hgood q) as (_ & ? & _); [apply in_or_app; left; auto|auto]. }
  assert (HP : 0 < P) by (apply (P_pos w qs ps Hgood Hlen)).
  apply pc_pcong; [lia|]. cbn [phase]. rewrite phase2.
  apply pc_trans with (padd n (pmul n G s_in) v).
  2:{ apply pc_add; [|apply pc_refl]. apply pc_mul; [apply G_ok; auto|apply pc_refl]. }
  eapply pc_divide; [apply (modulus_divide q qs Hq)|]. fold Q.
  pose proof (switch_algebra n (modulus_product (qs ++ ps)) s_out T0 T1 Y0 Y1 r0 r1 E G P s_in v
    (quot_pc _ T0) (quot_pc _ T1) (T_phase _ (Z.divide_refl _))) as H.
  assert (HN : pc n (modulus_product (qs ++ ps)) (psub n (psub n E r0) (pmul n s_out r1)) (pmul n [P] v)).
  { apply pc_trans with (pscale n P v); [|apply pscale_mul]. apply pc_eq. intros k Hk. rewrite coef_pscale by auto. apply (N_divides k Hk). }
  specialize (H HN).
  assert (H' : pc n (modulus_product (qs ++ ps)) (pscale n P (padd n Y0 (pmul n s_out Y1))) (pscale n P (padd n (pmul n G s_in) v))).
  { rewrite !pscale_mul. exact H. }
  intros k Hk. specialize (H' k Hk). rewrite !coef_pscale in H' by auto. rewrite modulus_app in H'. fold P Q in H'.
  rewrite <- Z.mul_sub_distr_l in H'. rewrite (Z.mul_comm Q P) in H'. apply Z.mul_divide_cancel_l in H'; auto. lia.
Qed.
Lemma switch_noise k : (k < n)%nat ->
  2 * P * Z.abs (coef v k) <= Z.of_nat n * B * fold_right Z.add 0 (map modulus_product subs) + P * (1 + Z.of_nat n * Sb).
Proof.
  intros Hk. assert (HP : 0 < P) by (apply (P_pos w qs ps Hgood Hlen)).
  assert (HO : Z.odd P = true) by (apply (P_odd w qs ps Hgood)).
  pose proof (N_divides k Hk) as HN. assert (HA : P * Z.abs (coef v k) = Z.abs (coef N k)).
  { rewrite HN, Z.abs_mul. rewrite (Z.abs_eq P) by lia. reflexivity. }
  unfold N in HA. rewrite !coef_psub in HA by auto.
  assert (HE : 2 * Z.abs (coef E k) <= 2 * Z.abs (coef [] k) + Z.of_nat n * B * fold_right Z.add 0 (map modulus_product subs)).
  { unfold E. apply lin_noise_bound; auto; [apply noise_parts|]. destruct Hkey as [KL _]. unfold L.
    assert (HI : forall sub, In sub subs -> In sub subs) by auto. revert HI KL. generalize subs at 1 3 4 5 as l. intros l. generalize key as ky.
    induction l as [|a l IH]; intros [|b ky] HI KL; try discriminate KL; [constructor|]. cbn [map combine]. constructor.
    - cbn [fst]. assert (Ha : In a subs) by (apply HI; left; auto). pose proof (sub_pos a Ha). split; [lia|]. intros i Hi. unfold D. rewrite coef_pcentre by auto.
      destruct (centre_spec (modulus_product a) (coef C i)) as [Hc _]; [auto|apply sub_odd; auto|]. lia.
    - apply IH; [intros; apply HI; right; auto|simpl in KL; lia]. }
  rewrite coef_nil in HE.
  assert (HR0 : 2 * Z.abs (coef r0 k) <= P).
  { unfold r0. rewrite coef_pcentre by auto. destruct (centre_spec P (coef T0 k) HP HO) as [Hc _]. lia. }
  assert (HR1 : 2 * Z.abs (coef (pmul n s_out r1) k) <= Z.of_nat n * (P * Sb)).
  { rewrite pmul_comm_coef by auto. apply pmul_bound; auto; [|lia]. intros i Hi. unfold r1. rewrite coef_pcentre by auto.
    destruct (centre_spec P (coef T1 i) HP HO) as [Hc _]. lia. }
  replace (P * (1 + Z.of_nat n * Sb)) with (P + Z.of_nat n * (P * Sb)) by ring.
  replace (2 * P * Z.abs (coef v k)) with (2 * (P * Z.abs (coef v k))) by ring. rewrite HA. clear HA HN. change (2 * Z.abs 0) with 0 in HE.
  revert HE HR0 HR1. generalize (Z.of_nat n * B * fold_right Z.add 0 (map modulus_product subs)) (Z.of_nat n * (P * Sb)) (coef E k) (coef r0 k) (coef (pmul n s_out r1) k).
  clear. intros. lia.
Qed.
End Switch.
