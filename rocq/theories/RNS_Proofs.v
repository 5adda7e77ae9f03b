(** Proofs about the RNS model. *)
From Coq Require Import ZArith List Bool Lia Znumtheory.
From Verif Require Import Words ModArith_Model ModArith_Proofs NumTheory_Model NumTheory_Proofs
  ModEq RNS_Model.
Import ListNotations.
Open Scope Z_scope.

Fixpoint prodl (l : list Z) : Z := match l with [] => 1 | q :: r => q * prodl r end.

Fixpoint pw_coprime (l : list Z) : Prop :=
  match l with
  | [] => True
  | q :: rest => (forall r, In r rest -> Z.gcd q r = 1) /\ pw_coprime rest
  end.

Lemma verify_rns_coprime qs : verify_rns qs = true -> pw_coprime qs.
Proof.
  induction qs as [|q qs IH]; simpl; auto. rewrite andb_true_iff, forallb_forall.
  intros [H1 H2]. split; auto. intros r Hr. apply Z.eqb_eq. auto.
Qed.

Lemma gcd_prodl q l : (forall r, In r l -> Z.gcd q r = 1) -> Z.gcd q (prodl l) = 1.
Proof.
  induction l as [|r l IH]; intros H; simpl.
  - apply Z.gcd_1_r.
  - apply Zgcd_1_rel_prime. apply rel_prime_mult.
    + apply Zgcd_1_rel_prime, H. left; auto.
    + apply Zgcd_1_rel_prime, IH. intros; apply H; right; auto.
Qed.

Lemma prodl_app a b : prodl (a ++ b) = prodl a * prodl b.
Proof. induction a; cbn [app prodl]; [lia|]. rewrite IHa. lia. Qed.
Lemma prodl_pos l : (forall q, In q l -> 0 < q) -> 0 < prodl l.
Proof.
  induction l; simpl; intros; [lia|].
  assert (0 < a) by auto. assert (0 < prodl l) by auto. nia.
Qed.
Lemma prodl_divide q l : In q l -> (q | prodl l).
Proof.
  induction l; simpl; intros [].
  - subst. exists (prodl l). lia.
  - apply Z.divide_mul_r; auto.
Qed.

Lemma coprime_prod_divide l z : pw_coprime l -> (forall q, In q l -> (q | z)) -> (prodl l | z).
Proof.
  induction l as [|q l IH]; simpl; intros Hc Hd.
  - apply Z.divide_1_l.
  - destruct Hc as [Hc1 Hc2]. destruct (IH Hc2 (fun r Hr => Hd r (or_intror Hr))) as [k Hk].
    assert (Hq : (q | k)).
    { apply Gauss with (prodl l).
      - rewrite Z.mul_comm, <- Hk. apply Hd; auto.
      - apply Zgcd_1_rel_prime, gcd_prodl; auto. }
    destruct Hq as [m ->]. exists m. lia.
Qed.

Lemma mod_eq_divide a b q : 0 < q -> a mod q = b mod q -> (q | a - b).
Proof.
  intros Hq H. apply Z.mod_divide; [lia|]. rewrite Zminus_mod, H, Z.sub_diag. apply Z.mod_0_l. lia.
Qed.
Lemma divide_mod_eq a b q : 0 < q -> (q | a - b) -> a mod q = b mod q.
Proof.
  intros Hq [k Hk]. replace a with (b + k * q) by lia. apply Z_mod_plus_full.
Qed.

(** ** CRT interpolation *)

Section CRT.
Variables (width wr Q : Z).
Hypothesis Hwr : 1 <= wr.
Hypothesis HQ : 0 < Q.

(** the integer sum computed when nothing wraps *)
Definition inv_of (q : Z) : Z :=
  match multiplicative_inverse width (Q / q mod q) q with Some i => i | None => 0 end.
Fixpoint isum (limbs : list (Z * Z)) : Z :=
  match limbs with
  | [] => 0
  | (q, x) :: rest => x * (Q / q * inv_of q) + isum rest
  end.

Definition good (qx : Z * Z) : Prop :=
  let (q, x) := qx in 1 < q < 2 ^ wr /\ 0 <= x < q /\ (q | Q) /\ Z.gcd (Q / q) q = 1.

Lemma good_inv q x : wr <= width -> good (q, x) ->
  multiplicative_inverse width (Q / q mod q) q = Some (inv_of q) /\ 0 <= inv_of q < q /\
  (Q / q * inv_of q) mod q = 1.
Proof.
  intros Hw (Hq & Hx & Hd & Hg). unfold inv_of.
  assert (2 ^ wr <= 2 ^ width) by (apply Z.pow_le_mono_r; lia).
  pose proof (Z.mod_pos_bound (Q / q) q).
  destruct (multiplicative_inverse_ok width q (Q / q mod q) ltac:(lia) ltac:(lia) ltac:(lia)) as (y & Hy & Hy1 & _).
  rewrite Hy. split; auto.
  destruct Hy1 as [Hr Hm].
  - rewrite Z.gcd_mod by lia. rewrite Z.gcd_comm; auto.
  - split; [lia|]. rewrite Zmult_mod_idemp_l in Hm. rewrite Hm. apply Z.mod_small. lia.
Qed.

Lemma term_bound q x : wr <= width -> good (q, x) ->
  0 <= x * (Q / q * inv_of q) <= (2 ^ wr - 1) * (Q * 2 ^ wr) /\ 0 <= Q / q * inv_of q <= Q * 2 ^ wr.
Proof.
  intros Hw Hg. destruct (good_inv q x Hw Hg) as (_ & Hi & _).
  destruct Hg as (Hq & Hx & Hd & _).
  assert (0 <= Q / q <= Q).
  { split; [apply Z.div_pos; lia|]. apply Z.div_le_upper_bound; nia. }
  assert (0 <= Q / q * inv_of q <= Q * 2 ^ wr) by nia.
  split; [nia|nia].
Qed.

Lemma crt_sum_ok limbs s :
  wr <= width ->
  (forall qx, In qx limbs -> good qx) ->
  0 <= s -> s + Z.of_nat (length limbs) * (2 ^ wr * (Q * 2 ^ wr)) < 2 ^ width ->
  Q * 2 ^ wr < 2 ^ width ->
  crt_sum width Q limbs s = Some (s + isum limbs).
Proof.
  intros Hw. revert s. induction limbs as [|[q x] limbs IH]; intros s Hg Hs Hb HQw.
  - simpl. f_equal. lia.
  - cbn [crt_sum isum length] in *. rewrite Nat2Z.inj_succ in Hb.
    assert (G : good (q, x)) by (apply Hg; left; auto).
    destruct (good_inv q x Hw G) as (Hi & Hr & _).
    destruct (term_bound q x Hw G) as (T1 & T2).
    assert (0 < q) by (destruct G; lia).
    unfold divui. replace (q =? 0) with false by lia. cbn [bind]. rewrite Hi. cbn [bind].
    unfold muli, extui, addi.
    assert (0 < 2 ^ wr) by (apply Z.pow_pos_nonneg; lia).
    rewrite (wrap_small width (Q / q * inv_of q)) by lia.
    assert (s + x * (Q / q * inv_of q) + Z.of_nat (length limbs) * (2 ^ wr * (Q * 2 ^ wr)) < 2 ^ width)
      by nia.
    assert (0 <= Z.of_nat (length limbs) * (2 ^ wr * (Q * 2 ^ wr))) by nia.
    rewrite (wrap_small width (x * _)) by lia.
    rewrite (wrap_small width (s + _)) by lia.
    rewrite IH; try lia.
    + f_equal. lia.
    + intros; apply Hg; right; auto.
Qed.

Lemma isum_app a b : isum (a ++ b) = isum a + isum b.
Proof. induction a as [|[q x] a IH]; simpl; [lia|]. rewrite IH. lia. Qed.

Lemma isum_divide p limbs :
  (p | Q) -> (forall qx, In qx limbs -> good qx /\ Z.gcd p (fst qx) = 1) -> (p | isum limbs).
Proof.
  intros Hp. induction limbs as [|[q x] limbs IH]; intros H; simpl.
  - apply Z.divide_0_r.
  - apply Z.divide_add_r; [|apply IH; intros; apply H; right; auto].
    destruct (H (q, x) (or_introl eq_refl)) as [(Hq & _ & Hd & _) Hg]. simpl in Hg.
    apply Z.divide_mul_r, Z.divide_mul_l.
    apply Gauss with q.
    + rewrite <- Z_div_exact_full_2; auto; [lia|]. apply Z.mod_divide; auto. lia.
    + apply Zgcd_1_rel_prime; auto.
Qed.

Lemma isum_residue l1 q x l2 :
  wr <= width -> (forall qx, In qx (l1 ++ (q, x) :: l2) -> good qx) ->
  (forall qx, In qx (l1 ++ l2) -> Z.gcd q (fst qx) = 1) ->
  isum (l1 ++ (q, x) :: l2) mod q = x.
Proof.
  intros Hw Hg Hc. assert (G : good (q, x)) by (apply Hg, in_or_app; right; left; auto).
  destruct (good_inv q x Hw G) as (_ & _ & Hm). destruct G as (Hq & Hx & Hd & _).
  rewrite isum_app. simpl.
  assert (D : (q | isum (l1 ++ l2))).
  { apply isum_divide; auto. intros qx Hin. split; auto. apply Hg.
    rewrite in_app_iff in *. simpl. tauto. }
  rewrite isum_app in D. destruct D as [k Hk].
  replace (isum l1 + (x * (Q / q * inv_of q) + isum l2)) with (x * (Q / q * inv_of q) + k * q) by lia.
  rewrite Z_mod_plus_full. rewrite <- Zmult_mod_idemp_r, Hm, Z.mul_1_r. apply Z.mod_small. lia.
Qed.
End CRT.

Lemma pw_coprime_split a q b : pw_coprime (a ++ q :: b) ->
  forall r, In r (a ++ b) -> Z.gcd q r = 1.
Proof.
  induction a as [|c a IH]; simpl; intros [H1 H2] r Hr; auto.
  destruct Hr as [-> |Hr]; auto.
  rewrite Z.gcd_comm. apply H1. apply in_or_app; right; left; auto.
Qed.

Lemma log2_ceil_bound k : 1 <= k -> k <= 2 ^ log2_ceil k.
Proof.
  intros. unfold log2_ceil. destruct (Z.eq_dec k 1) as [-> |].
  - simpl. lia.
  - apply Z.log2_up_spec. lia.
Qed.

Lemma isum_nonneg width wr Q limbs : 1 <= wr -> 0 < Q -> wr <= width ->
  (forall qx, In qx limbs -> good wr Q qx) -> 0 <= isum width Q limbs.
Proof.
  intros ? ? ? H. induction limbs as [|[q x] l IH]; simpl; [lia|].
  destruct (term_bound width wr Q H0 H1 q x) as [? _]; auto.
  - apply H; left; auto.
  - assert (0 <= isum width Q l) by (apply IH; intros; apply H; right; auto). lia.
Qed.

Lemma from_rns_ok wo wr Q limbs :
  1 <= wr -> 0 <= wo -> 0 < Q < 2 ^ wo -> 1 <= Z.of_nat (length limbs) ->
  (forall q x, In (q, x) limbs -> 1 < q < 2 ^ wr /\ 0 <= x < q) ->
  pw_coprime (map fst limbs) -> Q = prodl (map fst limbs) ->
  exists X, lower_modswitch_from_rns wo wr Q limbs = Some X /\ 0 <= X < Q /\
    forall q x, In (q, x) limbs -> X mod q = x.
Proof.
  intros Hwr Hwo HQ Hlen Hb Hc HQp. unfold lower_modswitch_from_rns.
  set (width := wo + 2 * wr + log2_ceil (Z.of_nat (length limbs))).
  pose proof (Z.log2_up_nonneg (Z.of_nat (length limbs))) as HL. fold (log2_ceil (Z.of_nat (length limbs))) in HL.
  pose proof (log2_ceil_bound _ Hlen) as HLb.
  assert (Hw : wr <= width) by (unfold width; lia).
  assert (G : forall qx, In qx limbs -> good wr Q qx).
  { intros [q x] Hin. destruct (Hb q x Hin) as [Hq Hx]. unfold good.
    assert (D : (q | Q)).
    { rewrite HQp. apply prodl_divide. change q with (fst (q, x)). apply in_map; auto. }
    repeat split; try lia; auto.
    destruct (in_split _ _ Hin) as (l1 & l2 & ->). rewrite map_app in Hc, HQp. simpl in Hc, HQp.
    rewrite prodl_app in HQp. cbn [prodl] in HQp.
    replace Q with (q * (prodl (map fst l1) * prodl (map fst l2))) by lia.
    rewrite Z.mul_comm, Z.div_mul by lia. rewrite <- prodl_app.
    rewrite Z.gcd_comm. apply gcd_prodl. apply pw_coprime_split; auto. }
  assert (P : 2 ^ width = 2 ^ wo * (2 ^ wr * 2 ^ wr) * 2 ^ log2_ceil (Z.of_nat (length limbs))).
  { unfold width. rewrite !Z.pow_add_r by lia. replace (2 * wr) with (wr + wr) by lia.
    rewrite Z.pow_add_r by lia. reflexivity. }
  assert (P1 : 2 <= 2 ^ wr).
  { change 2 with (2 ^ 1) at 1. apply Z.pow_le_mono_r; lia. }
  set (k := Z.of_nat (length limbs)) in *.
  assert (A0 : 0 < 2 ^ log2_ceil k) by lia.
  rewrite (crt_sum_ok width wr Q Hwr ltac:(lia) limbs 0 Hw G ltac:(lia)).
  - cbn [bind]. rewrite remui_pos by lia. cbn [bind].
    pose proof (Z.mod_pos_bound (0 + isum width Q limbs) Q ltac:(lia)) as Hm.
    exists ((0 + isum width Q limbs) mod Q). split; [|split; auto].
    + unfold trunci. rewrite wrap_small; auto. lia.
    + intros q x Hin. destruct (G _ Hin) as (Hq & Hx & Hd & _).
      rewrite <- Zmod_div_mod by (auto; lia).
      destruct (in_split _ _ Hin) as (l1 & l2 & ->). rewrite Z.add_0_l.
      apply isum_residue with wr; auto; try lia.
      rewrite map_app in Hc. simpl in Hc. intros qx Hqx.
      apply (pw_coprime_split _ _ _ Hc). rewrite <- map_app. apply in_map; auto.
  - fold k. rewrite P.
    apply Z.lt_le_trans with (2 ^ log2_ceil k * (2 ^ wr * (2 ^ wo * 2 ^ wr))); [|lia].
    assert (2 ^ wr * (Q * 2 ^ wr) < 2 ^ wr * (2 ^ wo * 2 ^ wr)) by nia.
    nia.
  - rewrite P. apply Z.lt_le_trans with (2 ^ wo * 2 ^ wr); [nia|].
    assert (2 ^ wo * 2 ^ wr <= 2 ^ wo * (2 ^ wr * 2 ^ wr)) by nia.
    assert (2 ^ wo * (2 ^ wr * 2 ^ wr) * 1 <= 2 ^ wo * (2 ^ wr * 2 ^ wr) * 2 ^ log2_ceil k)
      by (apply Z.mul_le_mono_nonneg_l; nia).
    lia.
Qed.

Lemma crt_unique l Q X Y : (forall q, In q l -> 1 < q) -> pw_coprime l -> Q = prodl l ->
  0 <= X < Q -> 0 <= Y < Q -> (forall q, In q l -> X mod q = Y mod q) -> X = Y.
Proof.
  intros Hp Hc -> HX HY H. assert (D : (prodl l | X - Y)).
  { apply coprime_prod_divide; auto. intros q Hq. apply mod_eq_divide; auto.
    specialize (Hp q Hq). lia. }
  destruct D as [k Hk]. assert (k = 0) by nia. lia.
Qed.

(** ** Basis conversion *)

Lemma mac_wide w p a b c : 1 <= w -> 0 < p < 2 ^ (w - 1) -> 0 <= a < p -> 0 <= b < 2 ^ w ->
  0 <= c < p -> lower_mac w p a b c = Some ((a * b + c) mod p).
Proof.
  intros. unfold lower_mac, muli, addi, extui, trunci. rewrite remui_pos by lia. cbn [bind].
  P2 w. rewrite (wrap_small (2 * w) (a * b)) by (rewrite (pow2_dbl_width w) by lia; nia).
  rewrite (wrap_small (2 * w)).
  - rewrite wrap_small; auto. pose proof (Z.mod_pos_bound (a * b + c) p). lia.
  - rewrite (pow2_dbl_width w) by lia. nia.
Qed.

Lemma find_limb_in p qs xs x : find_limb p qs xs = Some x -> In (p, x) (combine qs xs).
Proof.
  unfold find_limb. destruct (find _ _) as [[q y]|] eqn:E; [|discriminate].
  intros [= <-]. apply find_some in E as [E1 E2]. simpl in E2. apply Z.eqb_eq in E2. subst.
  apply in_rev; auto.
Qed.
Lemma find_limb_some p qs xs x : In (p, x) (combine qs xs) -> exists y, find_limb p qs xs = Some y.
Proof.
  intros H. unfold find_limb. destruct (find _ _) as [[q y]|] eqn:E; eauto.
  exfalso. apply in_rev in H. apply (find_none _ _ E) in H. simpl in H. lia.
Qed.

(** centred lift of a canonical value, odd modulus *)
Lemma lift_odd w q x : 1 <= w -> 0 < q -> q + 1 < 2 ^ (w - 1) -> Z.odd q = true -> 0 <= x < q ->
  exists r, lower_lift_centered w q x = Some r /\ is_word w r /\
    sgn w r mod q = x /\ - q < 2 * sgn w r < q.
Proof.
  intros Hw Hq Hq1 Ho Hx.
  assert (Hword : is_word w x).
  { unfold is_word. P2 w. lia. }
  destruct (lift_centered_ok w q ltac:(lia) ltac:(lia) x Hq1 Hword) as (r & Hr & Hm & Hb).
  exists r. split; auto. split.
  { revert Hr. unfold lower_lift_centered, is_word.
    rewrite lift_standard_ok by (auto; lia). cbn [bind].
    destruct (divsi _ _ _) as [bnd|]; cbn [bind]; [|discriminate]. P2 w.
    pose proof (Z.mod_pos_bound (sgn w x) q).
    destruct (cmp_sge _ _ _); intros [= <-]; unfold subi, wrap; [apply Z.mod_pos_bound|]; lia. }
  split.
  - rewrite Hm. unfold sgn. P2 w. replace (x <? 2 ^ (w - 1)) with true by lia. apply Z.mod_small; auto.
  - apply Zodd_bool_iff in Ho. destruct (Zodd_ex q Ho) as [m ->]. lia.
Qed.

(** inverse table: every k *)
Lemma build_qinv_ok w pp qs :
  1 <= w -> 0 < pp -> (forall q, In q qs -> 1 < q < 2 ^ w /\ Z.gcd pp q = 1) -> pw_coprime qs ->
  exists l, build_qinv w pp qs = Some l /\ length l = pred (length qs) /\
    forall i, (i < pred (length qs))%nat ->
      0 < nth i l 0 < nth (S i) qs 0 /\
      (pp * prodl (firstn (S i) qs) * nth i l 0) mod nth (S i) qs 0 = 1.
Proof.
  intros Hw. revert pp. induction qs as [|q qs IH]; intros pp Hpp Hq Hc.
  - exists []. simpl. repeat split; auto; lia.
  - destruct qs as [|q' rest].
    { exists []. simpl. repeat split; auto; lia. }
    destruct Hc as [Hc1 Hc2].
    destruct (Hq q' ltac:(right; left; auto)) as [Hq' Hg'].
    destruct (Hq q ltac:(left; auto)) as [Hq0 Hg0].
    assert (Hpp' : 0 < pp * q) by nia.
    assert (Hgg : forall r, In r (q' :: rest) -> Z.gcd (pp * q) r = 1).
    { intros r Hr. rewrite Z.gcd_comm. apply Zgcd_1_rel_prime. apply rel_prime_mult.
      - apply rel_prime_sym, Zgcd_1_rel_prime. apply Hq; right; auto.
      - apply rel_prime_sym, Zgcd_1_rel_prime. apply Hc1; auto. }
    destruct (IH (pp * q) Hpp') as (l & Hl & Hlen & Hi).
    { intros r Hr. split; [apply Hq; right; auto|auto]. }
    { auto. }
    pose proof (Z.mod_pos_bound (pp * q) q' ltac:(lia)) as Hm.
    cbn [build_qinv]. unfold trunci. rewrite wrap_small by lia.
    destruct (multiplicative_inverse_ok w q' ((pp * q) mod q') Hw ltac:(lia) ltac:(lia))
      as (y & Hy & Hy1 & _).
    rewrite Hy. cbn [bind].
    destruct Hy1 as [Hyb Hym].
    { rewrite Z.gcd_mod by lia. rewrite Z.gcd_comm. apply Hgg; left; auto. }
    rewrite Zmult_mod_idemp_l, (Z.mod_small 1) in Hym by lia.
    assert (y <> 0) by (intros ->; rewrite Z.mul_0_r, Z.mod_0_l in Hym; lia).
    replace (y =? 0) with false by lia.
    cbn [build_qinv] in Hl. unfold trunci in Hl. rewrite Hl. cbn [bind]. exists (y :: l). split; auto.
    split; [simpl in *; lia|].
    intros [|i] Hlt.
    + cbn [nth firstn prodl]. split; [lia|]. rewrite Z.mul_1_r. auto.
    + simpl in Hlt. specialize (Hi i ltac:(simpl; lia)).
      change (nth (S i) (y :: l) 0) with (nth i l 0).
      change (nth (S (S i)) (q :: q' :: rest) 0) with (nth (S i) (q' :: rest) 0).
      change (firstn (S (S i)) (q :: q' :: rest)) with (q :: firstn (S i) (q' :: rest)).
      cbn [prodl]. rewrite Z.mul_assoc. exact Hi.
Qed.

Section Conv.
Variable w : Z.
Hypothesis Hw : 1 <= w.

Definition limb_ok (q : Z) : Prop := 1 < q /\ q + 1 < 2 ^ (w - 1) /\ Z.odd q = true.
Definition target_ok (p : Z) : Prop := 0 < p < 2 ^ (w - 1) /\ Z.odd p = true.

Lemma mod_word a m : 0 < m < 2 ^ (w - 1) -> 0 <= a mod m < m.
Proof. intros. apply Z.mod_pos_bound. lia. Qed.

Lemma oseq_map (f : Z -> option Z) (g : Z -> Z) ps :
  (forall p, In p ps -> f p = Some (g p)) -> oseq (map f ps) = Some (map g ps).
Proof.
  induction ps as [|p ps IH]; simpl; intros H; auto.
  rewrite H by auto. cbn [bind]. rewrite IH by auto. reflexivity.
Qed.

Lemma limb_from_mrcs1 p q x c X : target_ok p -> is_word w c -> sgn w c = X -> X mod q = x ->
  convert_limb w p [q] [x] [c] = Some (X mod p).
Proof.
  intros [Hp _] Hc HX Hx. unfold convert_limb.
  destruct (find_limb p [q] [x]) as [y|] eqn:E.
  - apply find_limb_in in E. simpl in E. destruct E as [[= <- <-]|[]]. rewrite Hx; auto.
  - rewrite lower_reduce_ok by (auto; lia). cbn [bind]. simpl. rewrite HX. auto.
Qed.

Lemma conv1 q x p : limb_ok q -> 0 <= x < q -> target_ok p ->
  exists c, compute_mrcs w [q] [x] [] = Some [c] /\ is_word w c /\
    sgn w c mod q = x /\ - q < 2 * sgn w c < q.
Proof.
  intros (H1 & H2 & H3) Hx Hp. destruct (lift_odd w q x Hw ltac:(lia) H2 H3 Hx) as (r & Hr & Hwd & Hm & Hb).
  exists r. simpl. rewrite Hr. auto.
Qed.

Lemma conv2 q0 q1 x0 x1 i : limb_ok q0 -> limb_ok q1 -> 0 <= x0 < q0 -> 0 <= x1 < q1 ->
  0 <= i < q1 -> (q0 * i) mod q1 = 1 ->
  exists c0 c1, compute_mrcs w [q0; q1] [x0; x1] [i] = Some [c1; c0] /\
    is_word w c0 /\ is_word w c1 /\
    sgn w c0 mod q0 = x0 /\ (sgn w c0 + q0 * sgn w c1) mod q1 = x1 /\
    - q0 < 2 * sgn w c0 < q0 /\ - q1 < 2 * sgn w c1 < q1.
Proof.
  intros (A1 & A2 & A3) (B1 & B2 & B3) Hx0 Hx1 Hi Hinv.
  destruct (lift_odd w q0 x0 Hw ltac:(lia) A2 A3 Hx0) as (c0 & Hr0 & Hw0 & Hm0 & Hb0).
  cbn [compute_mrcs]. rewrite Hr0. cbn [bind combine mrcs_from mrc_next map horner_macs].
  rewrite lower_reduce_ok by (auto; lia). cbn [bind].
  pose proof (Z.mod_pos_bound (sgn w c0) q1 ltac:(lia)).
  rewrite lower_sub_ok by lia. cbn [bind].
  pose proof (Z.mod_pos_bound (x1 - sgn w c0 mod q1) q1 ltac:(lia)).
  rewrite lower_mul_ok by lia. cbn [bind].
  set (m := ((x1 - sgn w c0 mod q1) mod q1 * i) mod q1).
  assert (Hmb : 0 <= m < q1) by (apply Z.mod_pos_bound; lia).
  destruct (lift_odd w q1 m Hw ltac:(lia) B2 B3 Hmb) as (c1 & Hr1 & Hw1 & Hm1 & Hb1).
  rewrite Hr1. cbn [bind]. exists c0, c1. split; auto.
  split; auto. split; auto. split; auto. split; [|auto].
  apply cong_small; auto.
  assert (E1 : cong q1 (sgn w c1) ((x1 - sgn w c0) * i)).
  { rewrite <- (cong_mod q1 (sgn w c1)), Hm1. unfold m. rewrite !cong_mod. reflexivity. }
  assert (E2 : cong q1 (q0 * i) 1) by (rewrite <- (cong_mod q1 (q0 * i)), Hinv; reflexivity).
  rewrite E1. replace (q0 * ((x1 - sgn w c0) * i)) with ((x1 - sgn w c0) * (q0 * i)) by ring.
  rewrite E2. exists 0. lia.
Qed.
End Conv.
