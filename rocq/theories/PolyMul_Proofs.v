(** Proofs about the lowered polynomial product. *)
From Coq Require Import ZArith List Bool Arith Lia Znumtheory Setoid Morphisms.
From Verif Require Import Words ModArith_Model ModArith_Proofs NumTheory_Model NumTheory_Proofs
  ModEq Sums NTT_Model NTT_Proofs PolyMul_Model.
Import ListNotations.
Open Scope Z_scope.

(** coefficient k of the product of two sequences *)
Definition conv (f g : nat -> Z) (k : nat) : Z := sumn (S k) (fun i => f i * g (k - i)%nat).

Lemma conv_add_r f g h k : conv f (fun i => g i + h i) k = conv f g k + conv f h k.
Proof. unfold conv. rewrite <- sumn_add. apply sumn_ext. intros. ring. Qed.
Lemma conv_delta f s e k :
  conv f (fun i => if (i =? e)%nat then s else 0) k = if (e <=? k)%nat then s * f (k - e)%nat else 0.
Proof.
  unfold conv. destruct (Nat.leb_spec e k).
  - rewrite (sumn_single (S k) _ (k - e)); try lia.
    + replace (k - (k - e))%nat with e by lia. rewrite Nat.eqb_refl. ring.
    + intros i Hi Hne. destruct (Nat.eqb_spec (k - i) e); [lia|ring].
  - apply sumn_zero. intros i Hi. destruct (Nat.eqb_spec (k - i) e); [lia|ring].
Qed.
Lemma conv_ext_cong q f f' g k : (forall i, (i <= k)%nat -> cong q (f i) (f' i)) -> cong q (conv f g k) (conv f' g k).
Proof. intros H. unfold conv. apply sumn_cong. intros i Hi. rewrite (H i) by lia. reflexivity. Qed.

Lemma nth_error_nth0 (l : list Z) i : (i < length l)%nat -> nth_error l i = Some (nth i l 0).
Proof. intros. apply nth_error_nth'; auto. Qed.
Lemma Forall_nth0 (q : Z) l i : 0 < q -> Forall (can q) l -> can q (nth i l 0).
Proof.
  intros Hq H. destruct (Nat.lt_ge_cases i (length l)).
  - apply Forall_nth'; auto.
  - rewrite nth_overflow by lia. unfold can. lia.
Qed.

Section Mul.
Variables (w q : Z).
Hypothesis Hw : 1 <= w.
Hypothesis Hq : 1 < q < 2 ^ (w - 1).

Lemma lift_can c : can q c -> lower_lift_standard w q c = Some c.
Proof.
  intros [H1 H2]. P2 w. rewrite lift_standard_ok by (auto; unfold is_word; lia).
  unfold sgn. replace (c <? 2 ^ (w - 1)) with true by lia. rewrite Z.mod_small; auto.
Qed.

(** *** constants *)
Lemma const_coeff_ok v : - 2 ^ (w - 1) <= v < 2 ^ (w - 1) -> const_coeff w q v = v mod q.
Proof.
  intros Hv. unfold const_coeff. P2 w.
  assert (E : sgn w (wrap w v) = v).
  { unfold sgn, wrap. destruct (Z.ltb_spec v 0) as [Hn|Hn].
    - replace (v mod 2 ^ w) with (v + 2 ^ w) by (apply Z.mod_unique with (-1); lia).
      replace (v + 2 ^ w <? 2 ^ (w - 1)) with false by lia. lia.
    - rewrite Z.mod_small by lia. replace (v <? 2 ^ (w - 1)) with true by lia. auto. }
  rewrite E. destruct (Z.ltb_spec v 0).
  - pose proof (Z.rem_bound_pos_neg v q ltac:(lia) ltac:(lia)).
    pose proof (Z.quot_rem v q ltac:(lia)).
    destruct (Z.ltb_spec (Z.rem v q) 0).
    + apply Z.mod_unique with (Z.quot v q - 1); lia.
    + apply Z.mod_unique with (Z.quot v q); lia.
  - rewrite Z.rem_mod_nonneg by lia. pose proof (Z.mod_pos_bound v q).
    destruct (Z.ltb_spec (v mod q) 0); lia.
Qed.

(** value of the coefficient of x^k in a list of terms *)
Definition term_coeff (terms : list (nat * Z)) (k : nat) : Z :=
  fold_right Z.add 0 (map snd (filter (fun t => (fst t =? k)%nat) terms)).

Lemma const_tensor_ok terms : forall acc, NoDup (map fst terms) ->
  (forall e v, In (e, v) terms -> (e < length acc)%nat /\ - 2 ^ (w - 1) <= v < 2 ^ (w - 1)) ->
  exists d, const_tensor w q terms acc = Some d /\ length d = length acc /\
    forall k, nth k d 0 = if in_dec Nat.eq_dec k (map fst terms) then term_coeff terms k mod q else nth k acc 0.
Proof.
  induction terms as [|[e v] terms IH]; intros acc ND Hin; cbn [const_tensor].
  - exists acc. repeat split; auto.
  - destruct (Hin e v (or_introl eq_refl)) as [He Hv].
    replace (e <? length acc)%nat with true by (symmetry; apply Nat.ltb_lt; auto).
    inversion ND as [|x l Hni ND']; subst.
    destruct (IH (upd acc e (const_coeff w q v)) ND') as (d & Hd & Hl & HN).
    { intros e' v' H'. rewrite upd_length. apply Hin. right; auto. }
    rewrite upd_length in Hl. exists d. split; auto. split; auto. intros k. rewrite HN.
    cbn [map fst]. destruct (in_dec Nat.eq_dec k (map fst terms)) as [Hk|Hk];
      destruct (in_dec Nat.eq_dec k (e :: map fst terms)) as [Hk'|Hk']; cbn [In] in *; try tauto.
    + unfold term_coeff. cbn [filter fst]. destruct (Nat.eqb_spec e k) as [-> |]; [tauto|]. auto.
    + assert (e = k) by tauto. subst e. rewrite upd_nth by auto. rewrite Nat.eqb_refl, const_coeff_ok by auto.
      unfold term_coeff. cbn [filter fst]. rewrite Nat.eqb_refl. cbn [map snd fold_right].
      replace (filter (fun t => (fst t =? k)%nat) terms) with (@nil (nat * Z)).
      * simpl. rewrite Z.add_0_r. auto.
      * symmetry. clear - Hk. induction terms as [|[e' v'] l IH]; auto. cbn [filter fst map In] in *.
        destruct (Nat.eqb_spec e' k); [tauto|]. apply IH. tauto.
    + rewrite upd_nth by auto. destruct (Nat.eqb_spec k e) as [-> |]; [tauto|]. auto.
Qed.
Lemma term_coeff_notin terms k : ~ In k (map fst terms) -> term_coeff terms k = 0.
Proof.
  intros H. unfold term_coeff. induction terms as [|[e v] l IH]; auto. cbn [filter fst map In] in *.
  destruct (Nat.eqb_spec e k); [tauto|]. apply IH. tauto.
Qed.
Lemma convert_constant_ok len terms : NoDup (map fst terms) ->
  (forall e v, In (e, v) terms -> (e < len)%nat /\ - 2 ^ (w - 1) <= v < 2 ^ (w - 1)) ->
  exists d, convert_constant w q len terms = Some d /\ length d = len /\
    forall k, nth k d 0 = term_coeff terms k mod q.
Proof.
  intros ND H. unfold convert_constant.
  destruct (const_tensor_ok terms (repeat 0 len) ND) as (d & Hd & Hl & HN).
  { intros e v Hin. rewrite repeat_length. auto. }
  rewrite repeat_length in Hl. exists d. split; auto. split; auto. intros k. rewrite HN.
  destruct (in_dec Nat.eq_dec k (map fst terms)) as [Hk|Hk]; auto.
  rewrite term_coeff_notin by auto. rewrite nth_repeat, Z.mod_0_l; lia.
Qed.

(** *** the naive product *)
(** running sum of contributions of a list of index pairs *)
Definition contrib (a b : list Z) (ijs : list (nat * nat)) (k : nat) : Z :=
  fold_right Z.add 0 (map (fun ij => if (fst ij + snd ij =? k)%nat
                                     then nth (fst ij) a 0 * nth (snd ij) b 0 else 0) ijs).
Lemma mac_fold_ok a b ijs : forall c, Forall (can q) a -> Forall (can q) b -> Forall (can q) c ->
  (forall i j, In (i, j) ijs -> (i < length a)%nat /\ (j < length b)%nat /\ (i + j < length c)%nat) ->
  exists r, ofold (mac_into w q a b) ijs c = Some r /\ length r = length c /\ Forall (can q) r /\
    forall k, (k < length c)%nat -> cong q (nth k r 0) (nth k c 0 + contrib a b ijs k).
Proof.
  induction ijs as [|[i j] ijs IH]; intros c Ha Hb Hc Hin; cbn [ofold].
  - exists c. split; auto. split; auto. split; auto. intros. unfold contrib. simpl. rewrite Z.add_0_r. reflexivity.
  - destruct (Hin i j (or_introl eq_refl)) as (Hi & Hj & Hij).
    unfold mac_into at 1. rewrite !nth_error_nth0 by auto. cbn [bind].
    pose proof (Forall_nth0 q a i ltac:(lia) Ha). pose proof (Forall_nth0 q b j ltac:(lia) Hb).
    pose proof (Forall_nth0 q c (i + j) ltac:(lia) Hc). unfold can in *.
    rewrite lower_mul_ok by lia. cbn [bind].
    pose proof (Z.mod_pos_bound (nth i a 0 * nth j b 0) q ltac:(lia)).
    rewrite lower_add_ok by lia. cbn [bind].
    set (c' := upd c (i + j) _).
    destruct (IH c') as (r & Hr & Hl & HF & HN); auto.
    { apply Forall_upd; auto. apply Z.mod_pos_bound. lia. }
    { intros i' j' H'. unfold c'. rewrite upd_length. apply Hin. right; auto. }
    unfold c' in Hl. rewrite upd_length in Hl.
    exists r. split; auto. split; auto. split; auto. intros k Hk.
    rewrite HN by (unfold c'; rewrite upd_length; auto).
    unfold c'. rewrite upd_nth by auto. unfold contrib. cbn [map fold_right fst snd].
    rewrite (Nat.eqb_sym k). destruct (Nat.eqb_spec (i + j) k) as [<- |Hne].
    + rewrite cong_mod, cong_mod. exists 0. ring.
    + exists 0. ring.
Qed.

Lemma fold_add_app l l' : fold_right Z.add 0 (l ++ l') = fold_right Z.add 0 l + fold_right Z.add 0 l'.
Proof. induction l; simpl; lia. Qed.
Lemma fold_map_seq (f : nat -> Z) n : fold_right Z.add 0 (map f (seq 0 n)) = sumn n f.
Proof.
  induction n; auto. rewrite seq_S, map_app, fold_add_app, IHn. simpl. lia.
Qed.
Lemma contrib_all a b k : contrib a b (flat_map (fun i => map (fun j => (i, j)) (seq 0 (length b))) (seq 0 (length a))) k
  = conv (fun i => nth i a 0) (fun j => nth j b 0) k.
Proof.
  unfold contrib.
  assert (E : forall n, fold_right Z.add 0 (map (fun ij => if (fst ij + snd ij =? k)%nat
                                     then nth (fst ij) a 0 * nth (snd ij) b 0 else 0)
     (flat_map (fun i => map (fun j => (i, j)) (seq 0 (length b))) (seq 0 n)))
     = sumn n (fun i => sumn (length b) (fun j => if (i + j =? k)%nat then nth i a 0 * nth j b 0 else 0))).
  { induction n; auto. rewrite seq_S, flat_map_app, map_app, fold_add_app, IHn. cbn [sumn flat_map].
    f_equal. rewrite app_nil_r, map_map. cbn [fst snd]. rewrite fold_map_seq. auto. }
  rewrite E. unfold conv.
  assert (E2 : forall i, sumn (length b) (fun j => if (i + j =? k)%nat then nth i a 0 * nth j b 0 else 0)
      = if (i <=? k)%nat then nth i a 0 * nth (k - i) b 0 else 0).
  { intros i. destruct (Nat.leb_spec i k).
    - destruct (Nat.lt_ge_cases (k - i) (length b)).
      + rewrite (sumn_single (length b) _ (k - i)); auto.
        * replace (i + (k - i) =? k)%nat with true by (symmetry; apply Nat.eqb_eq; lia). auto.
        * intros j Hj Hne. destruct (Nat.eqb_spec (i + j) k); [lia|auto].
      + rewrite (nth_overflow b) by lia. rewrite Z.mul_0_r. apply sumn_zero. intros j Hj.
        destruct (Nat.eqb_spec (i + j) k); [lia|auto].
    - apply sumn_zero. intros j Hj. destruct (Nat.eqb_spec (i + j) k); [lia|auto]. }
  rewrite (sumn_ext (length a) _ (fun i => if (i <=? k)%nat then nth i a 0 * nth (k - i) b 0 else 0)) by (intros; apply E2).
  destruct (Nat.le_ge_cases (length a) (S k)) as [H|H].
  - replace (S k) with (length a + (S k - length a))%nat by lia. rewrite sumn_split.
    rewrite (sumn_zero (S k - length a)); [|intros; rewrite nth_overflow by lia; auto].
    rewrite Z.add_0_r. apply sumn_ext. intros i Hi. destruct (Nat.leb_spec i k); [auto|lia].
  - replace (length a) with (S k + (length a - S k))%nat by lia. rewrite sumn_split.
    rewrite (sumn_zero (length a - S k)).
    + rewrite Z.add_0_r. apply sumn_ext. intros i Hi. destruct (Nat.leb_spec i k); [auto|lia].
    + intros i Hi. destruct (Nat.leb_spec (S k + i) k); [lia|auto].
Qed.

Lemma naive_ok a b : (1 <= length a)%nat -> length b = length a -> Forall (can q) a -> Forall (can q) b ->
  exists r, naive_polymul w q a b = Some r /\ length r = (2 * length a - 1)%nat /\ Forall (can q) r /\
    forall k, (k < 2 * length a - 1)%nat ->
      cong q (nth k r 0) (conv (fun i => nth i a 0) (fun j => nth j b 0) k).
Proof.
  intros Hn Hl Ha Hb. unfold naive_polymul.
  destruct (mac_fold_ok a b (flat_map (fun i => map (fun j => (i, j)) (seq 0 (length b))) (seq 0 (length a)))
             (repeat 0 (2 * length a - 1)) Ha Hb) as (r & Hr & Hlr & HF & HN).
  - apply Forall_forall. intros x Hx. apply repeat_spec in Hx. subst. unfold can. lia.
  - intros i j Hin. apply in_flat_map in Hin as (i' & Hi' & Hj). apply in_map_iff in Hj as (j' & E & Hj').
    injection E as <- <-. apply in_seq in Hi', Hj'. rewrite repeat_length. lia.
  - rewrite repeat_length in *. exists r. split; auto. split; auto. split; auto.
    intros k Hk. rewrite HN by auto. rewrite nth_repeat, contrib_all. reflexivity.
Qed.

(** *** division *)
Lemma leading_term_ok rem idx : Forall (can q) rem -> (idx <= length rem)%nat ->
  match leading_term w q rem idx with
  | Some (d, c) => (d < idx)%nat /\ c = nth d rem 0 /\ c <> 0 /\ forall k, (d < k < idx)%nat -> nth k rem 0 = 0
  | None => forall k, (k < idx)%nat -> nth k rem 0 = 0
  end.
Proof.
  intros HF. induction idx as [|i IH]; intros Hi; cbn [leading_term].
  - intros; lia.
  - rewrite nth_error_nth0 by lia. cbn [bind].
    rewrite lift_can by (apply Forall_nth0; auto; lia). cbn [bind].
    destruct (Z.eqb_spec (nth i rem 0) 0) as [E|E].
    + specialize (IH ltac:(lia)). destruct (leading_term w q rem i) as [[d c]|].
      * destruct IH as (H1 & H2 & H3 & H4). split; [lia|]. split; auto. split; auto.
        intros k Hk. destruct (Nat.eq_dec k i) as [-> |]; auto. apply H4. lia.
      * intros k Hk. destruct (Nat.eq_dec k i) as [-> |]; auto. apply IH. lia.
    + split; [lia|]. split; auto. split; auto. intros; lia.
Qed.

Lemma mul_scalar_ok p s : Forall (can q) p -> can q s ->
  mul_scalar w q p s = Some (map (fun c => (c * s) mod q) p).
Proof.
  intros HF Hs. unfold mul_scalar. rewrite lift_can by auto. cbn [bind].
  apply omap_spec. intros c Hc. rewrite Forall_forall in HF. specialize (HF c Hc).
  apply lower_mul_ok; auto; lia.
Qed.

Lemma rot_nth (p : list Z) r k : (r <= length p)%nat -> (k < length p)%nat ->
  nth k (skipn (length p - r) p ++ firstn (length p - r) p) 0 =
  if (k <? r)%nat then nth (length p - r + k) p 0 else nth (k - r) p 0.
Proof.
  intros Hr Hk.
  assert (E : forall j, nth j p 0 = nth j (firstn (length p - r) p ++ skipn (length p - r) p) 0)
    by (intros; rewrite firstn_skipn; auto).
  destruct (Nat.ltb_spec k r).
  - rewrite app_nth1 by (rewrite skipn_length; lia). rewrite E.
    rewrite app_nth2 by (rewrite firstn_length; lia). f_equal. rewrite firstn_length. lia.
  - rewrite app_nth2 by (rewrite skipn_length; lia). rewrite skipn_length. rewrite E.
    rewrite app_nth1 by (rewrite firstn_length; lia). f_equal. lia.
Qed.

Variables (D : list Z) (n : nat) (inv : Z).
Hypothesis HD : Forall (can q) D.
Hypothesis HDz : forall k, (n < k)%nat -> nth k D 0 = 0.
Hypothesis Hinv : cong q (nth n D 0 * inv) 1.
Hypothesis Cinv : can q inv.
Hypothesis Hn : (n < length D)%nat.

Lemma step_ok rem d : length rem = length D -> Forall (can q) rem -> (n <= d < length D)%nat ->
  (forall k, (d < k)%nat -> nth k rem 0 = 0) ->
  exists rem' s,
    (m <- lower_mul w q (nth d rem 0) inv ;;
     sd <- mul_scalar w q D m ;;
     inc <- monic_monomial_mul sd (d - n) ;;
     poly_sub w q rem inc) = Some rem' /\
    length rem' = length D /\ Forall (can q) rem' /\ (forall k, (d <= k)%nat -> nth k rem' 0 = 0) /\
    forall k, (k < length D)%nat ->
      cong q (nth k rem' 0) (nth k rem 0 - (if (d - n <=? k)%nat then s * nth (k - (d - n)) D 0 else 0)).
Proof.
  intros Hl HF Hd Hz.
  pose proof (Forall_nth0 q rem d ltac:(lia) HF) as Hc.
  rewrite lower_mul_ok by (auto; lia). cbn [bind]. set (s := (nth d rem 0 * inv) mod q).
  assert (Hs : can q s) by (apply Z.mod_pos_bound; lia).
  rewrite mul_scalar_ok by auto. cbn [bind]. unfold monic_monomial_mul. rewrite map_length.
  replace (d - n <=? length D)%nat with true by (symmetry; apply Nat.leb_le; lia). cbn [bind].
  set (sd := map (fun c => (c * s) mod q) D).
  assert (Lsd : length sd = length D) by apply map_length.
  assert (Nsd : forall k, nth k sd 0 = (nth k D 0 * s) mod q).
  { intros k. destruct (Nat.lt_ge_cases k (length D)).
    - unfold sd. rewrite nth_indep with (d' := (0 * s) mod q) by (rewrite map_length; auto).
      rewrite (map_nth (fun c => (c * s) mod q)). auto.
    - rewrite !nth_overflow by lia. rewrite Z.mul_0_l, Z.mod_0_l; lia. }
  set (inc := skipn (length D - (d - n)) sd ++ firstn (length D - (d - n)) sd).
  assert (Linc : length inc = length D).
  { unfold inc. rewrite app_length, skipn_length, firstn_length. lia. }
  assert (Ninc : forall k, (k < length D)%nat -> nth k inc 0 =
     if (d - n <=? k)%nat then (nth (k - (d - n)) D 0 * s) mod q else 0).
  { intros k Hk. unfold inc. rewrite <- Lsd. rewrite rot_nth by lia.
    destruct (Nat.ltb_spec k (d - n)).
    - destruct (Nat.leb_spec (d - n) k); [lia|]. rewrite Nsd, HDz by lia. rewrite Z.mul_0_l, Z.mod_0_l; lia.
    - destruct (Nat.leb_spec (d - n) k); [|lia]. rewrite Nsd. auto. }
  unfold poly_sub. rewrite Linc, Hl, Nat.eqb_refl. cbn [negb].
  rewrite (omap_spec _ (fun xy => (fst xy - snd xy) mod q)).
  2:{ intros [x y] Hin. cbn [fst snd]. rewrite Forall_forall in HF.
      pose proof (HF x (in_combine_l _ _ _ _ Hin)). apply in_combine_r in Hin.
      apply (In_nth _ _ 0) in Hin as (k & Hk & E). rewrite Linc in Hk. rewrite Ninc in E by auto.
      assert (can q y).
      { subst y. destruct (d - n <=? k)%nat; [apply Z.mod_pos_bound; lia|unfold can; lia]. }
      apply lower_sub_ok; auto; lia. }
  set (rem' := map _ _).
  assert (Lrem : length rem' = length D) by (unfold rem'; rewrite map_length, combine_length; lia).
  assert (Nrem : forall k, (k < length D)%nat -> nth k rem' 0 = (nth k rem 0 - nth k inc 0) mod q).
  { intros k Hk. unfold rem'. rewrite (nth_combine_map _ _ _ _ 0 0) by lia. auto. }
  exists rem', s. split; auto. split; auto. split.
  { apply Forall_forall. intros x Hx. apply in_map_iff in Hx as (y & <- & _). apply Z.mod_pos_bound. lia. }
  split.
  - intros k Hk. destruct (Nat.lt_ge_cases k (length D)) as [Hk'|Hk']; [|rewrite nth_overflow; lia].
    rewrite Nrem, Ninc by auto. destruct (Nat.leb_spec (d - n) k); [|lia].
    destruct (Nat.eq_dec k d) as [-> |Hne].
    + replace (d - (d - n))%nat with n by lia.
      assert (E : cong q (nth d rem 0 - (nth n D 0 * s) mod q) 0).
      { rewrite cong_mod. unfold s. rewrite cong_mod.
        replace (nth n D 0 * (nth d rem 0 * inv)) with (nth d rem 0 * (nth n D 0 * inv)) by ring.
        rewrite Hinv. exists 0. ring. }
      apply cong_eq in E. rewrite E. apply Z.mod_0_l. lia.
    + rewrite (Hz k) by lia. rewrite (HDz (k - (d - n))) by lia.
      rewrite Z.mul_0_l. reflexivity.
  - intros k Hk. rewrite Nrem, Ninc by auto. rewrite cong_mod.
    destruct (d - n <=? k)%nat; [|reflexivity]. rewrite cong_mod. rewrite Z.mul_comm. reflexivity.
Qed.

Lemma divmod_ok fuel : forall rem bound, length rem = length D -> Forall (can q) rem ->
  (forall k, (bound <= k)%nat -> nth k rem 0 = 0) -> (bound < fuel + n)%nat -> (1 <= fuel)%nat ->
  exists g : nat -> Z, (forall i, (length D - n <= i)%nat -> g i = 0) /\
  match divmod_loop fuel w q D n inv rem with
  | Done r => length r = length D /\ Forall (can q) r /\ (forall k, (n <= k)%nat -> nth k r 0 = 0) /\
      (exists k, (k < n)%nat /\ nth k r 0 <> 0) /\
      (forall k, (k < length D)%nat ->
         cong q (nth k rem 0) (nth k r 0 + conv (fun i => nth i D 0) g k))
  | Undefined => forall k, (k < length D)%nat -> cong q (nth k rem 0) (conv (fun i => nth i D 0) g k)
  | Timeout => False
  end.
Proof.
  induction fuel as [|f IH]; intros rem bound Hl HF Hz Hb Hf; [lia|]. cbn [divmod_loop].
  pose proof (leading_term_ok rem (length rem) HF (le_n _)) as HLT.
  destruct (leading_term w q rem (length rem)) as [[d c]|]; cbn [of_option obind].
  - destruct HLT as (H1 & H2 & H3 & H4).
    assert (Hz' : forall k, (d < k)%nat -> nth k rem 0 = 0).
    { intros k Hk. destruct (Nat.lt_ge_cases k (length rem)); [apply H4; lia|apply nth_overflow; auto]. }
    destruct (Nat.leb_spec n d) as [Hnd|Hnd]; cbn [negb].
    + subst c. destruct (step_ok rem d Hl HF ltac:(lia) Hz') as (rem' & s & E & Lr & Fr & Zr & Nr).
      rewrite E. cbn [of_option obind].
      assert (Hdb : (d < bound)%nat).
      { destruct (Nat.lt_ge_cases d bound); auto. exfalso. apply H3, Hz. auto. }
      destruct (IH rem' d Lr Fr Zr ltac:(lia) ltac:(lia)) as (g & Hg & HM).
      exists (fun i => g i + if (i =? d - n)%nat then s else 0). split.
      { intros i Hi. rewrite Hg by auto. destruct (Nat.eqb_spec i (d - n)); lia. }
      assert (Key : forall k, (k < length D)%nat -> forall x,
        cong q (nth k rem' 0) (x + conv (fun i => nth i D 0) g k) ->
        cong q (nth k rem 0) (x + conv (fun i => nth i D 0) (fun i => g i + (if (i =? d - n)%nat then s else 0)) k)).
      { intros k Hk x Hx. rewrite conv_add_r, conv_delta. specialize (Nr k Hk). rewrite Nr in Hx.
        set (t := if (d - n <=? k)%nat then s * nth (k - (d - n)) D 0 else 0) in *.
        replace (nth k rem 0) with (nth k rem 0 - t + t) by ring. rewrite Hx. exists 0. ring. }
      destruct (divmod_loop f w q D n inv rem') as [r| |].
      * destruct HM as (A & B & C & E' & F). repeat (split; [assumption|]). intros k Hk. apply Key; auto.
      * intros k Hk. specialize (Key k Hk 0). rewrite !Z.add_0_l in Key. apply Key. auto.
      * destruct HM.
    + exists (fun _ => 0). split; [auto|]. split; auto. split; auto. split.
      { intros k Hk. apply Hz'. lia. }
      split; [exists d; split; [lia|subst; auto]|].
      intros k Hk. unfold conv. rewrite sumn_zero by (intros; ring). rewrite Z.add_0_r. reflexivity.
  - exists (fun _ => 0). split; [auto|]. intros k Hk. rewrite HLT by lia. unfold conv.
    rewrite sumn_zero by (intros; ring). reflexivity.
Qed.
End Mul.

(** *** the remainder is unique *)
Lemma div_unique q (f : nat -> Z) n inv (c c' : list Z) (g g' : nat -> Z) (p : nat -> Z) m :
  1 < q -> (forall k, (n < k)%nat -> cong q (f k) 0) -> cong q (f n * inv) 1 ->
  length c = n -> length c' = n -> Forall (can q) c -> Forall (can q) c' ->
  (forall i, (m <= i)%nat -> g i = 0) -> (forall i, (m <= i)%nat -> g' i = 0) ->
  (forall k, cong q (p k) (nth k c 0 + conv f g k)) ->
  (forall k, cong q (p k) (nth k c' 0 + conv f g' k)) -> c = c'.
Proof.
  intros Hq Hf Hinv Lc Lc' Cc Cc' Hg Hg' H1 H2.
  set (h := fun i => g i - g' i).
  assert (Hh : forall k, cong q (nth k c' 0 - nth k c 0) (conv f h k)).
  { intros k. assert (E : conv f h k = conv f g k - conv f g' k).
    { unfold conv, h. rewrite <- sumn_sub. apply sumn_ext. intros. ring. }
    rewrite E. specialize (H1 k). specialize (H2 k). rewrite H1 in H2.
    replace (nth k c' 0 - nth k c 0) with (nth k c' 0 + conv f g' k - nth k c 0 - conv f g' k) by ring.
    rewrite <- H2. exists 0. ring. }
  assert (Z : forall d i, (m <= i + d)%nat -> cong q (h i) 0).
  { induction d as [|d IH]; intros i Hi.
    - unfold h. rewrite Hg, Hg' by lia. reflexivity.
    - specialize (Hh (n + i)%nat). rewrite !nth_overflow in Hh by lia.
      assert (E : cong q (conv f h (n + i)) (f n * h i)).
      { unfold conv. replace (S (n + i)) with (n + (1 + i))%nat by lia. rewrite sumn_split, sumn_split.
        assert (E1 : cong q (sumn n (fun j => f j * h (n + i - j)%nat)) (sumn n (fun _ => 0))).
        { apply sumn_cong. intros j Hj. rewrite (IH (n + i - j)%nat) by lia. exists 0. ring. }
        assert (E2 : cong q (sumn i (fun j => f (n + (1 + j))%nat * h (n + i - (n + (1 + j)))%nat)) (sumn i (fun _ => 0))).
        { apply sumn_cong. intros j Hj. rewrite Hf by lia. exists 0. ring. }
        rewrite E1, E2. cbn [sumn]. rewrite !sumn_zero by auto.
        replace (n + i - (n + 0))%nat with i by lia. rewrite Nat.add_0_r. exists 0. ring. }
      rewrite E in Hh. symmetry in Hh.
      replace (h i) with (h i * 1) by ring. rewrite <- Hinv.
      replace (h i * (f n * inv)) with (f n * h i * inv) by ring. rewrite Hh. exists 0. ring. }
  apply (list_eq_nth 0); [lia|]. intros k Hk.
  pose proof (Forall_nth0 q c k ltac:(lia) Cc) as B1. pose proof (Forall_nth0 q c' k ltac:(lia) Cc') as B2.
  assert (E : cong q (nth k c' 0 - nth k c 0) 0).
  { rewrite Hh. unfold conv. transitivity (sumn (S k) (fun _ => 0)).
    - apply sumn_cong. intros i Hi. rewrite (Z m) by lia. exists 0. ring.
    - rewrite sumn_zero by auto. reflexivity. }
  destruct E as [t Ht]. unfold can in *. assert (t = 0) by nia. subst t. lia.
Qed.
