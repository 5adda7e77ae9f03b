(** Lemmas for C82. *)
From Coq Require Import Ascii String List Bool NArith ZArith Lia.
From Verif Require Import Lut_Spec Lut_Model.
Import ListNotations.
Local Open Scope N_scope.

Lemma assemble_testbit count : forall i ps v, assemble i count ps = Some v ->
  forall j, N.testbit v j = if (N.of_nat i <=? j) && (j <? N.of_nat (i + count)) then nth (N.to_nat j - i) ps false else false.
Proof.
  induction count as [|count IH]; intros i ps v H j.
  - injection H as <-. rewrite N.bits_0. destruct (N.leb_spec (N.of_nat i) j), (N.ltb_spec j (N.of_nat (i + 0))); auto; lia.
  - destruct ps as [|p ps]; [discriminate H|]. cbn [assemble] in H. destruct (Nat.ltb i 31); [|discriminate H].
    destruct (assemble (S i) count ps) as [v'|] eqn:E; [|discriminate H]. injection H as <-.
    rewrite N.lor_spec. rewrite (IH _ _ _ E j). destruct (N.leb_spec (N.of_nat i) j) as [Hi|Hi].
    + rewrite N.shiftl_spec_high' by auto. destruct (N.eq_dec j (N.of_nat i)) as [->|Hne].
      * replace (N.of_nat i - N.of_nat i) with 0 by lia. replace (N.to_nat (N.of_nat i) - i)%nat with 0%nat by lia. cbn [nth].
        destruct (N.leb_spec (N.of_nat (S i)) (N.of_nat i)); [lia|]. cbn [andb]. rewrite orb_false_r.
        destruct (N.ltb_spec (N.of_nat i) (N.of_nat (i + S count))); [|lia]. destruct p; reflexivity.
      * replace (N.testbit (N.b2n p) (j - N.of_nat i)) with false.
        2:{ symmetry. destruct p; [|apply N.bits_0]. change (N.b2n true) with 1. rewrite <- (N.pow_0_r 2). apply N.pow2_bits_false. lia. }
        cbn [orb andb]. destruct (N.leb_spec (N.of_nat (S i)) j); [|lia]. cbn [andb].
        replace (i + S count)%nat with (S i + count)%nat by lia. destruct (j <? _); auto.
        replace (N.to_nat j - i)%nat with (S (N.to_nat j - S i)) by lia. reflexivity.
    + cbn [andb]. rewrite N.shiftl_spec_low by auto. destruct (N.leb_spec (N.of_nat (S i)) j); [lia|]. reflexivity.
Qed.
Lemma assemble_some count : forall i ps, (count <= length ps)%nat -> (i + count <= 31)%nat -> exists v, assemble i count ps = Some v.
Proof.
  induction count as [|count IH]; intros i ps H H31; [eexists; reflexivity|].
  destruct ps as [|p ps]; [cbn in H; lia|]. cbn [assemble]. destruct (Nat.ltb_spec i 31); [|lia].
  destruct (IH (S i) ps) as [v ->]; [cbn in H; lia|lia|]. eexists; reflexivity.
Qed.

Lemma msb_value_app l b : msb_value (l ++ [b]) = 2 * msb_value l + N.b2n b.
Proof. unfold msb_value. rewrite fold_left_app. reflexivity. Qed.
Lemma msb_value_rev l : msb_value (rev l) = lsb_value l.
Proof. induction l as [|b l IH]; [reflexivity|]. cbn [rev lsb_value]. rewrite msb_value_app, IH. lia. Qed.
Lemma lsb_value_bound l : lsb_value l < 2 ^ N.of_nat (length l).
Proof.
  induction l as [|b l IH]; [cbn; lia|]. cbn [lsb_value length]. rewrite Nat2N.inj_succ, N.pow_succ_r'. destruct b; cbn [N.b2n]; lia.
Qed.
Lemma msb_value_bound l : msb_value l < 2 ^ N.of_nat (length l).
Proof. rewrite <- (rev_involutive l), msb_value_rev, rev_length. apply lsb_value_bound. Qed.
Lemma lsb_value_app l b : lsb_value (l ++ [b]) = lsb_value l + N.b2n b * 2 ^ N.of_nat (length l).
Proof.
  induction l as [|x l IH]; [cbn; destruct b; reflexivity|]. cbn [lsb_value app length]. rewrite IH, Nat2N.inj_succ, N.pow_succ_r'. lia.
Qed.

Lemma N_pow2_nat n : N.of_nat (2 ^ n) = 2 ^ N.of_nat n.
Proof. induction n as [|n IH]; [reflexivity|]. rewrite Nat2N.inj_succ, N.pow_succ_r', <- IH. cbn [Nat.pow]. lia. Qed.

Lemma wrap_small w x : (0 <= x < 2 ^ Z.of_nat w)%Z -> wrap w x = Z.to_N x.
Proof. intro H. unfold wrap. rewrite Z.mod_small; auto. Qed.
Lemma pow_ge w n : (n <= w)%nat -> (2 ^ Z.of_nat n <= 2 ^ Z.of_nat w)%Z.
Proof. intro H. apply Z.pow_le_mono_r; lia. Qed.
Lemma wrap_mod w x y : wrap w (x + Z.of_N (wrap w y)) = wrap w (x + y).
Proof.
  unfold wrap. rewrite Z2N.id by (apply Z.mod_pos_bound; apply Z.pow_pos_nonneg; lia). rewrite Zplus_mod_idemp_r. reflexivity.
Qed.
Lemma wrap_mod_l w x y : wrap w (Z.of_N (wrap w x) + y) = wrap w (x + y).
Proof. rewrite Z.add_comm, wrap_mod. f_equal. lia. Qed.

Lemma size_le_pow t n : t < 2 ^ n -> N.size t <= n.
Proof.
  intro H. destruct (N.eq_dec t 0) as [->|Hn]; [cbn; lia|]. rewrite N.size_log2 by auto.
  apply N.log2_lt_pow2 in H; lia.
Qed.

Lemma fold_add_wrap w : forall l x, fold_left (add w) (map (wrap w) l) (wrap w x) = wrap w (fold_left Z.add l x).
Proof.
  induction l as [|y l IH]; intro x; [reflexivity|]. cbn [map fold_left]. unfold add at 2. rewrite wrap_mod_l, wrap_mod. apply IH.
Qed.
Lemma fold_left_right : forall l x, fold_left Z.add l x = (x + fold_right Z.add 0 l)%Z.
Proof. induction l as [|y l IH]; intro x; cbn [fold_left fold_right]; [lia|]. rewrite IH. lia. Qed.
Lemma mul_scalar_bit w b c : mul_scalar w (N.b2n b) c = wrap w (Z.b2z b * c).
Proof.
  destruct b; unfold mul_scalar; cbn [N.b2n Z.b2z].
  - rewrite !Z.mul_1_l. rewrite <- (Z.add_0_l (Z.of_N _)), wrap_mod. reflexivity.
  - reflexivity.
Qed.
(** The message that reaches the bootstrap is the linear combination modulo 2^w. *)
Lemma expand_lincomb_message w ins cs t : expand_lincomb w ins cs t =
  match combine ins cs with [] => None | _ => if bootstrap_verify w t then Some (N.testbit t (wrap w (linear ins cs))) else None end.
Proof.
  unfold expand_lincomb, linear. destruct (combine ins cs) as [|[b c] l]; [reflexivity|]. cbn [map fst snd fold_right].
  rewrite mul_scalar_bit.
  replace (map (fun ic : bool * Z => mul_scalar w (N.b2n (fst ic)) (snd ic)) l)
     with (map (wrap w) (map (fun ic : bool * Z => (Z.b2z (fst ic) * snd ic)%Z) l))
     by (rewrite map_map; apply map_ext; intros [b' c']; cbn [fst snd]; rewrite mul_scalar_bit; reflexivity).
  rewrite fold_add_wrap, fold_left_right. reflexivity.
Qed.

Lemma find_lut_size_ge ops : forall m, (m <= fold_left (fun m o => Nat.max m (comb_size o)) ops m)%nat.
Proof. induction ops as [|o ops IH]; intro m; cbn [fold_left]; [lia|]. specialize (IH (Nat.max m (comb_size o))). lia. Qed.
Lemma find_lut_size_in ops o : In o ops -> forall m, (comb_size o <= fold_left (fun m o => Nat.max m (comb_size o)) ops m)%nat.
Proof.
  induction ops as [|o' ops IH]; intros H m; [destruct H|]. cbn [fold_left]. destruct H as [->|H]; [|apply IH; auto].
  pose proof (find_lut_size_ge ops (Nat.max m (comb_size o))). lia.
Qed.

Lemma testbit_mod_pow t n j : j < n -> N.testbit (t mod 2 ^ n) j = N.testbit t j.
Proof. intro H. apply N.mod_pow2_bits_low; auto. Qed.

Lemma build_select_spec : forall ins lut, lut < 2 ^ (2 ^ N.of_nat (length ins)) ->
  build_select ins lut = N.testbit lut (msb_value (map negb ins)).
Proof.
  induction ins as [|b ins IH]; intros lut H.
  - cbn in *. destruct (N.eqb_spec lut 0) as [->|Hn]; [reflexivity|]. replace lut with 1 by lia. reflexivity.
  - cbn [build_select]. set (half := 2 ^ N.of_nat (length ins)).
    assert (Hm : msb_value (map negb (b :: ins)) = msb_value (map negb ins) + N.b2n (negb b) * half).
    { cbn [map]. rewrite <- (rev_involutive (negb b :: _)), msb_value_rev. cbn [rev]. rewrite lsb_value_app, rev_length, map_length.
      rewrite <- msb_value_rev, rev_involutive. reflexivity. }
    assert (Hb : msb_value (map negb ins) < half) by (unfold half; rewrite <- (map_length negb); apply msb_value_bound).
    assert (Hp : 0 < 2 ^ half) by (apply N.neq_0_lt_0, N.pow_nonzero; lia).
    rewrite Hm. destruct b; cbn [negb N.b2n]; rewrite IH by (apply N.mod_lt; lia); rewrite testbit_mod_pow by auto.
    + f_equal. lia.
    + rewrite N.shiftr_spec'. f_equal. lia.
Qed.
Lemma add_small w x y : (Z.of_N (x + y) < 2 ^ Z.of_nat w)%Z -> add w x y = x + y.
Proof. intro H. unfold add. rewrite wrap_small by lia. lia. Qed.
Lemma shl_bit w b k : (Z.of_N (2 ^ k) < 2 ^ Z.of_nat w)%Z -> shl w (N.b2n b) k = 2 ^ k * N.b2n b.
Proof. intro H. unfold shl. rewrite N.shiftl_mul_pow2. rewrite wrap_small by (destruct b; cbn [N.b2n]; lia). lia. Qed.
