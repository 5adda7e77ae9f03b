(** Properties C08-C09: RNS basis conversion and CRT interpolation. *)
From Coq Require Import ZArith List Bool Lia Znumtheory.
From Verif Require Import Words ModArith_Model ModArith_Proofs ModArith_Props
  NumTheory_Model NumTheory_Proofs ModEq RNS_Model RNS_Proofs.
Import ListNotations.
Open Scope Z_scope.

(** ** Specification vocabulary *)
Definition product (l : list Z) : Z := fold_right Z.mul 1 l.
(** [X] is a centred representative modulo [Q] *)
Definition centred (Q X : Z) : Prop := - Q < 2 * X < Q.
(** the residues of [X] *)
Definition residues (X : Z) (qs : list Z) : list Z := map (fun q => X mod q) qs.

Lemma product_prodl l : product l = prodl l.
Proof. reflexivity. Qed.

(** ** C08 *)

(** Up to two input limbs the lowered conversion maps the residues of the centred
    integer to its residues in the new basis.  Missing for a full proof: it is
    false from three limbs on (below), and for the modulus 2^(w-1)-1 the centred
    lift is wrong (C03). *)
Theorem C08_convert_basis_partial w qs ps X :
  (1 <= length qs <= 2)%nat ->
  (forall q, In q qs -> accepted_type w q /\ 1 < q /\ Z.odd q = true /\ q <> 2 ^ (w - 1) - 1) ->
  (forall p, In p ps -> accepted_type w p /\ Z.odd p = true) ->
  verify_rns qs = true -> centred (product qs) X ->
  convert_basis w qs (residues X qs) ps = Some (residues X ps).
Proof.
  intros Hlen Hq Hp Hv HX.
  assert (Hw : 1 <= w).
  { destruct qs as [|q qs]; [simpl in Hlen; lia|]. destruct (Hq q (or_introl eq_refl)) as [[]]. auto. }
  assert (Hq' : forall q, In q qs -> limb_ok w q).
  { intros q Hin. destruct (Hq q Hin) as (Ha & H1 & H2 & H3). apply accepted_bound in Ha. unfold limb_ok.
    split; [lia|split; [lia|auto]]. }
  assert (Hp' : forall p, In p ps -> target_ok w p).
  { intros p Hin. destruct (Hp p Hin) as (Ha & H2). apply accepted_bound in Ha. split; [lia|auto]. }
  assert (HO : forallb Z.odd qs && forallb Z.odd ps = true).
  { rewrite andb_true_iff, !forallb_forall. split; intros; [apply Hq|apply Hp]; auto. }
  apply verify_rns_coprime in Hv.
  unfold convert_basis.
  destruct (build_qinv_ok w 1 qs Hw ltac:(lia)) as (l & Hl & Hll & Hli); auto.
  { intros q Hin. destruct (Hq' q Hin) as (? & ? & ?). P2 w. split; [lia|]. apply Z.gcd_1_l. }
  rewrite Hl, HO. cbn [bind negb].
  assert (HM : forall m r q, 1 < q -> m mod q = r -> 0 <= r < q).
  { intros m r q ? <-. apply Z.mod_pos_bound. lia. }
  destruct qs as [|q0 [|q1 [|]]]; simpl in Hlen; try lia.
  - (* one limb *)
    destruct l as [|? ?]; simpl in Hll; try lia.
    destruct (Hq' q0 (or_introl eq_refl)) as (A1 & A2 & A3). unfold residues, centred, product in *. simpl map in *. cbn [fold_right] in HX. rewrite Z.mul_1_r in HX.
    destruct (lift_odd w q0 (X mod q0) Hw ltac:(lia) A2 A3 ltac:(apply Z.mod_pos_bound; lia))
      as (c & Hc & Hcw & Hcm & Hcb).
    cbn [compute_mrcs]. rewrite Hc. cbn [bind combine mrcs_from].
    assert (sgn w c = X).
    { destruct (mod_eq_divide (sgn w c) X q0 ltac:(lia) Hcm) as [k Hk].
      assert (k = 0) by nia. lia. }
    apply oseq_map. intros p Hin. apply limb_from_mrcs1; auto; congruence.
  - (* two limbs *)
    destruct l as [|i [|]]; simpl in Hll; try lia.
    destruct (Hli 0%nat ltac:(simpl; lia)) as [Hi1 Hi2]. simpl nth in *. cbn [firstn prodl] in Hi2.
    replace (1 * (q0 * 1) * i) with (q0 * i) in Hi2 by ring.
    pose proof (Hq' q0 ltac:(simpl; auto)) as (A1 & A2 & A3).
    pose proof (Hq' q1 ltac:(simpl; auto)) as (B1 & B2 & B3).
    unfold residues, centred, product in *. simpl map in *. cbn [fold_right] in HX.
    rewrite Z.mul_1_r in HX.
    destruct (conv2 w Hw q0 q1 (X mod q0) (X mod q1) i) as
      (c0 & c1 & Hc & W0 & W1 & M0 & M1 & R0 & R1); auto; try (apply Z.mod_pos_bound; lia);
      try (split; auto; fail); try lia.
    rewrite Hc. cbn [bind].
    assert (HXe : sgn w c0 + q0 * sgn w c1 = X).
    { assert (D : (prodl [q0; q1] | sgn w c0 + q0 * sgn w c1 - X)).
      { apply coprime_prod_divide; auto. intros q [<- |[<- |[]]].
        - apply mod_eq_divide; [lia|]. rewrite <- M0. rewrite Z.mul_comm. apply Z_mod_plus_full.
        - apply mod_eq_divide; [lia|]. auto. }
      cbn [prodl] in D. rewrite Z.mul_1_r in D. destruct D as [k Hk].
      assert (- (q0 * q1) < 2 * (sgn w c0 + q0 * sgn w c1) < q0 * q1).
      { pose proof (Zodd_ex q0 (proj1 (Zodd_bool_iff q0) A3)) as [a ?].
        pose proof (Zodd_ex q1 (proj1 (Zodd_bool_iff q1) B3)) as [b ?].
        assert (- b <= sgn w c1 <= b) by lia. nia. }
      assert (k = 0) by nia. lia. }
    apply oseq_map. intros p Hin. destruct (Hp' p Hin) as [Hpb _]. unfold convert_limb.
    destruct (find_limb p _ _) as [y|] eqn:E.
    + apply find_limb_in in E. simpl in E. destruct E as [[= <- <-]|[[= <- <-]|[]]]; auto.
    + rewrite lower_reduce_ok by (auto; lia). cbn [bind map rev app tl combine horner_macs].
      rewrite lower_reduce_ok by (auto; lia). cbn [bind]. unfold trunci.
      assert (0 <= q0 < 2 ^ w) by (P2 w; lia).
      rewrite wrap_small by auto.
      rewrite mac_wide; auto; try (apply Z.mod_pos_bound; lia).
      cbn [bind]. f_equal. apply cong_eq. rewrite !cong_mod. rewrite <- HXe. exists 0. lia.
Qed.

(** With any number of limbs, an output limb whose modulus is an input modulus
    carries the input residue. *)
Theorem C08_shared_limb w qs xs ps ys q x j :
  verify_rns qs = true -> (forall q, In q qs -> 1 < q) ->
  convert_basis w qs xs ps = Some ys ->
  In (q, x) (combine qs xs) -> nth_error ps j = Some q -> nth_error ys j = Some x.
Proof.
  intros Hv Hq H Hin Hj. apply verify_rns_coprime in Hv. unfold convert_basis in H.
  destruct (build_qinv _ _ _) as [l|]; cbn [bind] in H; [|discriminate].
  destruct (negb _); [discriminate|].
  destruct (compute_mrcs _ _ _ _) as [m|]; cbn [bind] in H; [|discriminate].
  assert (HU : forall x', In (q, x') (combine qs xs) -> x' = x).
  { clear H Hj. revert xs Hin Hv. induction qs as [|a qs IH]; intros [|b xs] Hin Hc x' Hin';
      simpl in *; try tauto.
    destruct Hc as [Hc1 Hc2].
    assert (forall z, In (a, z) (combine qs xs) -> False).
    { intros z Hz. apply in_combine_l in Hz. apply Hc1 in Hz. rewrite Z.gcd_diag in Hz.
      specialize (Hq a (or_introl eq_refl)). lia. }
    destruct Hin as [[= -> ->]|Hin], Hin' as [[= ?]|Hin']; subst; auto; try (exfalso; eauto; fail).
    eapply IH; eauto. }
  revert j ys H Hj. induction ps as [|p ps IH]; intros j ys H Hj; [destruct j; discriminate|].
  simpl in H. destruct (convert_limb w p qs xs m) as [y|] eqn:E; cbn [bind] in H; [|discriminate].
  destruct (oseq _) as [r|] eqn:E2; cbn [bind] in H; [|discriminate]. injection H as <-.
  destruct j as [|j]; simpl in *.
  - injection Hj as ->. unfold convert_limb in E.
    destruct (find_limb_some q qs xs x Hin) as [z Hz]. rewrite Hz in E. injection E as <-.
    apply find_limb_in in Hz. f_equal. auto.
  - eauto.
Qed.

(** The precomputed constants are the inverses of the partial products, for any
    number of limbs. *)
Theorem C08_inverse_products w qs :
  1 <= w -> (forall q, In q qs -> 1 < q < 2 ^ w) -> verify_rns qs = true ->
  exists l, build_qinv w 1 qs = Some l /\ length l = pred (length qs) /\
    forall i, (i < pred (length qs))%nat ->
      0 < nth i l 0 < nth (S i) qs 0 /\
      (product (firstn (S i) qs) * nth i l 0) mod nth (S i) qs 0 = 1.
Proof.
  intros Hw Hq Hv. apply verify_rns_coprime in Hv.
  destruct (build_qinv_ok w 1 qs Hw ltac:(lia)) as (l & Hl & Hll & Hli); auto.
  { intros q Hin. split; [auto|]. apply Z.gcd_1_l. }
  exists l. split; auto. split; auto. intros i Hi. rewrite product_prodl.
  specialize (Hli i Hi). rewrite Z.mul_1_l in Hli. auto.
Qed.

(** From three limbs on the conversion is wrong: the Horner step multiplies by
    the modulus of the limb being computed instead of the earlier modulus. *)
Theorem C08_three_limbs_refuted :
  exists w qs ps X, length qs = 3%nat /\
  (forall q, In q qs -> accepted_type w q /\ 1 < q /\ Z.odd q = true /\ q <> 2 ^ (w - 1) - 1) /\
  (forall p, In p ps -> accepted_type w p /\ Z.odd p = true) /\
  verify_rns qs = true /\ centred (product qs) X /\
  exists ys, convert_basis w qs (residues X qs) ps = Some ys /\ ys <> residues X ps.
Proof.
  exists 8, [3; 5; 7], [11], 2. split; [reflexivity|]. split; [|split; [|split; [|split]]].
  - intros q [<- |[<- |[<- |[]]]]; unfold accepted_type; repeat split; vm_compute; congruence.
  - intros p [<- |[]]; unfold accepted_type; repeat split; vm_compute; congruence.
  - reflexivity.
  - vm_compute. auto.
  - exists [3]. split; [reflexivity|]. discriminate.
Qed.
(** The excluded modulus 2^(w-1)-1 really goes wrong, already with one limb. *)
Theorem C08_mersenne_modulus_refuted :
  exists w q p X, accepted_type w q /\ Z.odd q = true /\ accepted_type w p /\ Z.odd p = true /\
  centred q X /\ exists ys, convert_basis w [q] [X mod q] [p] = Some ys /\ ys <> [X mod p].
Proof.
  exists 8, 127, 3, 1. unfold accepted_type, centred.
  repeat split; try (vm_compute; congruence).
  exists [0]. split; [reflexivity|discriminate].
Qed.
Print Assumptions C08_convert_basis_partial.
Print Assumptions C08_shared_limb.
Print Assumptions C08_inverse_products.
Print Assumptions C08_three_limbs_refuted.
Print Assumptions C08_mersenne_modulus_refuted.

Example C08_nonvacuous :
  verify_rns [97; 101] = true /\ centred (product [97; 101]) (-4000) /\
  residues (-4000) [97; 101] = [74; 40] /\
  convert_basis 16 [97; 101] [74; 40] [11; 97] = Some [4; 74].
Proof. vm_compute. intuition congruence. Qed.

(** ** C09 *)
Theorem C09_crt_interpolation wo wr bigq qs xs :
  1 <= wr -> accepted_type wo bigq -> product qs = bigq ->
  (forall q, In q qs -> accepted_type wr q /\ 1 < q) ->
  verify_rns qs = true -> verify_modswitch wo wr bigq qs = true ->
  Forall2 (fun q x => canonical q x) qs xs ->
  exists X, lower_modswitch_from_rns wo wr bigq (combine qs xs) = Some X /\
    canonical bigq X /\ residues X qs = xs /\
    (forall Y, canonical bigq Y -> residues Y qs = xs -> Y = X).
Proof.
  intros Hwr Hacc Hprod Hq Hv Hvm HF. apply accepted_bound in Hacc as [Hwo HQ].
  apply verify_rns_coprime in Hv. unfold verify_modswitch in Hvm.
  rewrite !andb_true_iff in Hvm. destruct Hvm as [[Hlen _] _].
  assert (HL : length qs = length xs) by (clear -HF; induction HF; simpl; auto).
  assert (Hfst : map fst (combine qs xs) = qs).
  { clear -HL. revert xs HL. induction qs; intros [|x xs] HL; simpl in *; auto; try lia. f_equal. auto. }
  assert (Hin : forall q x, In (q, x) (combine qs xs) -> 0 <= x < q).
  { clear -HF. induction HF; simpl; [tauto|]. intros q z [[= <- <-]|Hi]; auto. }
  destruct (from_rns_ok wo wr bigq (combine qs xs)) as (X & HX & HXb & HXr); auto; try lia.
  - P2 wo. lia.
  - rewrite combine_length, HL, Nat.min_id. lia.
  - intros q x Hi. split; [|auto]. apply in_combine_l in Hi. destruct (Hq q Hi) as [Ha ?].
    apply accepted_bound in Ha as [? ?]. P2 wr. lia.
  - rewrite Hfst; auto.
  - rewrite Hfst, <- product_prodl; auto.
  - exists X. split; auto. split; auto.
    assert (HR : residues X qs = xs).
    { clear -HXr HL. unfold residues. revert xs HXr HL.
      induction qs as [|q qs IH]; intros [|x xs] HXr HL; simpl in *; auto; try lia.
      f_equal; auto. }
    split; auto. intros Y HY HYr. rewrite <- HR in HYr.
    apply (crt_unique qs bigq); auto.
    + intros; apply Hq; auto.
    + intros q Hi. unfold residues in HYr. apply (ext_in_map HYr); auto.
Qed.
(** The verifier multiplies the moduli in the width of the output type, so the
    hypothesis [product qs = bigq] does not follow from it. *)
Theorem C09_verifier_wraps_refuted :
  exists wo wr bigq qs xs X, accepted_type wo bigq /\
  (forall q, In q qs -> accepted_type wr q /\ 1 < q) /\
  verify_rns qs = true /\ verify_modswitch wo wr bigq qs = true /\
  Forall2 (fun q x => canonical q x) qs xs /\
  lower_modswitch_from_rns wo wr bigq (combine qs xs) = Some X /\ residues X qs <> xs.
Proof.
  exists 8, 8, 17, [3; 7; 13], [2; 3; 2], 12. unfold accepted_type.
  split; [vm_compute; intuition congruence|]. split.
  { intros q [<- |[<- |[<- |[]]]]; repeat split; vm_compute; congruence. }
  split; [reflexivity|]. split; [reflexivity|]. split.
  { repeat constructor; vm_compute; congruence. }
  split; [reflexivity|]. discriminate.
Qed.
Print Assumptions C09_crt_interpolation.
Print Assumptions C09_verifier_wraps_refuted.

Example C09_nonvacuous :
  accepted_type 16 105 /\ product [3; 5; 7] = 105 /\ verify_rns [3; 5; 7] = true /\
  verify_modswitch 16 8 105 [3; 5; 7] = true /\
  Forall2 (fun q x => canonical q x) [3; 5; 7] [2; 3; 2] /\
  lower_modswitch_from_rns 16 8 105 (combine [3; 5; 7] [2; 3; 2]) = Some 23.
Proof.
  unfold accepted_type. repeat split; try (vm_compute; congruence).
  repeat constructor; vm_compute; congruence.
Qed.
