(** Properties C01-C07: the mod_arith dialect. *)
From Coq Require Import ZArith List Bool Lia.
From Verif Require Import Words ModArith_Model ModArith_Proofs.
Import ListNotations.
Open Scope Z_scope.

(** ** Specification vocabulary (independent of the model) *)

(** the type [mod_arith.int<q : iW>] passes the verifier and has a non-zero modulus *)
Definition accepted_type (w q : Z) : Prop := 1 <= w /\ 0 < q /\ verify_type w q = true.
Definition canonical (q x : Z) : Prop := 0 <= x < q.
(** [r] is the representative of [v] modulo [q] in [-q/2, q/2) *)
Definition balanced_rep (q v r : Z) : Prop := r mod q = v mod q /\ - q <= 2 * r < q.

Lemma accepted_bound w q : accepted_type w q -> 1 <= w /\ 0 < q < 2 ^ (w - 1).
Proof. intros (H1 & H2 & H3). rewrite verify_type_spec in H3 by lia. lia. Qed.

(** ** C01 *)
Theorem C01_add w q a b : accepted_type w q -> canonical q a -> canonical q b ->
  lower_add w q a b = Some ((a + b) mod q).
Proof. intros H. apply accepted_bound in H as [? ?]. apply lower_add_ok; auto. Qed.
Theorem C01_sub w q a b : accepted_type w q -> canonical q a -> canonical q b ->
  lower_sub w q a b = Some ((a - b) mod q).
Proof. intros H. apply accepted_bound in H as [? ?]. apply lower_sub_ok; auto. Qed.
Theorem C01_mul w q a b : accepted_type w q -> canonical q a -> canonical q b ->
  lower_mul w q a b = Some ((a * b) mod q).
Proof. intros H. apply accepted_bound in H as [? ?]. apply lower_mul_ok; auto. Qed.
Theorem C01_mac w q a b c : accepted_type w q ->
  canonical q a -> canonical q b -> canonical q c ->
  lower_mac w q a b c = Some ((a * b + c) mod q).
Proof. intros H. apply accepted_bound in H as [? ?]. apply lower_mac_ok; auto. Qed.
(** The verifier does not exclude modulus zero, for which the code is undefined. *)
Theorem C01_zero_modulus_refuted :
  exists w q, verify_type w q = true /\ lower_add w q 0 0 = None.
Proof. exists 8, 0. split; reflexivity. Qed.
Print Assumptions C01_add.
Print Assumptions C01_sub.
Print Assumptions C01_mul.
Print Assumptions C01_mac.
Print Assumptions C01_zero_modulus_refuted.

Example C01_nonvacuous : accepted_type 8 127 /\ canonical 127 126 /\
  lower_add 8 127 126 126 = Some 125 /\ lower_sub 8 127 0 126 = Some 1 /\
  lower_mul 8 127 126 126 = Some 1 /\ lower_mac 8 127 126 126 126 = Some 0.
Proof. unfold accepted_type, canonical. vm_compute. intuition congruence. Qed.

(** ** C02 *)
Theorem C02_reduce w q x : accepted_type w q -> is_word w x ->
  lower_reduce w q x = Some (sgn w x mod q).
Proof. intros H. apply accepted_bound in H as [? ?]. apply lower_reduce_ok; auto. Qed.
Print Assumptions C02_reduce.
Example C02_nonvacuous : accepted_type 8 17 /\ is_word 8 254 /\ sgn 8 254 = -2 /\
  lower_reduce 8 17 254 = Some 15.
Proof. unfold accepted_type, is_word. vm_compute. intuition congruence. Qed.

(** ** C03 *)
Theorem C03_standard_lift w q x : accepted_type w q -> canonical q x ->
  lower_lift_standard w q x = Some x.
Proof.
  intros H Hx. apply accepted_bound in H as [? ?]. unfold canonical in Hx.
  pose proof (pow2_double w ltac:(lia)).
  rewrite lift_standard_ok by (auto; unfold is_word; lia).
  unfold sgn. destruct (Z.ltb_spec x (2 ^ (w - 1))); [|lia]. rewrite Z.mod_small; auto.
Qed.
(** holds for every accepted modulus except q = 2^(w-1) - 1 *)
Theorem C03_centered_lift_partial w q x : accepted_type w q -> q <> 2 ^ (w - 1) - 1 ->
  canonical q x ->
  exists r, lower_lift_centered w q x = Some r /\ balanced_rep q x (sgn w r).
Proof.
  intros H Hn Hx. apply accepted_bound in H as [Hw Hq]. unfold canonical in Hx.
  pose proof (pow2_double w ltac:(lia)).
  destruct (lift_centered_ok w q Hw Hq x) as (r & H1 & H2 & H3);
    [lia | unfold is_word; lia |].
  exists r. split; auto. split; auto. rewrite H2. f_equal.
  unfold sgn. destruct (Z.ltb_spec x (2 ^ (w - 1))); lia.
Qed.
(** modulus 127 stored in i8: q + 1 overflows and no value is ever lifted to
    a negative representative correctly *)
Theorem C03_centered_lift_refuted :
  exists w q x, accepted_type w q /\ canonical q x /\
  forall r, lower_lift_centered w q x = Some r -> ~ balanced_rep q x (sgn w r).
Proof.
  exists 8, 127, 0. split; [unfold accepted_type; vm_compute; intuition congruence|].
  split; [unfold canonical; lia|]. intros r H. vm_compute in H. injection H as <-.
  unfold balanced_rep. vm_compute. intuition congruence.
Qed.
Print Assumptions C03_standard_lift.
Print Assumptions C03_centered_lift_partial.
Print Assumptions C03_centered_lift_refuted.
Example C03_nonvacuous : accepted_type 8 17 /\ 17 <> 2 ^ (8 - 1) - 1 /\ canonical 17 9 /\
  lower_lift_centered 8 17 9 = Some 248 /\ sgn 8 248 = -8 /\ balanced_rep 17 9 (-8).
Proof. unfold accepted_type, canonical, balanced_rep. vm_compute. intuition congruence. Qed.

(** ** C04 *)
(** [wa] is the width of the modulus attribute; the lowering needs 3w bits of it. *)
Theorem C04_barrett win wa q x : 1 < q -> verify_barrett win q = true ->
  3 * active_bits (q - 1) <= wa -> is_word win x -> x < q * q ->
  lower_barrett win wa q x = Some (x mod q) \/ lower_barrett win wa q x = Some (x mod q + q).
Proof. exact (lower_barrett_ok win wa q x). Qed.
Theorem C04_subifge w q x : 0 < q -> 0 <= x < 2 * q -> is_word w x ->
  lower_subifge w x q = x mod q.
Proof. intros ? ? [_ ?]. apply subifge_ok; auto. Qed.
Theorem C04_barrett_then_subifge win wa q x : 1 < q -> verify_barrett win q = true ->
  3 * active_bits (q - 1) <= wa -> is_word win x -> x < q * q ->
  exists r, lower_barrett win wa q x = Some r /\ 0 <= r < 2 * q /\
            r mod q = x mod q /\ lower_subifge win r q = x mod q.
Proof.
  intros H1 H2 H3 H4 H5. pose proof (Z.mod_pos_bound x q ltac:(lia)).
  assert (forall r, lower_barrett win wa q x = Some r -> r < 2 ^ win) as Hb.
  { intros r. unfold lower_barrett. destruct (wa <? _); [discriminate|]. cbv zeta.
    destruct (divui _ _ _); cbn [bind]; [|discriminate].
    destruct (shrui _ _ _); cbn [bind]; [|discriminate].
    unfold trunci, wrap. intros [= <-]. apply Z.mod_pos_bound. destruct H4.
    destruct (Z.ltb_spec win 0); [rewrite Z.pow_neg_r in *; lia|].
    apply Z.pow_pos_nonneg; lia. }
  destruct (lower_barrett_ok win wa q x H1 H2 H3 H4 H5) as [E|E];
    (eexists; split; [exact E|]; split; [lia|]).
  - rewrite Z.mod_mod by lia. split; auto. rewrite subifge_ok; try lia; auto.
    apply Z.mod_mod; lia.
  - rewrite <- (Z.mul_1_l q) at 2. rewrite Z_mod_plus_full, Z.mod_mod by lia. split; auto.
    rewrite subifge_ok; try lia; auto.
    rewrite <- (Z.mul_1_l q) at 2. rewrite Z_mod_plus_full, Z.mod_mod by lia. auto.
Qed.
(** a 24-bit modulus in a 64-bit attribute aborts the compiler *)
Theorem C04_narrow_attribute_refuted :
  exists win wa q, 1 < q /\ verify_barrett win q = true /\ active_bits q <= wa /\
    lower_barrett win wa q 0 = None.
Proof. exists 32, 64, 16777213. vm_compute. intuition congruence. Qed.
Print Assumptions C04_barrett.
Print Assumptions C04_subifge.
Print Assumptions C04_barrett_then_subifge.
Print Assumptions C04_narrow_attribute_refuted.
Example C04_nonvacuous : verify_barrett 10 17 = true /\ 3 * active_bits (17 - 1) <= 64 /\
  is_word 10 288 /\ 288 < 17 * 17 /\ lower_barrett 10 64 17 288 = Some 16 /\
  (* the unreduced outcome also occurs *)
  lower_barrett 10 64 17 255 = Some 17 /\ lower_subifge 10 17 17 = 0.
Proof. unfold is_word. vm_compute. intuition congruence. Qed.

(** ** C05 *)
(** true except for the single value x = (q-1)/2 of an odd modulus *)
Theorem C05_mod_switch_partial wq q wp p x :
  accepted_type wq q -> accepted_type wp p -> canonical q x ->
  2 * x <> q - 1 ->
  exists r, balanced_rep q x r /\ lower_modswitch wq q wp p x = Some (r mod p).
Proof.
  intros H1 H2 Hx Hn. apply accepted_bound in H1 as [? ?]. apply accepted_bound in H2 as [? ?].
  unfold canonical in Hx. exists (if x <? q / 2 then x else x - q). split.
  - pose proof (Z.div_mod q 2 ltac:(lia)). pose proof (Z.mod_pos_bound q 2 ltac:(lia)).
    split; destruct (Z.ltb_spec x (q / 2)); try lia.
    replace (x - q) with (x + (-1) * q) by lia. apply Z_mod_plus_full.
  - apply modswitch_ok; auto.
Qed.
Theorem C05_mod_switch_refuted :
  exists wq q wp p x, accepted_type wq q /\ accepted_type wp p /\ canonical q x /\
  forall r, balanced_rep q x r -> lower_modswitch wq q wp p x <> Some (r mod p).
Proof.
  exists 8, 7, 8, 5, 3. repeat split; try (vm_compute; congruence); unfold canonical; try lia.
  intros r [H1 H2]. assert (r = 3).
  { pose proof (Z.div_mod r 7). change (3 mod 7) with 3 in H1. lia. }
  subst. vm_compute. congruence.
Qed.
(** switching to RNS reduces the non-negative representative *)
Theorem C05_mod_switch_to_rns wq q wr ms x :
  accepted_type wq q -> Forall (accepted_type wr) ms -> 1 <= wr -> canonical q x ->
  lower_modswitch_to_rns wq wr ms x = Some (map (fun m => x mod m) ms).
Proof.
  intros _ H Hw _. apply modswitch_to_rns_ok; auto.
  eapply Forall_impl; [|exact H]. intros m Hm. apply accepted_bound in Hm. tauto.
Qed.
Print Assumptions C05_mod_switch_partial.
Print Assumptions C05_mod_switch_refuted.
Print Assumptions C05_mod_switch_to_rns.
Example C05_nonvacuous : accepted_type 8 17 /\ accepted_type 16 300 /\ canonical 17 15 /\
  2 * 15 <> 17 - 1 /\ balanced_rep 17 15 (-2) /\ lower_modswitch 8 17 16 300 15 = Some 298.
Proof. unfold accepted_type, canonical, balanced_rep. vm_compute. intuition congruence. Qed.

(** ** C06 *)
Theorem C06_fold_matches_lowering_partial w q a b c : accepted_type w q ->
  canonical q a -> canonical q b -> canonical q c ->
  fold_binop MAdd w q a b = lower_add w q a b /\
  fold_binop MSub w q a b = lower_sub w q a b /\
  fold_binop MMul w q a b = lower_mul w q a b /\
  fold_mac w q a b c = lower_mac w q a b c /\
  fold_constant w q a = Some (lower_constant a) /\
  lower_add w q a b <> None.
Proof.
  intros H Ha Hb Hc. apply accepted_bound in H as [? ?].
  rewrite fold_add_ok, fold_sub_ok, fold_mul_ok, fold_mac_ok by auto.
  rewrite lower_add_ok, lower_sub_ok, lower_mul_ok, lower_mac_ok by auto.
  repeat split; auto; try congruence.
  unfold fold_constant, lower_constant. rewrite remui_pos by lia. unfold canonical in *.
  pose proof (pow2_double w ltac:(lia)).
  rewrite wrap_small by lia. rewrite Z.mod_small; auto.
Qed.
(** non-negative literals: accepted exactly when they fit in the storage word, and folded to
    their residue *)
Theorem C06_literal w q v : accepted_type w q -> 0 <= v ->
  (v < 2 ^ w -> exists c, parse_constant w v = Some c /\ 0 <= c < 2 ^ w /\ fold_constant w q c = Some (v mod q)) /\
  (2 ^ w <= v -> parse_constant w v = None).
Proof.
  intros H Hv. apply accepted_bound in H as [? ?]. unfold parse_constant.
  replace (v <? 0) with false by lia. pose proof (active_bits_bound v w ltac:(lia) Hv) as E.
  split; intros Hb.
  - replace (active_bits v <=? w) with true by (symmetry; apply Z.leb_le; tauto).
    exists v. split; auto. split; [lia|]. unfold fold_constant. rewrite remui_pos by lia.
    rewrite wrap_small by lia. reflexivity.
  - destruct (Z.leb_spec (active_bits v) w); auto. tauto || lia.
Qed.
Print Assumptions C06_literal.
(** a literal -1 of type int<17 : i32> is folded to 0 although it denotes 16 *)
Theorem C06_negative_literal_refuted :
  exists w q v c, accepted_type w q /\ parse_constant w v = Some c /\
    fold_constant w q c <> Some (v mod q).
Proof. exists 32, 17, (-1), (2 ^ 32 - 1). vm_compute. intuition congruence. Qed.
(** non-canonical constants: adding the literals -1 and 1 modulo 7 in i4 gives
    a different result folded and lowered *)
Theorem C06_fold_matches_lowering_refuted :
  exists w q v1 v2 c1 c2 d1 d2, accepted_type w q /\
    parse_constant w v1 = Some c1 /\ parse_constant w v2 = Some c2 /\
    fold_constant w q c1 = Some d1 /\ fold_constant w q c2 = Some d2 /\
    fold_binop MAdd w q d1 d2 <> lower_add w q (lower_constant c1) (lower_constant c2).
Proof. exists 4, 7, (-1), 1, 15, 1, 1, 1. vm_compute. intuition congruence. Qed.
Print Assumptions C06_fold_matches_lowering_partial.
Print Assumptions C06_negative_literal_refuted.
Print Assumptions C06_fold_matches_lowering_refuted.
Example C06_nonvacuous : accepted_type 8 127 /\ canonical 127 100 /\
  fold_binop MMul 8 127 100 100 = Some 94 /\ lower_mul 8 127 100 100 = Some 94.
Proof. unfold accepted_type, canonical. vm_compute. intuition congruence. Qed.

(** ** C07 *)
(** constants in the expression are canonical (see C06 for the others) *)
Fixpoint canonical_constants (q : Z) (e : mexpr) : Prop :=
  match e with
  | EVar _ => True
  | EConst c => canonical q c
  | EAdd a b | ESub a b | EMul a b => canonical_constants q a /\ canonical_constants q b
  | EMac a b c => canonical_constants q a /\ canonical_constants q b /\ canonical_constants q c
  end.
(** the mathematical value of an expression *)
Fixpoint meaning (env : nat -> Z) (e : mexpr) : Z :=
  match e with
  | EVar v => env v
  | EConst c => c
  | EAdd a b => meaning env a + meaning env b
  | ESub a b => meaning env a - meaning env b
  | EMul a b => meaning env a * meaning env b
  | EMac a b c => meaning env a * meaning env b + meaning env c
  end.
Lemma meaning_eval q env e : meaning env e = eval q env e.
Proof. induction e; cbn; congruence. Qed.
Lemma canonical_constants_ok q e : canonical_constants q e -> consts_ok q e.
Proof. induction e; cbn; unfold canonical in *; intuition auto. Qed.

(** whole expressions are lowered correctly *)
Theorem C01_expression w q env e : accepted_type w q -> (forall v, canonical q (env v)) ->
  canonical_constants q e -> run w q env e = Some (meaning env e mod q).
Proof.
  intros H He Hc. apply accepted_bound in H as [? ?]. rewrite (meaning_eval q).
  apply run_ok; auto using canonical_constants_ok.
Qed.
(** any sequence of canonicalisations, mac formations and constant folds leaves
    the lowered program's result unchanged *)
Theorem C07_rewrites_preserve w q env e e' : accepted_type w q ->
  (forall v, canonical q (env v)) -> canonical_constants q e ->
  rewrites w q e e' ->
  run w q env e' = run w q env e /\ run w q env e' = Some (meaning env e mod q).
Proof.
  intros H He Hc Hr. pose proof (C01_expression w q env e H He Hc) as E.
  apply accepted_bound in H as [? ?].
  rewrite (rewrites_ok w q env e e'); auto using canonical_constants_ok.
Qed.
Print Assumptions C01_expression.
Print Assumptions C07_rewrites_preserve.
Example C07_nonvacuous :
  let e := ESub (EMul (EVar 0) (EConst 16)) (EAdd (EVar 1) (EConst 3)) in
  exists e', e' <> e /\ rewrites 8 17 e e' /\ canonical_constants 17 e /\ accepted_type 8 17 /\
    run 8 17 (fun v => if Nat.eqb v 0 then 5 else 7) e' = Some 2.
Proof.
  exists (ESub (EConst 0) (EAdd (EVar 0) (EAdd (EVar 1) (EConst 3)))). cbn zeta.
  repeat split; try (vm_compute; congruence).
  eapply rw_step; [|apply rw_refl].
  apply (rs_root 8 17 SubMulNegativeOneLhs); [|reflexivity].
  unfold all_patterns. simpl. tauto.
Qed.
