(** Lemmas about the mod_arith model. *)
From Coq Require Import ZArith List Bool Lia.
From Coq Require Import ZifyBool.
From Verif Require Import Words ModArith_Model.
Import ListNotations.
Open Scope Z_scope.

Lemma pow2_pos w : 0 <= w -> 0 < 2 ^ w.
Proof. intros; apply Z.pow_pos_nonneg; lia. Qed.

Lemma pow2_double w : 1 <= w -> 2 ^ w = 2 * 2 ^ (w - 1).
Proof. intros; rewrite <- Z.pow_succ_r by lia; f_equal; lia. Qed.

Lemma active_bits_bound x n : 0 <= n -> 0 <= x -> (active_bits x <= n <-> x < 2 ^ n).
Proof.
  intros Hn Hx. unfold active_bits. destruct (x <=? 0) eqn:E.
  - assert (x = 0) by lia. subst. pose proof (pow2_pos n Hn). lia.
  - assert (0 < x) by lia. split; intros.
    + apply Z.log2_lt_pow2; lia.
    + apply Z.log2_lt_pow2 in H0; lia.
Qed.

Lemma active_bits_nonneg x : 0 <= active_bits x.
Proof. unfold active_bits. destruct (x <=? 0); [lia|]. pose proof (Z.log2_nonneg x); lia. Qed.

Lemma verify_type_spec w q :
  1 <= w -> 0 <= q -> (verify_type w q = true <-> q < 2 ^ (w - 1)).
Proof.
  intros. unfold verify_type. rewrite Z.leb_le. apply active_bits_bound; lia.
Qed.

Lemma wrap_small w x : 0 <= x < 2 ^ w -> wrap w x = x.
Proof. intros; unfold wrap; apply Z.mod_small; auto. Qed.

Lemma remui_pos w a b : 0 < b -> remui w a b = Some (a mod b).
Proof. intros; unfold remui. replace (b =? 0) with false by lia. auto. Qed.

Ltac P2 w := pose proof (pow2_double w ltac:(lia)); pose proof (pow2_pos (w - 1) ltac:(lia)).

Section Ops.
Variables w q : Z.
Hypothesis Hw : 1 <= w.
Hypothesis Hq : 0 < q < 2 ^ (w - 1).

Lemma w_ge_2 : 2 <= w.
Proof. destruct (Z.eq_dec w 1); [subst; simpl in Hq; lia | lia]. Qed.

Lemma pow2_dbl_width : 2 ^ (2 * w) = 2 ^ w * 2 ^ w.
Proof. rewrite <- Z.pow_add_r by lia. f_equal; lia. Qed.

Lemma lower_add_ok a b : 0 <= a < q -> 0 <= b < q -> lower_add w q a b = Some ((a + b) mod q).
Proof.
  intros. unfold lower_add, addi. rewrite remui_pos by lia. P2 w.
  rewrite wrap_small by lia. auto.
Qed.

Lemma lower_sub_ok a b : 0 <= a < q -> 0 <= b < q -> lower_sub w q a b = Some ((a - b) mod q).
Proof.
  intros. unfold lower_sub, addi, subi, wrap. rewrite remui_pos by lia. P2 w.
  rewrite Zplus_mod_idemp_l. rewrite (Z.mod_small (a - b + q)) by lia.
  rewrite <- (Z_mod_plus_full (a - b) 1 q). do 2 f_equal; lia.
Qed.

Lemma lower_mul_ok a b : 0 <= a < q -> 0 <= b < q -> lower_mul w q a b = Some ((a * b) mod q).
Proof.
  intros. unfold lower_mul, muli, extui, trunci. rewrite remui_pos by lia. cbn [bind].
  P2 w. rewrite (wrap_small (2 * w)).
  - rewrite wrap_small; auto. pose proof (Z.mod_pos_bound (a * b) q). lia.
  - rewrite pow2_dbl_width. nia.
Qed.

Lemma lower_mac_ok a b c : 0 <= a < q -> 0 <= b < q -> 0 <= c < q ->
  lower_mac w q a b c = Some ((a * b + c) mod q).
Proof.
  intros. unfold lower_mac, muli, addi, extui, trunci. rewrite remui_pos by lia. cbn [bind].
  P2 w. rewrite (wrap_small (2 * w) (a * b)) by (rewrite pow2_dbl_width; nia).
  rewrite (wrap_small (2 * w)).
  - rewrite wrap_small; auto. pose proof (Z.mod_pos_bound (a * b + c) q). lia.
  - rewrite pow2_dbl_width. nia.
Qed.

Lemma sgn_q : sgn w q = q.
Proof. unfold sgn. replace (q <? 2 ^ (w - 1)) with true by lia. auto. Qed.

Lemma sgn_range x : is_word w x -> - 2 ^ (w - 1) <= sgn w x < 2 ^ (w - 1).
Proof. unfold is_word, sgn. P2 w. destruct (x <? 2 ^ (w - 1)) eqn:E; lia. Qed.

Lemma sgn_wrap_small y : - 2 ^ (w - 1) <= y < 2 ^ (w - 1) -> sgn w (wrap w y) = y.
Proof.
  intros. P2 w. unfold sgn, wrap. destruct (Z.ltb_spec y 0).
  - rewrite <- (Z_mod_plus_full y 1), Z.mod_small by lia.
    destruct (Z.ltb_spec (y + 1 * 2 ^ w) (2 ^ (w - 1))); lia.
  - rewrite Z.mod_small by lia. destruct (Z.ltb_spec y (2 ^ (w - 1))); lia.
Qed.

Lemma remsi_q x : is_word w x -> remsi w x q = Some (wrap w (Z.rem (sgn w x) q)).
Proof.
  intros. unfold remsi. P2 w. rewrite sgn_q.
  pose proof w_ge_2. P2 (w - 1).
  replace (q =? 0) with false by lia. replace (q =? 2 ^ w - 1) with false by lia.
  rewrite andb_false_r. reflexivity.
Qed.

Lemma rem_range y : - q < Z.rem y q < q.
Proof. pose proof (Z.rem_bound_abs y q). lia. Qed.

Lemma rem_mod y : exists k, Z.rem y q = y + k * q.
Proof. exists (- (Z.quot y q)). pose proof (Z.quot_rem' y q). lia. Qed.

Lemma lower_reduce_ok x : is_word w x -> lower_reduce w q x = Some (sgn w x mod q).
Proof.
  intros. unfold lower_reduce. rewrite remsi_q by auto. cbn [bind]. rewrite remui_pos by lia.
  P2 w. pose proof (rem_range (sgn w x)). unfold addi, wrap. rewrite Zplus_mod_idemp_l.
  rewrite (Z.mod_small _ (2 ^ w)) by lia. destruct (rem_mod (sgn w x)) as [k ->]. f_equal.
  replace (sgn w x + k * q + q) with (sgn w x + (k + 1) * q) by lia.
  apply Z_mod_plus_full.
Qed.

Lemma lift_standard_ok x : is_word w x -> lower_lift_standard w q x = Some (sgn w x mod q).
Proof.
  intros. unfold lower_lift_standard. rewrite remsi_q by auto. cbn [bind]. f_equal.
  P2 w. pose proof (rem_range (sgn w x)).
  unfold cmp_slt. rewrite (sgn_wrap_small (Z.rem _ _)) by lia.
  replace (sgn w 0) with 0 by (unfold sgn; replace (0 <? 2 ^ (w-1)) with true by lia; auto).
  destruct (rem_mod (sgn w x)) as [k Hk].
  destruct (Z.ltb_spec (Z.rem (sgn w x) q) 0).
  - unfold addi, wrap. rewrite Zplus_mod_idemp_l. rewrite Z.mod_small by lia.
    rewrite <- (Z_mod_plus_full (sgn w x) (k + 1) q).
    rewrite Z.mod_small by lia. lia.
  - rewrite wrap_small by lia.
    rewrite <- (Z_mod_plus_full (sgn w x) k q).
    rewrite Z.mod_small by lia. lia.
Qed.

(** the centered lift is right whenever q + 1 does not overflow the signed range *)
Lemma lift_centered_ok x : q + 1 < 2 ^ (w - 1) -> is_word w x ->
  exists r, lower_lift_centered w q x = Some r /\
    sgn w r mod q = sgn w x mod q /\ - q <= 2 * sgn w r < q.
Proof.
  intros Hq1 Hx. unfold lower_lift_centered. rewrite lift_standard_ok by auto. cbn [bind].
  P2 w. pose proof w_ge_2 as H2. P2 (w - 1).
  assert (3 <= w) as Hw3.
  { destruct (Z.eq_dec w 2); [|lia]. exfalso. rewrite e in Hq1. simpl in Hq1. lia. }
  P2 (w - 1 - 1).
  unfold addi. rewrite (wrap_small w 1) by lia. rewrite (wrap_small w 2) by lia.
  rewrite (wrap_small w (q + 1)) by lia.
  unfold divsi. change (2 =? 0) with false.
  replace (q + 1 =? 2 ^ (w - 1)) with false by lia. cbn [orb andb].
  assert (sgn w (q + 1) = q + 1) as -> by (unfold sgn; destruct (Z.ltb_spec (q+1) (2^(w-1))); lia).
  assert (sgn w 2 = 2) as -> by (unfold sgn; destruct (Z.ltb_spec 2 (2^(w-1))); lia).
  rewrite Z.quot_div_nonneg by lia. cbn [bind].
  set (B := (q + 1) / 2). assert (2 * B <= q + 1 < 2 * B + 2).
  { pose proof (Z.div_mod (q + 1) 2). pose proof (Z.mod_pos_bound (q + 1) 2). lia. }
  rewrite (wrap_small w B) by lia.
  set (r := sgn w x mod q). assert (0 <= r < q) by (apply Z.mod_pos_bound; lia).
  assert (sgn w r = r) as Hr by (unfold sgn; destruct (Z.ltb_spec r (2^(w-1))); lia).
  assert (sgn w B = B) as HB by (unfold sgn; destruct (Z.ltb_spec B (2^(w-1))); lia).
  eexists; split; [reflexivity|].
  unfold cmp_sge. rewrite Hr, HB. destruct (Z.leb_spec B r).
  - unfold subi. rewrite sgn_wrap_small by lia. split.
    + replace (r - q) with (r + (-1) * q) by lia. rewrite Z_mod_plus_full.
      apply Z.mod_small; auto.
    + lia.
  - rewrite Hr. split; [apply Z.mod_small; auto | lia].
Qed.

Lemma lower_const_ok (c : Z) : 0 <= c < q -> lower_constant c = c mod q.
Proof. intros. unfold lower_constant. rewrite Z.mod_small; lia. Qed.

(** folding *)
Lemma fold_add_ok a b : 0 <= a < q -> 0 <= b < q -> fold_binop MAdd w q a b = Some ((a + b) mod q).
Proof.
  intros. P2 w. unfold fold_binop, addi. cbn [bind].
  rewrite (wrap_small w a), (wrap_small w b) by lia. rewrite remui_pos by lia. cbn [bind]. f_equal.
  pose proof (Z.mod_pos_bound (a + b) q).
  assert (2 ^ w <= 2 ^ (2 * w + 1)) by (apply Z.pow_le_mono_r; lia).
  rewrite (wrap_small (2*w+1)) by lia.
  unfold trunci. rewrite wrap_small; lia.
Qed.

Lemma fold_sub_ok a b : 0 <= a < q -> 0 <= b < q -> fold_binop MSub w q a b = Some ((a - b) mod q).
Proof.
  intros. P2 w. unfold fold_binop, addi, subi. cbn [bind].
  rewrite (wrap_small w a), (wrap_small w b) by lia. rewrite remui_pos by lia. cbn [bind].
  assert (2 ^ w <= 2 ^ (2 * w + 1)) by (apply Z.pow_le_mono_r; lia).
  rewrite (Z.mod_small b q) by lia. rewrite (wrap_small (2*w+1) (a + q)) by lia.
  rewrite (wrap_small (2*w+1) (a + q - b)) by lia. rewrite remui_pos by lia.
  cbn [bind]. f_equal.
  replace (a + q - b) with (a - b + 1 * q) by lia. rewrite Z_mod_plus_full.
  pose proof (Z.mod_pos_bound (a - b) q).
  unfold trunci. rewrite wrap_small; lia.
Qed.

Lemma pow2_fold : 2 ^ (2 * w + 1) = 2 * (2 ^ w * 2 ^ w).
Proof. rewrite <- pow2_dbl_width, <- Z.pow_succ_r by lia. f_equal; lia. Qed.

Lemma fold_mul_ok a b : 0 <= a < q -> 0 <= b < q -> fold_binop MMul w q a b = Some ((a * b) mod q).
Proof.
  intros. P2 w. unfold fold_binop, muli. cbn [bind].
  rewrite (wrap_small w a), (wrap_small w b) by lia. rewrite remui_pos by lia. cbn [bind]. f_equal.
  pose proof (Z.mod_pos_bound (a * b) q).
  rewrite (wrap_small (2*w+1)) by (rewrite pow2_fold; nia).
  unfold trunci. rewrite wrap_small; lia.
Qed.

Lemma fold_mac_ok a b c : 0 <= a < q -> 0 <= b < q -> 0 <= c < q ->
  fold_mac w q a b c = Some ((a * b + c) mod q).
Proof.
  intros. P2 w. unfold fold_mac, muli, addi.
  rewrite (wrap_small w a), (wrap_small w b), (wrap_small w c) by lia.
  rewrite remui_pos by lia. cbn [bind]. f_equal.
  pose proof (Z.mod_pos_bound (a * b + c) q).
  rewrite (wrap_small (2*w+1) (a * b)) by (rewrite pow2_fold; nia).
  rewrite (wrap_small (2*w+1)) by (rewrite pow2_fold; nia).
  replace (c + a * b) with (a * b + c) by lia.
  unfold trunci. rewrite wrap_small; lia.
Qed.
End Ops.

(** Barrett *)
Lemma barrett_div q B x : 0 < q -> 0 < B -> 0 <= x < B ->
  x / q - 1 <= x * (B / q) / B <= x / q.
Proof.
  intros Hq HB Hx. set (r := B / q). set (t := x / q).
  pose proof (Z.div_mod B q ltac:(lia)) as HD. pose proof (Z.mod_pos_bound B q Hq) as HM.
  pose proof (Z.div_mod x q ltac:(lia)) as HD2. pose proof (Z.mod_pos_bound x q Hq) as HM2.
  fold r in HD. fold t in HD2.
  assert (0 <= t) by (apply Z.div_pos; lia).
  assert (0 <= r) by (apply Z.div_pos; lia).
  set (m := B mod q) in *. set (n := x mod q) in *.
  split.
  - apply Z.div_le_lower_bound; [lia|].
    apply (Zmult_le_reg_r _ _ q); [lia|].
    assert (E : x * r * q - B * (t - 1) * q = B * (n + q) - x * m).
    { replace (x * r * q) with (x * (B - m)) by nia.
      replace (B * (t - 1) * q) with (B * (q * t - q)) by ring.
      replace (q * t) with (x - n) by lia. ring. }
    assert (x * m <= B * q) by nia. nia.
  - assert (x * r / B <= x * r * q / (B * q)) by (rewrite Z.div_mul_cancel_r; lia).
    assert (x * r * q / (B * q) <= x * B / (B * q)).
    { apply Z.div_le_mono; [nia|]. nia. }
    assert (x * B / (B * q) = x / q) by (rewrite (Z.mul_comm B q), Z.div_mul_cancel_r; lia).
    fold t in H3. lia.
Qed.

Lemma lower_barrett_ok win wa q x :
  1 < q -> verify_barrett win q = true -> 3 * active_bits (q - 1) <= wa ->
  is_word win x -> x < q * q ->
  lower_barrett win wa q x = Some (x mod q) \/
  lower_barrett win wa q x = Some (x mod q + q).
Proof.
  intros Hq Hv Hwa [Hx0 Hx] Hxq. unfold verify_barrett in Hv. unfold lower_barrett.
  set (w := active_bits (q - 1)) in *.
  assert (1 <= w) as Hw.
  { unfold w, active_bits. replace (q - 1 <=? 0) with false by lia.
    pose proof (Z.log2_nonneg (q - 1)); lia. }
  assert (Hqlo : 2 ^ (w - 1) < q).
  { unfold w, active_bits. replace (q - 1 <=? 0) with false by lia.
    replace (Z.log2 (q - 1) + 1 - 1) with (Z.log2 (q - 1)) by lia.
    pose proof (Z.log2_spec (q - 1) ltac:(lia)). lia. }
  assert (Hqhi : q <= 2 ^ w).
  { pose proof (proj1 (active_bits_bound (q - 1) w ltac:(lia) ltac:(lia))). fold w in H. lia. }
  replace (wa <? 3 * w) with false by lia.
  P2 w. assert (HB : 2 ^ (2 * w) = 2 ^ w * 2 ^ w) by (rewrite <- Z.pow_add_r by lia; f_equal; lia).
  assert (H3 : 2 ^ (3 * w) = 2 ^ w * (2 ^ w * 2 ^ w)).
  { rewrite <- HB, <- Z.pow_add_r by lia. f_equal; lia. }
  assert (1 < 2 ^ w) by lia.
  cbv zeta. unfold trunci. rewrite (wrap_small (3 * w) q) by nia.
  rewrite (wrap_small (3 * w) (2 ^ (2 * w))) by nia.
  unfold divui. replace (q =? 0) with false by lia. cbn [bind].
  unfold shrui, extui, muli. replace (2 * w <? 3 * w) with true by lia. cbn [bind].
  set (B := 2 ^ (2 * w)) in *. set (r := B / q).
  assert (Hr0 : 0 <= r) by (apply Z.div_pos; lia).
  assert (Hrq : q * r <= B) by (apply Z.mul_div_le; lia).
  assert (HxB : x < B) by nia.
  rewrite (wrap_small (3 * w) (x * r)).
  2:{ split; [nia|]. assert (x * r < q * q * r + 1) by nia.
      assert (x * r <= q * B) by nia.
      destruct (Z.eq_dec r 0) as [->|]; [nia|].
      assert (x * r < q * q * r) by nia. nia. }
  pose proof (barrett_div q B x ltac:(lia) ltac:(nia) ltac:(lia)) as HD. fold r in HD.
  set (s := x * r / B) in *.
  pose proof (Z.div_mod x q ltac:(lia)) as Hdm. pose proof (Z.mod_pos_bound x q ltac:(lia)) as Hmb.
  assert (0 <= s) by (apply Z.div_pos; nia).
  assert (s * q <= x) by nia.
  rewrite (wrap_small (3 * w) (s * q)) by nia.
  unfold subi. rewrite (wrap_small (3 * w) (x - s * q)) by nia.
  rewrite wrap_small by nia.
  assert (s = x / q \/ s = x / q - 1) as [-> | ->] by lia; [left|right]; f_equal; nia.
Qed.

Lemma subifge_ok w x y : 0 < y -> 0 <= x < 2 * y -> x < 2 ^ w ->
  lower_subifge w x y = x mod y.
Proof.
  intros. unfold lower_subifge, cmp_uge, subi. destruct (Z.leb_spec y x).
  - rewrite wrap_small by lia. replace x with (x - y + 1 * y) at 2 by lia.
    rewrite Z_mod_plus_full, Z.mod_small; lia.
  - rewrite Z.mod_small; lia.
Qed.

(** Modulus switching *)
Definition centred (q x : Z) : Z := if 2 * x <? q then x else x - q.

Lemma modswitch_ok wq q wp p x :
  1 <= wq -> 1 <= wp -> 0 < q < 2 ^ (wq - 1) -> 0 < p < 2 ^ (wp - 1) -> 0 <= x < q ->
  lower_modswitch wq q wp p x =
    Some ((if x <? q / 2 then x else x - q) mod p).
Proof.
  intros Hwq Hwp Hq Hp Hx. unfold lower_modswitch.
  set (w := Z.max wq wp). rewrite !remui_pos by lia. cbn [bind].
  rewrite remui_pos by lia. cbn [bind].
  pose proof (Z.mod_pos_bound x p ltac:(lia)). pose proof (Z.mod_pos_bound q p ltac:(lia)).
  assert (p < 2 ^ (w - 1)).
  { eapply Z.lt_le_trans; [apply Hp|]. apply Z.pow_le_mono_r; lia. }
  P2 w. unfold subi, addi.
  rewrite (wrap_small w (p - q mod p)) by lia.
  rewrite (wrap_small w (x mod p + (p - q mod p))) by lia.
  f_equal. unfold cmp_ugt.
  assert (E : (x mod p + (p - q mod p)) mod p = (x - q) mod p).
  { replace (x mod p + (p - q mod p)) with (x mod p - q mod p + 1 * p) by lia.
    rewrite Z_mod_plus_full. rewrite <- Zminus_mod. reflexivity. }
  rewrite E.
  set (v := if x <? q / 2 then x else x - q).
  replace (if x <? q / 2 then x mod p else (x - q) mod p) with (v mod p)
    by (unfold v; destruct (x <? q / 2); auto).
  destruct (wp <? wq) eqn:Ew; auto.
  unfold trunci. rewrite wrap_small; auto.
  pose proof (Z.mod_pos_bound v p). P2 wp. lia.
Qed.

Lemma modswitch_to_rns_ok wq wr ms x :
  1 <= wr -> Forall (fun m => 0 < m < 2 ^ (wr - 1)) ms ->
  lower_modswitch_to_rns wq wr ms x = Some (map (fun m => x mod m) ms).
Proof.
  intros Hwr H. induction H as [|m ms Hm _ IH]; cbn [lower_modswitch_to_rns map]; auto.
  rewrite remui_pos by lia. cbn [bind]. rewrite IH. cbn [bind]. unfold trunci.
  P2 wr. pose proof (Z.mod_pos_bound x m). rewrite wrap_small by lia. auto.
Qed.

(** Canonicalisation *)
Fixpoint eval (q : Z) (env : nat -> Z) (e : mexpr) : Z :=
  match e with
  | EVar v => env v
  | EConst c => c
  | EAdd a b => eval q env a + eval q env b
  | ESub a b => eval q env a - eval q env b
  | EMul a b => eval q env a * eval q env b
  | EMac a b c => eval q env a * eval q env b + eval q env c
  end.
Fixpoint consts_ok (q : Z) (e : mexpr) : Prop :=
  match e with
  | EVar _ => True
  | EConst c => 0 <= c < q
  | EAdd a b | ESub a b | EMul a b => consts_ok q a /\ consts_ok q b
  | EMac a b c => consts_ok q a /\ consts_ok q b /\ consts_ok q c
  end.

Lemma mexpr_eqb_eq a b : mexpr_eqb a b = true -> a = b.
Proof.
  revert b; induction a; destruct b; simpl; intros H; try discriminate;
    repeat (apply andb_prop in H; destruct H as [H ?]);
    try (apply Nat.eqb_eq in H); try (apply Z.eqb_eq in H); f_equal; auto.
Qed.

Lemma run_ok w q env e : 1 <= w -> 0 < q < 2 ^ (w - 1) ->
  (forall v, 0 <= env v < q) -> consts_ok q e ->
  run w q env e = Some (eval q env e mod q).
Proof.
  intros Hw Hq He. induction e; cbn [run eval consts_ok]; intros Hc;
    repeat match goal with H : _ /\ _ |- _ => destruct H end.
  - rewrite Z.mod_small; auto.
  - rewrite Z.mod_small; auto.
  - rewrite IHe1, IHe2 by auto. cbn [bind].
    rewrite lower_add_ok by (auto; apply Z.mod_pos_bound; lia).
    rewrite <- Zplus_mod. auto.
  - rewrite IHe1, IHe2 by auto. cbn [bind].
    rewrite lower_sub_ok by (auto; apply Z.mod_pos_bound; lia).
    rewrite <- Zminus_mod. auto.
  - rewrite IHe1, IHe2 by auto. cbn [bind].
    rewrite lower_mul_ok by (auto; apply Z.mod_pos_bound; lia).
    rewrite <- Zmult_mod. auto.
  - rewrite IHe1, IHe2, IHe3 by auto. cbn [bind].
    rewrite lower_mac_ok by (auto; apply Z.mod_pos_bound; lia).
    rewrite Zplus_mod, <- Zmult_mod. rewrite Z.mod_mod by lia. rewrite <- Zplus_mod. auto.
Qed.

Definition eqm (q a b : Z) := exists k, a = b + k * q.
Lemma eqm_mod q a b : eqm q a b -> a mod q = b mod q.
Proof. intros [k ->]. apply Z_mod_plus_full. Qed.
Lemma mod_eqm q a : 0 < q -> eqm q (a mod q) a.
Proof. intros. exists (- (a / q)). pose proof (Z.div_mod a q). lia. Qed.

Lemma pattern_ok w q env p e e' : 1 <= w -> 0 < q < 2 ^ (w - 1) ->
  consts_ok q e -> In p all_patterns -> p w q e = Some e' ->
  consts_ok q e' /\ eqm q (eval q env e') (eval q env e).
Proof.
  intros Hw Hq Hc Hin Hp.
  assert (M1 : forall c, 0 <= c < q -> is_minus_one w q c = true -> c = q - 1).
  { intros c Hcc. unfold is_minus_one, subi. P2 w. rewrite !wrap_small by lia. lia. }
  assert (O1 : forall c, is_one w c = true -> c = 1).
  { intros c. unfold is_one. P2 w. rewrite wrap_small by lia. lia. }
  unfold all_patterns in Hin. simpl in Hin.
  repeat (destruct Hin as [<-|Hin]); try contradiction;
  unfold AddZero, SubZero, MulZero, MulOne, AddAddConstant, AddSubConstantRHS,
   AddSubConstantLHS, AddMulNegativeOneRhs, AddMulNegativeOneLhs,
   SubMulNegativeOneRhs, SubMulNegativeOneLhs, MulMulConstant,
   SubRHSAddConstant, SubLHSAddConstant, SubRHSSubConstantRHS,
   SubRHSSubConstantLHS, SubLHSSubConstantRHS, SubLHSSubConstantLHS,
   SubSubLHSRHSLHS, FindMac, FoldOps, is_zero in Hp;
  repeat match type of Hp with
  | (match ?e with _ => _ end) = _ => is_var e; destruct e; try discriminate Hp
  end;
  repeat match type of Hp with
  | (if ?b then _ else _) = _ => destruct b eqn:?; try discriminate Hp
  end;
  cbn [consts_ok] in Hc;
  repeat match goal with H : _ /\ _ |- _ => destruct H end;
  try (rewrite fold_add_ok in Hp by auto); try (rewrite fold_sub_ok in Hp by auto);
  try (rewrite fold_mul_ok in Hp by auto); try (rewrite fold_mac_ok in Hp by auto);
  injection Hp as <-; cbn [consts_ok eval];
  repeat match goal with
  | H : is_minus_one _ _ _ = true |- _ => apply M1 in H; [|auto]; subst
  | H : is_one _ _ = true |- _ => apply O1 in H; subst
  | H : (_ =? 0) = true |- _ => apply Z.eqb_eq in H; subst
  | H : mexpr_eqb _ _ = true |- _ => apply mexpr_eqb_eq in H; subst
  end;
  cbn [consts_ok eval] in *;
  repeat match goal with H : _ /\ _ |- _ => destruct H end;
  (split; [ repeat split; auto; try lia; apply Z.mod_pos_bound; lia
          | first [ apply mod_eqm; lia
                  | exists 0; ring
                  | match goal with
                    | |- eqm q (eval _ _ ?x - eval _ _ ?y) (_ + _ * (q - 1)) => exists (- eval q env y)
                    | |- eqm q (eval _ _ ?x - eval _ _ ?y) (_ * (q - 1) + _) => exists (- eval q env y)
                    | |- eqm q (_ + _) (_ - eval _ _ ?y * (q - 1)) => exists (eval q env y)
                    | |- eqm q (0 - _) (eval _ _ ?y * (q - 1) - _) => exists (- eval q env y)
                    end; ring ] ]).
Qed.

Lemma step_ok w q env e e' : 1 <= w -> 0 < q < 2 ^ (w - 1) ->
  rewrite_step w q e e' -> consts_ok q e ->
  consts_ok q e' /\ eqm q (eval q env e') (eval q env e).
Proof.
  intros Hw Hq Hs. induction Hs; intros Hc; cbn [consts_ok eval] in *;
    try (destruct Hc as [? ?]);
    try (match goal with H : _ /\ _ |- _ => destruct H end);
    try (destruct IHHs as [? [k ->]]; [assumption|]; split; [tauto|]).
  - eapply pattern_ok; eauto.
  - exists k; ring.
  - exists k; ring.
  - exists k; ring.
  - exists (-k); ring.
  - exists (k * eval q env b); ring.
  - exists (k * eval q env a); ring.
  - exists (k * eval q env b); ring.
  - exists (k * eval q env a); ring.
  - exists k; ring.
Qed.

Lemma rewrites_ok w q env e e' : 1 <= w -> 0 < q < 2 ^ (w - 1) ->
  (forall v, 0 <= env v < q) -> consts_ok q e ->
  rewrites w q e e' -> run w q env e' = run w q env e.
Proof.
  intros Hw Hq He Hc H. induction H; auto.
  destruct (step_ok w q env e1 e2 Hw Hq H Hc) as [Hc2 Hm].
  rewrite IHrewrites by auto. rewrite !run_ok by auto. f_equal. apply eqm_mod; auto.
Qed.
