(** C76: matrix products on secrets.  When the operands are packed with the layouts that layout propagation chooses, the kernel
    that replaces the operation leaves the product plus the accumulator packed with the layout chosen for the result. *)
From Coq Require Import ZArith List Bool Lia Znumtheory.
From Verif Require Import Words NumTheory_Model NumTheory_Proofs Rel_Model Rel_Proofs Layout_Spec Layout_Proofs Layout_Props
  Points_Model Points_Spec Points_Proofs Points_Boxes Points_Props
  Sums Kernel_Model Kernel_Spec Kernel_Proofs KernelBsgs_Proofs KernelMat_Proofs Kernel_Props Linalg_Model Linalg_Spec Linalg_Proofs.
Import ListNotations.
Open Scope Z_scope.

(** isRelationEqual is right when it says yes. *)
Definition equal_sound (same : rel -> rel -> bool) : Prop :=
  forall a b, same a b = true -> nd a = nd b /\ nr a = nr b /\ forall d g, relates a d g <-> relates b d g.

Lemma kept (K : cring) same old new keep f cts slots m : equal_sound same -> (keep = true -> same old new = true) ->
  (stored K (packs (converted keep old new)) f cts slots m <-> stored K (packs new) f cts slots m).
Proof.
  intros S E. destruct keep; cbn [converted]; [|tauto]. destruct (S _ _ (E eq_refl)) as (_ & _ & Q).
  split; apply stored_ext; auto; intros d ct s; unfold packs; [|symmetry]; apply Q.
Qed.
Lemma is_bicyclic_same same shape slots r b : bicyclic shape slots = Some b -> is_bicyclic same shape slots r = true -> same r b = true.
Proof. intros E H. unfold is_bicyclic in H. destruct (negb _) in H; [discriminate|]. destruct (_ || _)%bool in H; [discriminate|]. now rewrite E in H. Qed.
Lemma is_tricyclic_same same shape slots r b : tricyclic shape slots = Some b -> is_tricyclic same shape slots r = true -> same r b = true.
Proof.
  intros E H. unfold is_tricyclic in H. destruct (negb _) in H; [discriminate|]. destruct (_ || _)%bool in H; [discriminate|].
  destruct (_ || _)%bool in H; [discriminate|]. now rewrite E in H.
Qed.
Lemma power_divides a b : 0 <= a -> 2 ^ a <= 2 ^ b -> (2 ^ a | 2 ^ b).
Proof.
  intros Ha H. assert (a <= b). { destruct (Z.le_gt_cases a b) as [?|G]; [easy|]. destruct (Z.le_gt_cases 0 b) as [?|L]; [|rewrite (Z.pow_neg_r 2 b) in H by lia; pose proof (Z.pow_pos_nonneg 2 a); lia].
    assert (2 ^ b < 2 ^ a) by (apply Z.pow_lt_mono_r; lia). lia. }
  exists (2 ^ (b - a)). rewrite <- Z.pow_add_r by lia. f_equal. lia.
Qed.
(** the next power of two fits, because the number of slots is one *)
Lemma padding_fits n p slots : padding n p -> n <= slots -> (exists k, 0 <= k /\ slots = 2 ^ k) -> p <= slots /\ (p | slots).
Proof.
  intros ((a & Ha & ->) & B) L (k & Hk & ->). assert (a <= k).
  { destruct (Z.le_gt_cases a k) as [?|G]; [easy|]. assert (2 ^ Z.succ k <= 2 ^ a) by (apply Z.pow_le_mono_r; lia). rewrite Z.pow_succ_r in H by lia. lia. }
  assert (2 ^ a <= 2 ^ k) by (apply Z.pow_le_mono_r; lia). split; [easy|]. now apply power_divides.
Qed.

(** ** matvec *)
Theorem C76_matvec : forall (K : cring) same (M x acc : list Z -> K) matrix vector rows cols pr pc slots lm lv lo mat vec init
    lower upper image unroll,
  equal_sound same -> 0 < rows <= slots -> 0 < cols <= slots -> (exists k, 0 <= k /\ slots = 2 ^ k) -> slots <= 2 ^ 24 ->
  padding rows pr -> padding cols pc ->
  propagate_matvec same matrix vector [rows; cols] slots = Some (lm, lv, lo) ->
  well_formed lm -> bounds_hold lm lower upper -> lists_images lm image -> (exists box, domain_box lm lower upper = Some box) ->
  stored K (packs lm) M (Z.min pr pc) slots mat ->
  stored K (packs lv) x 1 slots vec ->
  stored K (packs lo) acc 1 slots init ->
  exists out, lower_matvec K lm lower upper image [rows; cols] mat vec init unroll = Some out /\
    stored K (packs lo) (matvec_value K cols M x acc) 1 slots out.
Proof.
  intros K same M x acc matrix vector rows cols pr pc slots lm lv lo mat vec init lower upper image unroll
    Hsame Hr Hc Hpow H24 Pr Pc E WF BH LI (box & EB) Sm Sv Si.
  unfold propagate_matvec in E. cbn [dim nth] in E. destruct (diagonal [rows; cols] slots) as [dg|] eqn:Ed; [|discriminate].
  apply some_inj in E. injection E as <- <- <-.
  destruct (padding_fits _ _ _ Pr (proj2 Hr) Hpow) as (Lr & Dr). destruct (padding_fits _ _ _ Pc (proj2 Hc) Hpow) as (Lc & Dc).
  set (N := Z.to_nat slots). assert (HN : Z.of_nat N = slots) by (unfold N; lia).
  set (lm := converted (same matrix dg) matrix dg) in *.
  assert (Sm' : stored K (packs dg) M (Z.min pr pc) slots mat).
  { apply (kept K same matrix dg (same matrix dg)) in Sm; auto. }
  assert (Sv' : stored K (packs (row_major [cols] slots)) x 1 slots vec).
  { apply (kept K same vector (row_major [cols] slots) (same vector (row_major [cols] slots))) in Sv; auto. }
  destruct (stored_single _ _ _ _ _ Sv') as (v & ->). destruct (stored_single _ _ _ _ _ Si) as (a & ->).
  apply (stored_vector K cols slots N pc) in Sv'; auto. apply (stored_vector K rows slots N pr) in Si; auto.
  pose proof Sm' as Sm2. apply (stored_diagonal K rows cols slots N pr pc dg) in Sm2; auto; [|clear - Hr H24; assert (2 ^ 24 < 2 ^ 32) by reflexivity; lia|clear - Hc H24; assert (2 ^ 24 < 2 ^ 32) by reflexivity; lia]. destruct Sm2 as (Lm & Hm).
  assert (N2 : nr lm = 2%nat).
  { assert (Q : nr dg = 2%nat) by (apply (diagonal_targets rows cols slots); auto; unfold max64; lia).
    unfold lm. destruct (same matrix dg) eqn:E; cbn [converted]; auto. destruct (Hsame _ _ E) as (_ & -> & _). exact Q. }
  destruct (complement_found lm lower upper image (Z.of_nat (length mat)) box) as (zeros & EC); auto.
  destruct (complement_ok lm lower upper image _ zeros WF BH LI EC) as (_ & Hz).
  destruct Pr as ((ka & Ka & ->) & Br). destruct Pc as ((kb & Kb & ->) & Bc).
  assert (W62 : 2 ^ 24 < 2 ^ 62) by (apply Z.pow_lt_mono_r; lia).
  destruct (C30_halevi_shoup K (fun i j => M [i; j]) (fun i => x [i]) rows cols (Z.to_nat ka) (Z.to_nat kb) N v mat (map (fun c => (c, true)) zeros) unroll)
    as (d & out & E1 & E2 & Ho); rewrite ?(Z2Nat.id ka), ?(Z2Nat.id kb) by exact Ka || exact Kb; try exact Hm; try exact Sv'; try exact Lm; try lia; try (rewrite HN; assumption).
  { intros k b Hin Hk s. apply in_map_iff in Hin as (c & [= <- <-] & Hin). apply Hz in Hin as (Hin1 & Hin2).
    destruct Sm as (_ & Sl & _ & Sz). destruct (Nat.lt_ge_cases s N) as [Hs|Hs].
    - specialize (Sz c (Z.of_nat s) ltac:(lia) ltac:(lia)). unfold content in Sz. rewrite Nat2Z.id in Sz. apply Sz. intros d. apply Hin2.
    - apply nth_overflow. rewrite Forall_forall in Sl. assert (In (nth (Z.to_nat c) mat []) mat) by (apply nth_In; lia). apply Sl in H. lia. }
  rewrite (Z2Nat.id ka) in Ho by exact Ka. unfold lower_matvec. rewrite EC. cbn [dim nth]. rewrite E1. cbn [bind]. rewrite E2. cbn [bind add_init].
  rewrite (holds_seq K _ _ _ Ho). rewrite (add_seq K _ a N _ Si). cbn [bind]. eexists. split; [reflexivity|].
  apply (stored_vector K rows slots N (2 ^ ka)); auto; [split; [eauto|lia]|]. split; [now rewrite map_length, seq_length|].
  intros s Hs. rewrite nth_map_seq by auto. cbv beta. unfold padded1. destruct (Z.ltb_spec (Z.of_nat s mod 2 ^ ka) rows).
  - unfold matvec_value, accumulated. cbn [nth]. apply Kaddc.
  - apply Kadd0.
Qed.
Print Assumptions C76_matvec.

(** ** matmul of two secrets *)
Theorem C76_matmul : forall (K : cring) same (A B acc : list Z -> K) lhs rhs m n p slots kernel ll lr lo a b init argument,
  equal_sound same -> 0 < m -> 0 < n -> 0 < p -> m * p + (n * p - 1 + m * (n - 1)) <= slots <= 2 ^ 24 ->
  Z.gcd m n = 1 -> Z.gcd n p = 1 -> Z.gcd m p = 1 ->
  propagate_matmul same true true lhs rhs [m; n] [n; p] slots = Some (kernel, ll, lr, lo) ->
  stored K (packs ll) A 1 slots a -> stored K (packs lr) B 1 slots b -> stored K (packs lo) acc 1 slots init ->
  exists out, lower_matmul K kernel argument [m; n] [n; p] a b init = Some out /\
    stored K (packs lo) (matmul_value K n A B acc) 1 slots out.
Proof.
  intros K same A B acc lhs rhs m n p slots kernel ll lr lo a b init argument Hsame Hm Hn Hp (Hroom & H24) G1 G2 G3 E Sa Sb Sc.
  unfold propagate_matmul in E. cbn [dim nth] in E. rewrite G1, G2, G3 in E. cbn [Z.eqb Pos.eqb andb] in E.
  destruct (bicyclic [m; n] slots) as [bl|] eqn:El; [|discriminate]. destruct (bicyclic [n; p] slots) as [br|] eqn:Er; [|discriminate].
  destruct (bicyclic [m; p] slots) as [bo|] eqn:Eo; [|discriminate]. apply some_inj in E. injection E as <- <- <- <-.
  apply (kept K same lhs bl) in Sa; [|auto|now apply is_bicyclic_same]. apply (kept K same rhs br) in Sb; [|auto|now apply is_bicyclic_same].
  destruct (stored_single _ _ _ _ _ Sa) as (va & ->). destruct (stored_single _ _ _ _ _ Sb) as (vb & ->). destruct (stored_single _ _ _ _ _ Sc) as (vc & ->).
  set (N := Z.to_nat slots). assert (0 <= m * (n - 1)) by nia. assert (0 < n * p) by nia. assert (0 < m * p) by nia. assert (HN : Z.of_nat N = slots) by (unfold N; lia).
  assert (Hmn : m * n <= slots) by nia.
  apply (stored_bicyclic K m n slots N bl) in Sa; auto. apply (stored_bicyclic K n p slots N br) in Sb; auto; [|lia]. apply (stored_bicyclic K m p slots N bo) in Sc; auto; [|lia].
  assert (W : m * n * n < 2 ^ 64). { assert (n <= m * n) by nia. assert (2 ^ 24 * 2 ^ 24 < 2 ^ 64) by reflexivity. assert (m * n * n <= 2 ^ 24 * 2 ^ 24) by (apply Z.mul_le_mono_nonneg; nia). lia. }
  destruct (cyc_ok K 1 m n p N va vb (fun _ i j => A [i; j]) (fun _ j k => B [j; k])) with (rotf := bicyclic_rotation m n p)
    as (y & d & f & Ey & Ed & Er' & Hf); rewrite ?Z.mul_1_l; auto; try lia.
  { now rewrite Z.gcd_comm. }
  { intros. rewrite bicyclic_rotation_ok by (auto; lia). reflexivity. }
  cbn [lower_matmul]. unfold lower_bicyclic, bicyclic_matmul. cbn [dim nth]. rewrite Ey. cbn [bind]. destruct Sa as [La _]. rewrite La.
  rewrite Z.mul_1_l in Ed. rewrite Ed. cbn [bind]. rewrite Er'. cbn [bind].
  destruct (finish K f (fun s => entry K n (fun i j => A [i; j]) (fun j k => B [j; k]) (s mod m) (s mod p)) (fun s => acc [s mod m; s mod p])
    vc N (m * p) (n * p - 1 + m * (n - 1))) as (out & Eout & Ho); auto; try lia.
  - intros s H3 H4. apply Hf. unfold slot_ok. rewrite !Z.mul_1_l. right. lia.
  - intros s. rewrite !mod_of_mod by (try lia; (exists p; ring) || (exists m; ring)). reflexivity.
  - intros s. rewrite !mod_of_mod by (try lia; (exists p; ring) || (exists m; ring)). reflexivity.
  - rewrite Eout. eexists. split; [reflexivity|]. apply (stored_bicyclic K m p slots N bo); auto; lia.
Qed.
Print Assumptions C76_matmul.

(** ** batch_matmul *)
Theorem C76_batch_matmul : forall (K : cring) same (A B acc : list Z -> K) lhs rhs h m n p slots ll lr lo a b init,
  equal_sound same -> 0 < h -> 0 < m -> 0 < n -> 0 < p -> h * m * p + (h * n * p - 1 + h * m * (n - 1)) <= slots <= 2 ^ 24 ->
  propagate_batch same lhs rhs [h; m; n] [h; n; p] slots = Some (ll, lr, lo) ->
  stored K (packs ll) A 1 slots a -> stored K (packs lr) B 1 slots b -> stored K (packs lo) acc 1 slots init ->
  exists out, lower_batch K [h; m; n] [h; n; p] a b init = Some out /\
    stored K (packs lo) (batch_value K n A B acc) 1 slots out.
Proof.
  intros K same A B acc lhs rhs h m n p slots ll lr lo a b init Hsame Hh Hm Hn Hp (Hroom & H24) E Sa Sb Sc.
  unfold propagate_batch in E. cbn [dim nth] in E. destruct (_ && _ && _ && _)%bool eqn:G in E; [|discriminate].
  repeat match goal with H : (_ && _)%bool = true |- _ => apply andb_prop in H as (? & ?) end. rewrite Z.eqb_eq in *.
  destruct (tricyclic [h; m; n] slots) as [bl|] eqn:El; [|discriminate]. destruct (tricyclic [h; n; p] slots) as [br|] eqn:Er; [|discriminate].
  destruct (tricyclic [h; m; p] slots) as [bo|] eqn:Eo; [|discriminate]. apply some_inj in E. injection E as <- <- <-.
  apply (kept K same lhs bl) in Sa; [|auto|now apply is_tricyclic_same]. apply (kept K same rhs br) in Sb; [|auto|now apply is_tricyclic_same].
  destruct (stored_single _ _ _ _ _ Sa) as (va & ->). destruct (stored_single _ _ _ _ _ Sb) as (vb & ->). destruct (stored_single _ _ _ _ _ Sc) as (vc & ->).
  set (N := Z.to_nat slots). assert (0 < h * m) by nia. assert (0 <= h * m * (n - 1)) by nia. assert (0 < h * n) by nia. assert (0 < h * n * p) by nia. assert (0 < h * m * p) by nia.
  assert (HN : Z.of_nat N = slots) by (unfold N; lia). assert (Hmn : h * m * n <= slots) by nia.
  apply (stored_tricyclic K h m n slots N bl) in Sa; auto. apply (stored_tricyclic K h n p slots N br) in Sb; auto; [|lia]. apply (stored_tricyclic K h m p slots N bo) in Sc; auto; [|lia].
  assert (W : m * n * n < 2 ^ 64).
  { assert (m * n <= h * m * n) by nia. assert (n <= h * m * n) by nia. assert (2 ^ 24 * 2 ^ 24 < 2 ^ 64) by reflexivity. assert (m * n * n <= 2 ^ 24 * 2 ^ 24) by (apply Z.mul_le_mono_nonneg; nia). lia. }
  destruct (cyc_ok K h m n p N va vb (fun b i j => A [b; i; j]) (fun b j k => B [b; j; k])) with (rotf := tricyclic_rotation h m n p)
    as (y & d & f & Ey & Ed & Er' & Hf); auto; try lia.
  { apply Zgcd_1_rel_prime, rel_prime_sym, rel_prime_mult; apply rel_prime_sym, Zgcd_1_rel_prime; assumption. }
  { now rewrite Z.gcd_comm. }
  { intros. apply tricyclic_rotation_ok; auto; lia. }
  unfold lower_batch, tricyclic_matmul. cbn [dim nth]. rewrite Ey. cbn [bind]. destruct Sa as [La _]. rewrite La.
  rewrite Ed. cbn [bind]. rewrite Er'. cbn [bind].
  destruct (finish K f (fun s => entry K n (fun i j => A [s mod h; i; j]) (fun j k => B [s mod h; j; k]) (s mod m) (s mod p)) (fun s => acc [s mod h; s mod m; s mod p])
    vc N (h * m * p) (h * n * p - 1 + h * m * (n - 1))) as (out & Eout & Ho); auto; try lia.
  - intros s L1 L2. apply Hf. right. lia.
  - intros s. rewrite !mod_of_mod by (try lia; (exists (h * m); ring) || (exists (h * p); ring) || (exists (m * p); ring)). reflexivity.
  - intros s. rewrite !mod_of_mod by (try lia; (exists (h * m); ring) || (exists (h * p); ring) || (exists (m * p); ring)). reflexivity.
  - rewrite Eout. eexists. split; [reflexivity|]. apply (stored_tricyclic K h m p slots N bo); auto; lia.
Qed.
Print Assumptions C76_batch_matmul.

(** ** matmul of a secret and a plaintext: the plaintext is packed by diagonals, one ciphertext each.
    The left operand must be an argument of the secret.generic exactly when it is the secret one *)
Theorem C76_matmul_plain : forall (K : cring) same (A B acc : list Z -> K) (lhs_secret : bool) lhs rhs m n p slots kernel ll lr lo a b init,
  equal_sound same -> 0 < m -> 0 < n -> 0 < p -> m * p + (if lhs_secret then m else p) * (n - 1) <= slots <= 2 ^ 24 ->
  Z.gcd m p = 1 -> Z.gcd n (if lhs_secret then m else p) = 1 ->
  propagate_matmul same lhs_secret (negb lhs_secret) lhs rhs [m; n] [n; p] slots = Some (kernel, ll, lr, lo) ->
  stored K (packs ll) A (if lhs_secret then 1 else n) slots a -> stored K (packs lr) B (if lhs_secret then n else 1) slots b ->
  stored K (packs lo) acc 1 slots init ->
  exists out, lower_matmul K kernel lhs_secret [m; n] [n; p] a b init = Some out /\
    stored K (packs lo) (matmul_value K n A B acc) 1 slots out.
Proof.
  intros K same A B acc lhs_secret lhs rhs m n p slots kernel ll lr lo a b init Hsame Hm Hn Hp (Hroom & H24) G1 G2 E Sa Sb Sc.
  set (N := Z.to_nat slots). assert (0 < m * p) by nia. assert (0 <= m * (n - 1)) by nia. assert (0 <= p * (n - 1)) by nia.
  assert (HN : Z.of_nat N = slots) by (unfold N; destruct lhs_secret; lia).
  unfold propagate_matmul in E. cbn [dim nth] in E. rewrite G1 in E. destruct lhs_secret; cbn [negb andb] in E.
  - rewrite (Z.gcd_comm m n), G2 in E. cbn [Z.eqb Pos.eqb andb orb] in E.
    destruct (bicyclic [m; p] slots) as [bo|] eqn:Eo; [|discriminate]. destruct (bicyclic [m; n] slots) as [bl|] eqn:El; [|discriminate].
    apply some_inj in E. remember (bicyclic_diagonal [n; p] true m slots) as w eqn:Ew. injection E as <- <- <- <-. subst w.
    apply (kept K same lhs bl) in Sa; [|auto|now apply is_bicyclic_same].
    destruct (stored_single _ _ _ _ _ Sa) as (va & ->). destruct (stored_single _ _ _ _ _ Sc) as (vc & ->).
    apply (stored_bicyclic K m n slots N bl) in Sa; auto; [|nia]. apply (stored_bicyclic K m p slots N bo) in Sc; auto; [|lia].
    apply (stored_bicyclic_diagonal K n p true m slots N) in Sb; auto. destruct Sb as (Lb & Hb).
    destruct (diagonal_run K (fun c s => B [(s + c * m) mod n; s mod p]) (fun k => A [k mod m; k mod n]) m n va b N) as (d & f & Ed & Er & Hf); auto; try lia.
    cbn [lower_matmul]. unfold lower_bicyclic_diagonal. cbn [dim nth]. rewrite Ed. cbn [bind]. rewrite Er. cbn [bind].
    destruct (finish K f (fun s => entry K n (fun i j => A [i; j]) (fun j k => B [j; k]) (s mod m) (s mod p)) (fun s => acc [s mod m; s mod p])
      vc N (m * p) (m * (n - 1))) as (out & Eout & Ho); auto; try lia.
    + intros s L1 L2. rewrite Hf by lia. unfold entry.
      etransitivity; [|exact (big_stride (radd K) (r0 K) (Kaddc K) (Kadda K) (Kadd0 K) (Z.to_nat n)
        (fun j => rmul K (A [s mod m; j]) (B [j; s mod p])) s m ltac:(lia) ltac:(rewrite Z2Nat.id, Z.gcd_comm; lia))].
      apply big_ext. intros c Hc. rewrite Z2Nat.id by lia. rewrite Z.mod_add by lia. rewrite (Z.mul_comm (Z.of_nat c)). apply Kmulc.
    + intros s. rewrite !mod_of_mod by (try lia; (exists p; ring) || (exists m; ring)). reflexivity.
    + intros s. rewrite !mod_of_mod by (try lia; (exists p; ring) || (exists m; ring)). reflexivity.
    + rewrite Eout. eexists. split; [reflexivity|]. apply (stored_bicyclic K m p slots N bo); auto; lia.
  - rewrite G2 in E. cbn [Z.eqb Pos.eqb andb orb] in E.
    destruct (bicyclic [m; p] slots) as [bo|] eqn:Eo; [|discriminate]. destruct (bicyclic [n; p] slots) as [br|] eqn:Er0; [|discriminate].
    apply some_inj in E. remember (bicyclic_diagonal [m; n] false p slots) as w eqn:Ew. injection E as <- <- <- <-. subst w.
    apply (kept K same rhs br) in Sb; [|auto|now apply is_bicyclic_same].
    destruct (stored_single _ _ _ _ _ Sb) as (vb & ->). destruct (stored_single _ _ _ _ _ Sc) as (vc & ->).
    apply (stored_bicyclic K n p slots N br) in Sb; auto; [|nia]. apply (stored_bicyclic K m p slots N bo) in Sc; auto; [|lia].
    apply (stored_bicyclic_diagonal K m n false p slots N) in Sa; auto. destruct Sa as (La & Ha).
    destruct (diagonal_run K (fun c s => A [s mod m; (s + c * p) mod n]) (fun k => B [k mod n; k mod p]) p n vb a N) as (d & f & Ed & Er & Hf); auto; try lia.
    cbn [lower_matmul]. unfold lower_bicyclic_diagonal. cbn [dim nth]. rewrite Ed. cbn [bind]. rewrite Er. cbn [bind].
    destruct (finish K f (fun s => entry K n (fun i j => A [i; j]) (fun j k => B [j; k]) (s mod m) (s mod p)) (fun s => acc [s mod m; s mod p])
      vc N (m * p) (p * (n - 1))) as (out & Eout & Ho); auto; try lia.
    + intros s L1 L2. rewrite Hf by lia. unfold entry.
      etransitivity; [|exact (big_stride (radd K) (r0 K) (Kaddc K) (Kadda K) (Kadd0 K) (Z.to_nat n)
        (fun j => rmul K (A [s mod m; j]) (B [j; s mod p])) s p ltac:(lia) ltac:(rewrite Z2Nat.id, Z.gcd_comm; lia))].
      apply big_ext. intros c Hc. rewrite Z2Nat.id by lia. rewrite Z.mod_add by lia. rewrite (Z.mul_comm (Z.of_nat c)). reflexivity.
    + intros s. rewrite !mod_of_mod by (try lia; (exists p; ring) || (exists m; ring)). reflexivity.
    + intros s. rewrite !mod_of_mod by (try lia; (exists p; ring) || (exists m; ring)). reflexivity.
    + rewrite Eout. eexists. split; [reflexivity|]. apply (stored_bicyclic K m p slots N bo); auto; lia.
Qed.
Print Assumptions C76_matmul_plain.

(** ** dot *)
(** every step is a rotation of the products, so all slots hold the sum when the length is a power of two *)
Theorem C76_dot_partial : forall (K : cring) (x y acc : list Z -> K) k n slots a b init,
  0 <= k -> n = 2 ^ k -> n <= slots -> (exists l, 0 <= l /\ slots = 2 ^ l) -> slots <= 2 ^ 24 ->
  stored K (packs (row_major [n] slots)) x 1 slots a -> stored K (packs (row_major [n] slots)) y 1 slots b ->
  stored K (packs (scalar_layout slots)) acc 1 slots init ->
  exists out, lower_dot K [n] a b init = Some out /\
    stored K (packs (scalar_layout slots)) (dot_value K n x y acc) 1 slots out.
Proof.
  intros K x y acc k n slots a b init Hk En Hn Hpow H24 Sa Sb Sc.
  assert (Hn0 : 0 < n) by (rewrite En; now apply Z.pow_pos_nonneg).
  assert (Pn : padding n n) by (split; [now exists k|lia]). destruct (padding_fits _ _ _ Pn Hn Hpow) as (_ & Dn).
  set (N := Z.to_nat slots). assert (HN : Z.of_nat N = slots) by (unfold N; lia).
  destruct (stored_single _ _ _ _ _ Sa) as (va & ->). destruct (stored_single _ _ _ _ _ Sb) as (vb & ->). destruct (stored_single _ _ _ _ _ Sc) as (vc & ->).
  apply (stored_vector K n slots N n) in Sa; auto. apply (stored_vector K n slots N n) in Sb; auto. apply (stored_scalar K slots N) in Sc; auto.
  assert (P0 : (0 < N)%nat) by lia. destruct Sa as (La & Ha). destruct Sb as (Lb & Hb).
  pose proof (den_leaf K (no_vars K) va) as Da. pose proof (den_leaf K (no_vars K) vb) as Db. rewrite La in Da. rewrite Lb in Db.
  assert (k <= 24). { destruct (Z.le_gt_cases k 24); [easy|]. assert (2 ^ 24 < 2 ^ k) by (apply Z.pow_lt_mono_r; lia). lia. }
  pose proof (den_accumulate K (no_vars K) false 1 (Z.to_nat k) _ N _ P0 ltac:(lia) (den_mul K _ _ _ N _ _ P0 Da Db)) as D.
  unfold lower_dot. cbn [dim nth]. unfold dot. rewrite Z2Nat.id in D by lia. rewrite <- En in D. cbn [node_of] in D.
  rewrite (den_run K _ _ _ D). cbn [bind add_init]. rewrite (add_seq K _ vc N _ Sc). cbn [bind]. eexists. split; [reflexivity|].
  apply (stored_scalar K slots N); auto. split; [now rewrite map_length, seq_length|]. intros s Hs. rewrite nth_map_seq by auto. cbn [op_of unit_of].
  unfold dot_value, accumulated. rewrite Kaddc. f_equal.
  assert (En' : (2 ^ Z.to_nat k)%nat = Z.to_nat n).
  { apply Nat2Z.inj. rewrite Nat2Z.inj_pow, !Z2Nat.id by lia. now rewrite En. }
  rewrite En'. set (F := fun c => rmul K (x [c]) (y [c])).
  transitivity (rsum K (Z.to_nat n) (fun j => F ((Z.of_nat s + Z.of_nat j) mod Z.of_nat (Z.to_nat n)))).
  - apply big_ext. intros j Hj. cbv beta. rewrite Z.mul_1_r, Z2Nat.id by lia. unfold F, get. rewrite La, Lb.
    pose proof (Z.mod_pos_bound (Z.of_nat s + Z.of_nat j) (Z.of_nat N) ltac:(lia)). pose proof (Z.mod_pos_bound (Z.of_nat s + Z.of_nat j) n ltac:(lia)).
    rewrite Ha, Hb by lia. rewrite !Z2Nat.id by lia. unfold padded1. rewrite HN, !(mod_of_mod _ slots n) by (auto; lia).
    destruct (Z.ltb_spec ((Z.of_nat s + Z.of_nat j) mod n) n); [reflexivity|lia].
  - etransitivity; [exact (big_shift (radd K) (r0 K) (Kaddc K) (Kadda K) (Kadd0 K) (Z.to_nat n) F (Z.of_nat s) ltac:(lia))|]. apply big_ext. reflexivity.
Qed.
Print Assumptions C76_dot_partial.

(** ** What the code gets wrong *)
Lemma laid {K : cring} m n slots r (f : list Z -> K) : 0 < m -> 0 < n -> m * n <= slots -> slots <= 2 ^ 24 -> bicyclic [m; n] slots = Some r ->
  stored K (packs r) f 1 slots [map (fun i => f [Z.of_nat i mod m; Z.of_nat i mod n]) (seq 0 (Z.to_nat slots))].
Proof.
  intros Hm Hn Hs H24 E. apply (stored_bicyclic K m n slots (Z.to_nat slots) r); auto; [lia|].
  apply (holds_map K (Z.to_nat slots) (fun s => f [s mod m; s mod n])). reflexivity.
Qed.
Definition never (_ _ : rel) : bool := false.
Lemma never_sound : equal_sound never. Proof. intros a b E. discriminate E. Qed.
Definition pick (e d : list Z) : Z := if list_eq_dec Z.eq_dec d e then 1 else 0.
(** The accumulator of a matmul keeps its own layout, here the default one, and is added as if it had the layout of the result. *)
Theorem C76_accumulator_refuted : exists same A B acc lhs rhs m n p slots kernel ll lr lo a b init,
  equal_sound same /\ m * p + (n * p - 1 + m * (n - 1)) <= slots /\
  propagate_matmul same true true lhs rhs [m; n] [n; p] slots = Some (kernel, ll, lr, lo) /\
  stored Zcring (packs ll) A 1 slots a /\ stored Zcring (packs lr) B 1 slots b /\
  stored Zcring (packs (operand_layout None [m; p] slots)) acc 1 slots init /\
  exists out, lower_matmul Zcring kernel true [m; n] [n; p] a b init = Some out /\
    ~ stored Zcring (packs lo) (matmul_value Zcring n A B acc) 1 slots out.
Proof.
  exists never, (fun _ => 0), (fun _ => 0), (pick [0; 1]), (space 2 2 0), (space 2 2 0), 2, 3, 5, 32.
  destruct (bicyclic [2; 3] 32) as [bl|] eqn:El; [|vm_compute in El; discriminate El].
  destruct (bicyclic [3; 5] 32) as [br|] eqn:Er; [|vm_compute in Er; discriminate Er].
  destruct (bicyclic [2; 5] 32) as [bo|] eqn:Eo; [|vm_compute in Eo; discriminate Eo].
  exists MatmulBicyclic, bl, br, bo, [repeat 0 32], [repeat 0 32], [map (fun i => if (i mod 16 =? 1)%nat then 1 else 0) (seq 0 32)].
  split; [apply never_sound|]. split; [lia|]. split.
  { unfold propagate_matmul. cbn [dim nth]. change (Z.gcd 2 3) with 1. change (Z.gcd 3 5) with 1. change (Z.gcd 2 5) with 1. cbn [Z.eqb Pos.eqb andb].
    rewrite El, Er, Eo. assert (I : forall sh r, is_bicyclic never sh 32 r = false).
    { intros sh r. unfold is_bicyclic. destruct (negb _); [easy|]. destruct (_ || _)%bool; [easy|]. now destruct (bicyclic sh 32). }
    now rewrite !I. }
  split; [exact (@laid Zcring 2 3 32 bl (fun _ => 0) ltac:(lia) ltac:(lia) ltac:(lia) ltac:(lia) El)|].
  split; [exact (@laid Zcring 3 5 32 br (fun _ => 0) ltac:(lia) ltac:(lia) ltac:(lia) ltac:(lia) Er)|].
  split.
  { cbn [operand_layout]. apply (stored_matrix Zcring 2 5 32 32 16); try lia; [split; [exists 4; lia|lia]|].
    split; [reflexivity|]. intros s Hs. do 32 (destruct s as [|s]; [vm_compute; reflexivity|]). lia. }
  eexists. split; [vm_compute; reflexivity|]. intros (_ & _ & H & _).
  destruct (C72_bicyclic 2 5 32 bo) as (M & _); try lia; auto.
  assert (P : packs bo [0; 1] 0 6) by (apply M; vm_compute; splits; congruence).
  specialize (H _ _ _ P). vm_compute in H. discriminate H.
Qed.
Print Assumptions C76_accumulator_refuted.

(** Which operand is the ciphertext is decided by looking at the left operand: a secret that is computed, not an argument, is
    taken for the plaintext, and its single ciphertext for the diagonals. *)
Theorem C76_computed_lhs_refuted : exists same A B acc lhs rhs m n p slots kernel ll lr lo a b init,
  equal_sound same /\ m * p + m * (n - 1) <= slots /\ Z.gcd m p = 1 /\ Z.gcd n m = 1 /\
  propagate_matmul same true false lhs rhs [m; n] [n; p] slots = Some (kernel, ll, lr, lo) /\
  stored Zcring (packs ll) A 1 slots a /\ stored Zcring (packs lr) B n slots b /\ stored Zcring (packs lo) acc 1 slots init /\
  lower_matmul Zcring kernel false [m; n] [n; p] a b init = None.
Proof.
  exists never, (fun _ => 0), (fun _ => 0), (fun _ => 0), (space 2 2 0), (space 2 2 0), 2, 3, 5, 32.
  destruct (bicyclic [2; 3] 32) as [bl|] eqn:El; [|vm_compute in El; discriminate El].
  destruct (bicyclic [2; 5] 32) as [bo|] eqn:Eo; [|vm_compute in Eo; discriminate Eo].
  exists MatmulBicyclicDiagonal, bl, (bicyclic_diagonal [3; 5] true 2 32), bo, [repeat 0 32], (repeat (repeat 0 32) 3), [repeat 0 32].
  split; [apply never_sound|]. split; [lia|]. split; [reflexivity|]. split; [reflexivity|]. split.
  { unfold propagate_matmul. cbn [dim nth]. change (Z.gcd 2 3) with 1. change (Z.gcd 3 5) with 1. change (Z.gcd 2 5) with 1. cbn [Z.eqb Pos.eqb andb negb orb].
    rewrite El, Eo. assert (I : forall sh r, is_bicyclic never sh 32 r = false).
    { intros sh r. unfold is_bicyclic. destruct (negb _); [easy|]. destruct (_ || _)%bool; [easy|]. now destruct (bicyclic sh 32). }
    now rewrite !I. }
  split; [exact (@laid Zcring 2 3 32 bl (fun _ => 0) ltac:(lia) ltac:(lia) ltac:(lia) ltac:(lia) El)|].
  split.
  { assert (Z0 : forall ct s, content Zcring (repeat (repeat 0 32) 3) ct s = 0).
    { intros ct s. unfold content. destruct (Nat.lt_ge_cases (Z.to_nat ct) 3) as [L|L].
      - rewrite (nth_indep _ [] (repeat 0 32)) by (rewrite repeat_length; exact L). rewrite nth_repeat. apply nth_repeat.
      - rewrite (nth_overflow (repeat (repeat 0 32) 3)) by (rewrite repeat_length; exact L). now destruct (Z.to_nat s). }
    split; [reflexivity|]. split; [repeat constructor|]. split; intros; apply Z0. }
  split; [exact (@laid Zcring 2 5 32 bo (fun _ => 0) ltac:(lia) ltac:(lia) ltac:(lia) ltac:(lia) Eo)|]. reflexivity.
Qed.
Print Assumptions C76_computed_lhs_refuted.
(** The steps of a dot product double, so a length that is not a power of two is summed as if it were the power of two below. *)
Theorem C76_dot_refuted : exists n slots x y acc a b init out,
  stored Zcring (packs (row_major [n] slots)) x 1 slots a /\ stored Zcring (packs (row_major [n] slots)) y 1 slots b /\
  stored Zcring (packs (scalar_layout slots)) acc 1 slots init /\ lower_dot Zcring [n] a b init = Some out /\
  ~ stored Zcring (packs (scalar_layout slots)) (dot_value Zcring n x y acc) 1 slots out.
Proof.
  exists 3, 4, (fun _ => 1), (fun _ => 1), (fun _ => 0), [[1; 1; 1; 0]], [[1; 1; 1; 0]], [[0; 0; 0; 0]], [[2; 2; 1; 1]].
  assert (P : padding 3 4) by (split; [exists 2; lia|lia]).
  assert (V : stored Zcring (packs (row_major [3] 4)) (fun _ => 1) 1 4 [[1; 1; 1; 0]]).
  { apply (stored_vector Zcring 3 4 4 4); auto; try lia. split; [reflexivity|]. intros s Hs. do 4 (destruct s as [|s]; [reflexivity|]). lia. }
  split; [exact V|]. split; [exact V|]. split.
  { apply (stored_scalar Zcring 4 4); auto. split; [reflexivity|]. intros s Hs. do 4 (destruct s as [|s]; [reflexivity|]). lia. }
  split; [reflexivity|]. intros H. apply (stored_scalar Zcring 4 4) in H; auto. destruct H as (_ & H). specialize (H 0%nat ltac:(lia)). vm_compute in H. discriminate H.
Qed.
Print Assumptions C76_dot_refuted.
(** When the layouts of the operands of a batch_matmul differ, they are first all converted to the layout of the left one: elements
    outside its shape are lost before the conversion to the tricyclic layout. *)
Theorem C76_batch_rectified_refuted : exists h m n p slots r d,
  nth_error (rectified [operand_layout None [h; m; n] slots; operand_layout None [h; n; p] slots; operand_layout None [h; m; p] slots]) 1 = Some r /\
  in_box [h; n; p] d /\ forall ct slot, ~ packs r d ct slot.
Proof.
  exists 2, 3, 5, 7, 128. eexists. exists [0; 4; 6]. split; [reflexivity|]. split; [repeat (constructor; [lia|]); constructor|].
  intros ct slot P. cbn [operand_layout] in P.
  destruct (C72_row_major [2; 3; 5] 128 32) as (M & _); [repeat constructor; lia|cbn [size]; lia|lia|cbn [size]; split; [exists 5; lia|lia]|].
  apply M in P as (B & _). inversion B as [|? ? ? ? _ B']; subst. inversion B' as [|? ? ? ? H _]; subst. lia.
Qed.
Print Assumptions C76_batch_rectified_refuted.
(** The second operand of the other matmuls gets the diagonal layout of its transpose without exchanging the indices: elements of a
    matrix that is not square are in no slot (4x6 times 6x9, as in tests/Transforms/layout_propagation/matmul_pt.mlir); and this
    kernel has no lowering. *)
Theorem C76_matmul_diagonal_refuted : exists m n p slots kernel ll lr lo d,
  propagate_matmul never true false (operand_layout None [m; n] slots) (operand_layout None [n; p] slots) [m; n] [n; p] slots = Some (kernel, ll, lr, lo) /\
  in_box [n; p] d /\ (forall ct slot, ~ packs lr d ct slot) /\
  forall (K : cring) argument a b init, lower_matmul K kernel argument [m; n] [n; p] a b init = None.
Proof.
  exists 4, 6, 9, 1024. destruct (per_row [4; 6] 1024) as [l|] eqn:El; [|vm_compute in El; discriminate El].
  destruct (diagonal [9; 6] 1024) as [dg|] eqn:Ed; [|vm_compute in Ed; discriminate Ed].
  destruct (per_row [4; 9] 1024) as [o|] eqn:Eo; [|vm_compute in Eo; discriminate Eo].
  exists MatmulDiagonal, l, dg, o, [0; 8]. split.
  { unfold propagate_matmul. cbn [dim nth]. change (Z.gcd 4 6) with 2. change (Z.gcd 6 9) with 3. change (Z.gcd 4 9) with 1. cbn [Z.eqb Pos.eqb andb negb orb].
    rewrite El, Ed, Eo. reflexivity. }
  split; [repeat (constructor; [lia|]); constructor|]. split; [|reflexivity].
  intros ct slot P. destruct (C72_diagonal 9 6 1024 16 8 dg) as (M & _); try lia; [split; [exists 4; lia|lia]|split; [exists 3; lia|lia]|exact Ed|].
  apply M in P. lia.
Qed.
Print Assumptions C76_matmul_diagonal_refuted.

(** ** Examples *)
Definition small_image (d : list Z) : list (list Z) :=
  match d with
  | [i; j] => if ((0 <=? i) && (i <? 2) && (0 <=? j) && (j <? 3))%bool
              then filter (fun g => (i =? nth 1 g 0 mod 2) && (j =? (nth 0 g 0 + nth 1 g 0) mod 4))%bool
                     [[0; 0]; [0; 1]; [0; 2]; [0; 3]; [1; 0]; [1; 1]; [1; 2]; [1; 3]]
              else []
  | _ => []
  end.
Example C76_matvec_nonvacuous : exists lm lv lo, let none := fun _ : nat => @None Z in
  let M d := 10 * nth 0 d 0 + nth 1 d 0 + 1 in let x d := nth 0 d 0 + 1 in let acc d := 100 * (nth 0 d 0 + 1) in
  let mat := [[1; 12; 3; 0]; [2; 13; 0; 11]] in let vec := [[1; 2; 3; 0]] in let init := [[100; 200; 100; 200]] in
  propagate_matvec never (row_major [2; 3] 4) (row_major [3] 4) [2; 3] 4 = Some (lm, lv, lo) /\
  well_formed lm /\ bounds_hold lm none none /\ lists_images lm small_image /\ (exists box, domain_box lm none none = Some box) /\
  stored Zcring (packs lm) M 2 4 mat /\ stored Zcring (packs lv) x 1 4 vec /\ stored Zcring (packs lo) acc 1 4 init /\
  lower_matvec Zcring lm none none small_image [2; 3] mat vec init false = Some [[114; 274; 114; 274]].
Proof.
  destruct (diagonal [2; 3] 4) as [dg|] eqn:Ed; [|vm_compute in Ed; discriminate Ed].
  exists dg, (row_major [3] 4), (row_major [2] 4). cbv zeta.
  assert (P2 : padding 2 2) by (split; [exists 1; lia|lia]). assert (P3 : padding 3 4) by (split; [exists 2; lia|lia]).
  destruct (C72_diagonal 2 3 4 2 4 dg) as (M & _); auto; try lia. pose proof (ready_diagonal 2 3 4 dg ltac:(unfold max64; lia) ltac:(unfold max64; lia) Ed) as Rd.
  split; [unfold propagate_matvec; cbn [dim nth]; now rewrite Ed|].
  split; [apply fits_formed, Rd|]. split; [intros d g i b _; split; discriminate|].
  assert (LI : lists_images dg small_image).
  { intros d L. destruct Rd as (_ & Nd & Nr & _). rewrite Nd in L. destruct d as [|i [|j [|]]]; try discriminate. cbn [small_image].
    destruct (_ && _)%bool eqn:B.
    - repeat match goal with H : (_ && _)%bool = true |- _ => apply andb_prop in H as (? & ?) end. rewrite Z.leb_le, Z.ltb_lt in *. split.
      + apply NoDup_filter. repeat constructor; cbn; intuition discriminate.
      + intros g. rewrite filter_In, andb_true_iff, !Z.eqb_eq. split.
        * intros (I & E1 & E2). assert (exists ct s, g = [ct; s] /\ 0 <= ct < 2 /\ 0 <= s < 4) as (ct & s & -> & Hc & Hs).
          { cbn in I. repeat destruct I as [<-|I]; try (do 2 eexists; split; [reflexivity|lia]). destruct I. }
          cbn [nth] in E1, E2. apply M. splits; auto; lia.
        * intros G. assert (Lg : length g = 2%nat) by (destruct G as (_ & G & _); congruence). destruct g as [|ct [|s [|]]]; try discriminate.
          apply M in G as (_ & _ & Hc & Hs & E1 & E2). cbn [nth]. split; [|auto].
          assert (ct = 0 \/ ct = 1) as [-> | ->] by lia; assert (s = 0 \/ s = 1 \/ s = 2 \/ s = 3) as [-> |[-> |[-> | ->]]] by lia; cbn; tauto.
    - split; [constructor|]. intros g. split; [intros []|]. intros G. assert (Lg : length g = 2%nat) by (destruct G as (_ & G & _); congruence). destruct g as [|ct [|s [|]]]; try discriminate.
      apply M in G as (H1 & H2 & _). exfalso. assert (T : ((0 <=? i) && (i <? 2) && (0 <=? j) && (j <? 3))%bool = true); [|congruence].
      rewrite !andb_true_iff, !Z.leb_le, !Z.ltb_lt. lia. }
  split; [exact LI|]. split; [apply (ready_box 2), Rd|]. split.
  { apply (stored_diagonal Zcring 2 3 4 4 2 4 dg); auto; try lia. split; [reflexivity|]. intros k Hk. cbn [length] in Hk.
    do 2 (destruct k as [|k]; [split; [reflexivity|]; intros s Hs; do 4 (destruct s as [|s]; [reflexivity|]); lia|]). lia. }
  split. { apply (stored_vector Zcring 3 4 4 4); auto; try lia. split; [reflexivity|]. intros s Hs. do 4 (destruct s as [|s]; [reflexivity|]). lia. }
  split. { apply (stored_vector Zcring 2 4 4 2); auto; try lia. split; [reflexivity|]. intros s Hs. do 4 (destruct s as [|s]; [reflexivity|]). lia. }
  vm_compute in Ed. apply some_inj in Ed. subst dg. vm_compute. reflexivity.
Qed.
Example C76_matmul_nonvacuous : exists kernel ll lr lo, let A d := 10 * nth 0 d 0 + nth 1 d 0 + 1 in let acc d := nth 0 d 0 + 7 * nth 1 d 0 in
  let put m n f := [map (fun i => f [Z.of_nat i mod m; Z.of_nat i mod n]) (seq 0 32)] in
  propagate_matmul never true true (row_major [2; 3] 32) (row_major [3; 5] 32) [2; 3] [3; 5] 32 = Some (kernel, ll, lr, lo) /\
  stored Zcring (packs ll) A 1 32 (put 2 3 A) /\ stored Zcring (packs lr) A 1 32 (put 3 5 A) /\ stored Zcring (packs lo) acc 1 32 (put 2 5 acc) /\
  match lower_matmul Zcring kernel true [2; 3] [3; 5] (put 2 3 A) (put 3 5 A) (put 2 5 acc) with
  | Some [out] => nth 7 out 0 = 11 * 3 + 12 * 13 + 13 * 23 + (1 + 14)
  | _ => False
  end.
Proof.
  destruct (bicyclic [2; 3] 32) as [bl|] eqn:El; [|vm_compute in El; discriminate El].
  destruct (bicyclic [3; 5] 32) as [br|] eqn:Er; [|vm_compute in Er; discriminate Er].
  destruct (bicyclic [2; 5] 32) as [bo|] eqn:Eo; [|vm_compute in Eo; discriminate Eo].
  exists MatmulBicyclic, bl, br, bo. cbv zeta. split.
  { unfold propagate_matmul. cbn [dim nth]. change (Z.gcd 2 3) with 1. change (Z.gcd 3 5) with 1. change (Z.gcd 2 5) with 1. cbn [Z.eqb Pos.eqb andb].
    rewrite El, Er, Eo. assert (I : forall sh r, is_bicyclic never sh 32 r = false).
    { intros sh r. unfold is_bicyclic. destruct (negb _); [easy|]. destruct (_ || _)%bool; [easy|]. now destruct (bicyclic sh 32). }
    now rewrite !I. }
  split; [exact (@laid Zcring 2 3 32 bl (fun d => 10 * nth 0 d 0 + nth 1 d 0 + 1) ltac:(lia) ltac:(lia) ltac:(lia) ltac:(lia) El)|].
  split; [exact (@laid Zcring 3 5 32 br (fun d => 10 * nth 0 d 0 + nth 1 d 0 + 1) ltac:(lia) ltac:(lia) ltac:(lia) ltac:(lia) Er)|].
  split; [exact (@laid Zcring 2 5 32 bo (fun d => nth 0 d 0 + 7 * nth 1 d 0) ltac:(lia) ltac:(lia) ltac:(lia) ltac:(lia) Eo)|].
  vm_compute. reflexivity.
Qed.
Example C76_matmul_plain_nonvacuous :
  let A d := 10 * nth 0 d 0 + nth 1 d 0 + 1 in let acc d := nth 0 d 0 + 7 * nth 1 d 0 in
  let a := [map (fun i => A [Z.of_nat i mod 2; Z.of_nat i mod 3]) (seq 0 32)] in
  let b := map (fun c => map (fun i => A [(Z.of_nat i + Z.of_nat c * 2) mod 3; Z.of_nat i mod 5]) (seq 0 32)) (seq 0 3) in
  let init := [map (fun i => acc [Z.of_nat i mod 2; Z.of_nat i mod 5]) (seq 0 32)] in
  stored Zcring (packs (bicyclic_diagonal [3; 5] true 2 32)) A 3 32 b /\
  match propagate_matmul never true false (row_major [2; 3] 32) (row_major [3; 5] 32) [2; 3] [3; 5] 32 with
  | Some (kernel, _, _, _) =>
    match lower_matmul Zcring kernel true [2; 3] [3; 5] a b init with
    | Some [out] => nth 7 out 0 = 11 * 3 + 12 * 13 + 13 * 23 + (1 + 14)
    | _ => False
    end
  | None => False
  end.
Proof.
  cbv zeta. split; [|vm_compute; reflexivity].
  apply (stored_bicyclic_diagonal Zcring 3 5 true 2 32 32); try lia. split; [reflexivity|]. cbn [length map seq]. intros c Hc.
  do 3 (destruct c as [|c]; [split; [reflexivity|]; intros s Hs; do 32 (destruct s as [|s]; [vm_compute; reflexivity|]); lia|]). lia.
Qed.
Example C76_batch_nonvacuous :
  let A d := 100 * nth 0 d 0 + 10 * nth 1 d 0 + nth 2 d 0 + 1 in let acc d := nth 0 d 0 + 7 * nth 1 d 0 + nth 2 d 0 in
  let put m n p f := [map (fun i => f [Z.of_nat i mod m; Z.of_nat i mod n; Z.of_nat i mod p]) (seq 0 160)] in
  (exists l, propagate_batch never (row_major [2; 3; 5] 160) (row_major [2; 3; 5] 160) [2; 3; 5] [2; 5; 7] 160 = Some l /\
     stored Zcring (packs (fst (fst l))) A 1 160 (put 2 3 5 A) /\ stored Zcring (packs (snd (fst l))) A 1 160 (put 2 5 7 A) /\ stored Zcring (packs (snd l)) acc 1 160 (put 2 3 7 acc)) /\
  match lower_batch Zcring [2; 3; 5] [2; 5; 7] (put 2 3 5 A) (put 2 5 7 A) (put 2 3 7 acc) with
  | Some [out] => nth 1 out 0 = 111 * 102 + 112 * 112 + 113 * 122 + 114 * 132 + 115 * 142 + (1 + 7 + 1)
  | _ => False
  end.
Proof.
  assert (T : forall h m n r (f : list Z -> Z), 0 < h -> 0 < m -> 0 < n -> h * m * n <= 160 -> tricyclic [h; m; n] 160 = Some r ->
    stored Zcring (packs r) f 1 160 [map (fun i => f [Z.of_nat i mod h; Z.of_nat i mod m; Z.of_nat i mod n]) (seq 0 160)]).
  { intros h m n r f Hh Hm Hn L E. apply (stored_tricyclic Zcring h m n 160 160 r); auto; try lia.
    apply (holds_map Zcring 160 (fun s => f [s mod h; s mod m; s mod n])). reflexivity. }
  cbv zeta. split; [|vm_compute; reflexivity].
  destruct (tricyclic [2; 3; 5] 160) as [bl|] eqn:El; [|vm_compute in El; discriminate El].
  destruct (tricyclic [2; 5; 7] 160) as [br|] eqn:Er; [|vm_compute in Er; discriminate Er].
  destruct (tricyclic [2; 3; 7] 160) as [bo|] eqn:Eo; [|vm_compute in Eo; discriminate Eo].
  exists (bl, br, bo). split.
  { unfold propagate_batch. cbn [dim nth]. change (Z.gcd 2 3) with 1. change (Z.gcd 2 5) with 1. change (Z.gcd 3 5) with 1. change (Z.gcd 2 7) with 1. change (Z.gcd 5 7) with 1. change (Z.gcd 3 7) with 1.
    cbn [Z.eqb Pos.eqb andb]. rewrite El, Er, Eo. assert (I : forall sh r, is_tricyclic never sh 160 r = false).
    { intros sh r. unfold is_tricyclic. destruct (negb _); [easy|]. destruct (_ || _)%bool; [easy|]. destruct (_ || _)%bool; [easy|]. now destruct (tricyclic sh 160). }
    now rewrite !I. }
  cbn [fst snd]. split; [|split].
  - exact (T 2 3 5 bl (fun d => 100 * nth 0 d 0 + 10 * nth 1 d 0 + nth 2 d 0 + 1) ltac:(lia) ltac:(lia) ltac:(lia) ltac:(lia) El).
  - exact (T 2 5 7 br (fun d => 100 * nth 0 d 0 + 10 * nth 1 d 0 + nth 2 d 0 + 1) ltac:(lia) ltac:(lia) ltac:(lia) ltac:(lia) Er).
  - exact (T 2 3 7 bo (fun d => nth 0 d 0 + 7 * nth 1 d 0 + nth 2 d 0) ltac:(lia) ltac:(lia) ltac:(lia) ltac:(lia) Eo).
Qed.
Example C76_dot_nonvacuous :
  let x d := nth 0 d 0 + 1 in
  stored Zcring (packs (row_major [4] 8)) x 1 8 [[1; 2; 3; 4; 1; 2; 3; 4]] /\ stored Zcring (packs (scalar_layout 8)) (fun _ => 5) 1 8 [repeat 5 8] /\
  lower_dot Zcring [4] [[1; 2; 3; 4; 1; 2; 3; 4]] [[1; 2; 3; 4; 1; 2; 3; 4]] [repeat 5 8] = Some [repeat 35 8].
Proof.
  cbv zeta. split.
  { apply (stored_vector Zcring 4 8 8 4); try lia; [split; [exists 2; lia|lia]|]. split; [reflexivity|]. intros s Hs. do 8 (destruct s as [|s]; [reflexivity|]). lia. }
  split; [|reflexivity]. apply (stored_scalar Zcring 8 8); [reflexivity|]. split; [reflexivity|]. intros s Hs. do 8 (destruct s as [|s]; [reflexivity|]). lia.
Qed.
