From Coq Require Import ZArith List Bool Lia.
From Verif Require Import NumTheory_Model NumTheory_Proofs Rel_Model Rel_Proofs Layout_Spec.
Import ListNotations.
Open Scope Z_scope.

(** * Padding *)
Lemma padded_ok n : 1 <= n < 2 ^ 62 -> padding n (padded n).
Proof.
  intros H. unfold padded. destruct (is_power_of_two n) eqn:E.
  - assert (U1 : n < 2 ^ 63) by lia. assert (U2 : - 2 ^ 63 <= n) by lia. apply (is_power_of_two_ok n U1 U2) in E. split; [exact E|lia].
  - destruct (next_power_of_two_ok n) as (k & Hk & -> & L & M); [lia|]. split; [exists k; split; [lia|easy]|]. split; [easy|].
    destruct (Z.eq_dec k 0) as [->|K]; [rewrite Z.pow_0_r; lia|]. destruct (Z.lt_ge_cases (2 ^ k) (2 * n)) as [?|G]; [easy|].
    assert (k <= k - 1); [|lia]. apply M; [lia|]. replace k with (Z.succ (k - 1)) in G by lia. rewrite Z.pow_succ_r in G by lia. lia.
Qed.
Lemma next_ok n : 1 <= n < 2 ^ 62 -> padding n (next_power_of_two n).
Proof.
  intros H. destruct (next_power_of_two_ok n) as (k & Hk & -> & L & M); [lia|]. split; [exists k; split; [lia|easy]|]. split; [easy|].
  destruct (Z.eq_dec k 0) as [->|K]; [rewrite Z.pow_0_r; lia|]. destruct (Z.lt_ge_cases (2 ^ k) (2 * n)) as [?|G]; [easy|].
  assert (k <= k - 1); [|lia]. apply M; [lia|]. replace k with (Z.succ (k - 1)) in G by lia. rewrite Z.pow_succ_r in G by lia. lia.
Qed.
Lemma padding_unique n p q : 1 <= n -> padding n p -> padding n q -> p = q.
Proof.
  assert (W : forall a b, 0 <= a -> 0 <= b -> n <= 2 ^ a < 2 * n -> n <= 2 ^ b < 2 * n -> a <= b).
  { intros a b Ha Hb A B. destruct (Z.le_gt_cases a b) as [?|G]; [easy|]. exfalso.
    assert (2 ^ Z.succ b <= 2 ^ a) by (apply Z.pow_le_mono_r; lia). rewrite Z.pow_succ_r in H by lia. lia. }
  intros H ((a & Ha & ->) & A) ((b & Hb & ->) & B). f_equal. pose proof (W a b). pose proof (W b a). lia.
Qed.

(** * The number of ciphertexts *)
Lemma to_float_small n : 0 < n <= 2 ^ 24 -> to_float n = n.
Proof.
  intros H. unfold to_float. destruct (Z.leb_spec (Z.log2 n - 23) 0) as [?|G]; [easy|].
  assert (N : n = 2 ^ 24).
  { assert (2 ^ 24 <= 2 ^ Z.log2 n) by (apply Z.pow_le_mono_r; lia). pose proof (Z.log2_spec n). lia. }
  rewrite N. reflexivity.
Qed.
Lemma to_even_le a b n : 0 < b -> a <= n * b -> to_even a b <= n.
Proof.
  intros Hb H. unfold to_even. pose proof (Z.div_mod a b ltac:(lia)). pose proof (Z.mod_pos_bound a b Hb).
  assert (a / b < n \/ (a / b = n /\ a mod b = 0)) as [L|(L & M)] by nia.
  - destruct (2 * (a mod b) ?= b); try destruct (Z.even (a / b)); lia.
  - rewrite M. assert (Q : (2 * 0 ?= b) = Lt) by (now apply Z.compare_lt_iff). rewrite Q. lia.
Qed.
Lemma to_even_gt a b n : 0 < b -> n * (2 * b) + b < 2 * a -> n < to_even a b.
Proof.
  intros Hb H. unfold to_even. pose proof (Z.div_mod a b ltac:(lia)). pose proof (Z.mod_pos_bound a b Hb).
  assert (n <= a / b) by nia. assert (n < a / b \/ (n = a / b /\ b < 2 * (a mod b))) as [L|(L & M)] by nia.
  - destruct (2 * (a mod b) ?= b); try destruct (Z.even (a / b)); lia.
  - assert (Q : (2 * (a mod b) ?= b) = Gt) by (apply Z.compare_gt_iff; lia). rewrite Q. lia.
Qed.
Lemma to_even_exact b n : 0 < b -> to_even (n * b) b = n.
Proof. intros Hb. unfold to_even. rewrite Z.mod_mul, Z.div_mul by lia. assert (Q : (2 * 0 ?= b) = Lt) by (now apply Z.compare_lt_iff). now rewrite Q. Qed.
(** the float computation is exact up to 2^24 elements *)
Lemma ceil_small a b : 0 < a <= 2 ^ 24 -> 0 < b <= 2 ^ 24 -> ceil_float a b = (a + b - 1) / b.
Proof.
  intros Ha Hb. unfold ceil_float. rewrite !to_float_small by easy. unfold round24.
  destruct (Z.log2_spec a) as (A1 & A2); [lia|]. destruct (Z.log2_spec b) as (B1 & B2); [lia|].
  pose proof (Z.log2_nonneg a) as A3. pose proof (Z.log2_nonneg b) as B3.
  set (la := Z.log2 a) in *. set (lb := Z.log2 b) in *.
  assert (La : la <= 24) by (apply (Z.log2_le_mono a (2 ^ 24)); lia).
  destruct (Z.eq_dec (la - lb) 24) as [E24|N24].
  { assert (la = 24 /\ lb = 0) as (Ea & Eb) by lia. rewrite Ea, Eb in *. change (2 ^ Z.succ 0) with 2 in B2. assert (b = 1) by (cbn in B1; lia). assert (a = 2 ^ 24) by lia. subst a b. reflexivity. }
  set (e0 := la - lb - 23). assert (He0 : e0 <= 0) by lia.
  set (e := if _ <? _ then e0 - 1 else e0).
  assert (K : e <= 0 /\ 2 ^ 23 * b <= a * 2 ^ (- e)).
  { unfold e. rewrite (Z.max_r 0 (- e0)), (Z.max_l 0 e0), Z.pow_0_r, Z.mul_1_r by lia. destruct (Z.ltb_spec (a * 2 ^ (- e0)) (2 ^ 23 * b)) as [?|G]; [|lia].
    split; [lia|]. replace (- (e0 - 1)) with (Z.succ (- e0)) by lia. rewrite Z.pow_succ_r by lia.
    assert (P : 2 ^ la * 2 ^ (- e0) * 2 = 2 ^ 23 * 2 ^ Z.succ lb).
    { rewrite <- Z.pow_add_r by lia. rewrite (Z.mul_comm _ 2), <- Z.pow_succ_r by lia. rewrite <- Z.pow_add_r by lia. apply f_equal. unfold e0. lia. }
    assert (0 < 2 ^ (- e0)) by (apply Z.pow_pos_nonneg; lia). nia. }
  clearbody e. destruct K as (K1 & K2). rewrite (Z.max_r 0 (- e)), (Z.max_l 0 e), Z.pow_0_r, !Z.mul_1_r by lia.
  set (f := - e) in *. assert (Hf : 0 <= f) by lia. assert (Pf : 0 < 2 ^ f) by (apply Z.pow_pos_nonneg; lia).
  set (c := (a + b - 1) / b). assert (C : (c - 1) * b < a <= c * b).
  { unfold c. pose proof (Z.div_mod (a + b - 1) b ltac:(lia)). pose proof (Z.mod_pos_bound (a + b - 1) b ltac:(lia)). nia. }
  clearbody c. set (m := to_even (a * 2 ^ f) b).
  assert (M1 : m <= c * 2 ^ f) by (apply to_even_le; nia).
  assert (M2 : (c - 1) * 2 ^ f < m).
  { destruct (Z.lt_ge_cases b (2 * 2 ^ f)) as [G|G]; [apply to_even_gt; nia|].
    assert (b = 2 * 2 ^ f /\ a = 2 ^ 24) as (Eb & Ea) by nia.
    unfold m. replace (a * 2 ^ f) with (2 ^ 23 * b) by nia. rewrite to_even_exact by lia. nia. }
  clearbody m. clear - M1 M2 Pf. pose proof (Z.div_mod (- m) (2 ^ f) ltac:(lia)). pose proof (Z.mod_pos_bound (- m) (2 ^ f) ltac:(lia)). nia.
Qed.

(** * Boxes *)
Lemma box_length shape d : in_box shape d -> length d = length shape.
Proof. induction 1; cbn; lia. Qed.
Lemma box_nth shape d : in_box shape d <-> length d = length shape /\ forall i, (i < length shape)%nat -> 0 <= nth i d 0 < nth i shape 0.
Proof.
  split.
  - intros H. split; [now apply box_length|]. induction H as [|s i shape d A H IH]; cbn [length]; intros k Hk; [lia|].
    destruct k; cbn [nth]; [easy|]. apply IH. lia.
  - revert d. induction shape as [|s shape IH]; intros [|i d] (L & H); cbn in L; try lia; [constructor|]. constructor.
    + apply (H 0%nat). cbn; lia.
    + apply IH. split; [lia|]. intros k Hk. apply (H (S k)). cbn; lia.
Qed.
Lemma relates_box shape n d g : n = length shape ->
  (relates (bound_all (space n 2 0) 0 shape) d g <-> in_box shape d /\ length g = 2%nat).
Proof.
  intros ->. rewrite relates_bound_all by (unfold local_at; cbn; lia). rewrite relates_space, box_nth. split.
  - intros ((A & B) & K). splits. intros i Hi. specialize (K i Hi). cbn [Nat.add] in K. rewrite app_nth1 in K by lia. lia.
  - intros ((A & K) & B). splits. intros i Hi. cbn [Nat.add]. rewrite app_nth1 by lia. auto.
Qed.
Lemma size_elements shape : elements shape = size shape.
Proof. induction shape as [|s l IH]; [easy|]. unfold elements in *. cbn [fold_right size]. now rewrite IH. Qed.
Lemma size_pos shape : Forall (fun s => 0 < s) shape -> 0 < size shape.
Proof. induction 1 as [|s l H F IH]; cbn; lia. Qed.
Lemma flat_bound shape d : in_box shape d -> 0 <= flat shape d < size shape.
Proof. induction 1 as [|s i shape d H F IH]; cbn; [lia|]. nia. Qed.
Lemma flat_inj shape d : in_box shape d -> forall e, in_box shape e -> flat shape d = flat shape e -> d = e.
Proof.
  induction 1 as [|s i shape d H F IH]; intros e He E; inversion He as [|s' j shape' e' Hj Fe]; subst; auto.
  cbn in E. pose proof (flat_bound _ _ F). pose proof (flat_bound _ _ Fe).
  assert (i = j) by nia. subst j. f_equal. apply IH; auto. lia.
Qed.
Lemma coeffs_ok shape : Forall (fun s => 0 < s) shape -> size shape < 2 ^ 32 ->
  length (fst (row_major_coeffs shape)) = length shape /\ snd (row_major_coeffs shape) = size shape /\
  forall d y, length d = length shape -> dot (fst (row_major_coeffs shape)) (d ++ y) = flat shape d.
Proof.
  induction 1 as [|s l H F IH]; intros B; cbn [row_major_coeffs size flat length] in *.
  - split; [easy|]. split; [easy|]. intros [|a d] y L; [now destruct y|cbn in L; lia].
  - pose proof (size_pos l F). destruct IH as (A & C & D); [nia|]. destruct (row_major_coeffs l) as [c p]. cbn [fst snd length] in *. subst p.
    split; [lia|]. split; [unfold u32; rewrite Z.mod_small; lia|]. intros [|a d] y L; cbn in L; [lia|]. cbn [app dot]. rewrite D by lia. lia.
Qed.

(** the variables of the range *)
Lemma relates_ct r lo up d ct slot : nr r = 2%nat ->
  (relates (add_bounds r (range_at r) lo (Some up)) d [ct; slot] <-> relates r d [ct; slot] /\ lo <= ct <= up).
Proof.
  intros H. rewrite relates_bounds by (unfold local_at, range_at; lia). unfold range_at. split.
  - intros (R & B). split; [easy|]. destruct R as (L & _). rewrite app_nth2 in B by lia. now replace (nd r - length d)%nat with 0%nat in B by lia.
  - intros (R & B). split; [easy|]. destruct R as (L & _). rewrite app_nth2 by lia. now replace (nd r - length d)%nat with 0%nat by lia.
Qed.
Lemma relates_slot r lo up d ct slot : nr r = 2%nat ->
  (relates (add_bounds r (range_at r + 1) lo (Some up)) d [ct; slot] <-> relates r d [ct; slot] /\ lo <= slot <= up).
Proof.
  intros H. rewrite relates_bounds by (unfold local_at, range_at; lia). unfold range_at. split.
  - intros (R & B). split; [easy|]. destruct R as (L & _). rewrite app_nth2 in B by lia. now replace (nd r + 1 - length d)%nat with 1%nat in B by lia.
  - intros (R & B). split; [easy|]. destruct R as (L & _). rewrite app_nth2 by lia. now replace (nd r + 1 - length d)%nat with 1%nat by lia.
Qed.
Lemma lin_slot r d ct slot : length d = nd r -> lin [((range_at r + 1)%nat, 1)] (d ++ [ct; slot]) = slot.
Proof. intros L. unfold lin, range_at. cbn [fold_right fst snd]. rewrite app_nth2 by lia. replace (nd r + 1 - length d)%nat with 1%nat by lia. cbn [nth]. lia. Qed.
Lemma lin_both r a b d ct slot : length d = nd r -> lin [(range_at r, a); ((range_at r + 1)%nat, b)] (d ++ [ct; slot]) = a * ct + b * slot.
Proof. intros L. unfold lin, range_at. cbn [fold_right fst snd]. rewrite !app_nth2 by lia. replace (nd r + 1 - length d)%nat with 1%nat by lia. replace (nd r - length d)%nat with 0%nat by lia. cbn [nth]. lia. Qed.
Lemma points_slot r c : nr r = 2%nat -> points r [((range_at r + 1)%nat, c)].
Proof. intros H. unfold range_at. split; [repeat constructor; easy|]. repeat constructor. cbn. unfold local_at. lia. Qed.
Lemma points_both r a b : nr r = 2%nat -> points r [(range_at r, a); ((range_at r + 1)%nat, b)].
Proof. intros H. unfold range_at. split; [repeat constructor; cbn; intros K; try tauto; lia|]. repeat constructor; cbn; unfold local_at; lia. Qed.

Lemma coeffs_length shape : length (fst (row_major_coeffs shape)) = length shape.
Proof. induction shape as [|s l IH]; cbn [row_major_coeffs length]; auto. destruct (row_major_coeffs l). cbn [fst length] in *. lia. Qed.
Section RowMajor.
Variables (shape : list Z) (slots : Z).
Hypothesis P : Forall (fun s => 0 < s) shape.
Hypothesis H62 : size shape < 2 ^ 62.
Hypothesis Hs : 0 < slots.
Lemma row_major_relates_gen d ct slot : let f := dot (fst (row_major_coeffs shape)) d in
  relates (row_major shape slots) d [ct; slot] <->
  in_box shape d /\ 0 <= ct <= ceil_float (size shape) slots - 1 /\ 0 <= slot < slots /\ ct = f / slots /\ slot mod padded (size shape) = f mod slots.
Proof.
  intros f. pose proof (size_pos _ P) as Sp. unfold row_major. rewrite size_elements.
  set (r0 := bound_all (space (length shape) 2 0) 0 shape).
  assert (D0 : nd r0 = length shape /\ nr r0 = 2%nat /\ nl r0 = 0%nat) by (apply dims_bound_all).
  set (r0' := add_bounds r0 (range_at r0) _ _). change (range_at r0') with (range_at r0'). set (r1 := add_bounds r0' _ 0 (Some (slots - 1))).
  assert (D1 : nd r1 = length shape /\ nr r1 = 2%nat /\ nl r1 = 0%nat) by exact D0.
  assert (F1 : fits r1) by (repeat apply fits_bounds; apply fits_bound_all, fits_space).
  assert (R1 : relates r1 d [ct; slot] <-> in_box shape d /\ 0 <= ct <= ceil_float (size shape) slots - 1 /\ 0 <= slot < slots).
  { unfold r1. rewrite relates_slot by apply D0. unfold r0'. rewrite relates_ct by apply D0. unfold r0. rewrite relates_box by easy. cbn [length]. split; intros; splits; try tauto; lia. }
  clearbody r1. clear D0 r0 r0'.
  pose proof (coeffs_length shape) as Lc. set (c := fst (row_major_coeffs shape) ++ repeat 0 3).
  assert (Vc : forall x, length d = length shape -> value (c ++ repeat 0 (length x)) (d ++ [ct; slot] ++ x) = f).
  { intros x L. unfold value, c. rewrite <- !app_assoc. rewrite dot_app by lia.
    rewrite <- repeat_app, dot_zeros. unfold f. lia. }
  assert (Lcc : length c = cols r1) by (unfold c, cols; rewrite app_length, repeat_length; lia).
  set (r2 := add_floor_div r1 c slots). set (r3 := add_constraint r2 _ true).
  assert (F2 : fits r2) by (now apply fits_floor). assert (F3 : fits r3) by (now apply fits_constraint).
  assert (D3 : nd r3 = length shape /\ nr r3 = 2%nat /\ nl r3 = 1%nat).
  { unfold r3, r2, add_constraint, add_floor_div, append_local, widen_all. cbn. lia. }
  set (c3 := c ++ repeat 0 (cols r3 - length c)).
  assert (N3 : no_locals r3 c3).
  { assert (C3 : cols r3 = (length c + 1)%nat) by (rewrite Lcc; unfold cols; lia). split; [unfold c3; rewrite app_length, repeat_length; lia|].
    intros k (K & _). unfold c3, c. rewrite <- app_assoc, <- repeat_app. rewrite app_nth2 by (unfold local_at in K; lia). apply nth_repeat. }
  destruct (shape_mod r3 c3 slots) as (D4d & D4r & D4l & P4). pose proof (fits_mod r3 c3 slots F3 (proj1 N3)) as F4.
  pose proof (sat_mod r3 c3 slots) as S4.
  destruct (add_mod r3 c3 slots) as [r4 rhs]. cbn [fst snd] in *.
  set (e4 := row (cols r4) _).
  assert (N4 : no_locals r4 e4) by (apply no_locals_row, points_slot; lia).
  destruct (shape_mod r4 e4 (padded (size shape))) as (D5d & D5r & D5l & P5).
  pose proof (sat_mod r4 e4 (padded (size shape))) as S5.
  destruct (add_mod r4 e4 (padded (size shape))) as [r5 lhs]. cbn [fst snd] in *.
  assert (Pp : 0 < padded (size shape)) by (destruct (padded_ok (size shape)) as (_ & ?); lia).
  assert (SF : forall q q1 w1 q2 w2, length d = length shape ->
     (sat (add_eq r5 (row (cols r5) [(rhs, 1); (lhs, -1)])) (d ++ [ct; slot] ++ [q; q1; w1; q2; w2]) <->
      sat r1 (d ++ [ct; slot]) /\ q = f / slots /\ q = ct /\ q1 = f / slots /\ w1 = f mod slots /\
      q2 = slot / padded (size shape) /\ w2 = slot mod padded (size shape) /\ w1 = w2)).
  { intros q q1 w1 q2 w2 L.
    assert (V5 : value (row (cols r5) [(rhs, 1); (lhs, -1)]) (d ++ [ct; slot] ++ [q; q1; w1; q2; w2]) = w1 - w2).
    { unfold value. rewrite dot_row; [|repeat constructor; cbn; intros K; try tauto; unfold local_end in *; lia|unfold cols, local_end in *; repeat constructor; cbn; lia].
      unfold lin. cbn [fold_right fst snd]. rewrite <- !app_assoc. cbn [app]. rewrite !app_nth2 by (unfold local_end in *; lia).
      replace (rhs - length d)%nat with 4%nat by (unfold local_end in *; lia). replace (lhs - length d)%nat with 6%nat by (unfold local_end in *; lia). cbn [nth]. lia. }
    rewrite sat_eq, V5.
    replace (d ++ [ct; slot] ++ [q; q1; w1; q2; w2]) with ((d ++ [ct; slot] ++ [q; q1; w1]) ++ [q2; w2]) by (rewrite <- !app_assoc; reflexivity).
    rewrite S5; auto; [|rewrite !app_length; cbn; unfold local_end; lia].
    assert (V4 : value e4 (d ++ [ct; slot] ++ [q; q1; w1]) = slot).
    { unfold e4. rewrite value_points; [|apply points_slot; lia|lia|cbn; lia]. apply lin_slot. lia. }
    rewrite V4. replace (d ++ [ct; slot] ++ [q; q1; w1]) with ((d ++ [ct; slot] ++ [q]) ++ [q1; w1]) by (rewrite <- !app_assoc; reflexivity).
    rewrite S4; auto; [|rewrite !app_length; cbn; unfold local_end; lia].
    assert (V3 : value c3 (d ++ [ct; slot] ++ [q]) = f).
    { unfold c3. replace (cols r3 - length c)%nat with (length [q]) by (unfold cols in *; cbn; lia). now apply Vc. }
    rewrite V3. unfold r3, add_constraint. rewrite sat_eq.
    assert (V2 : value (row (cols r2) [(range_at r2, -1); ((local_end r2 - 1)%nat, 1)]) (d ++ [ct; slot] ++ [q]) = q - ct).
    { assert (D2 : nd r2 = length shape /\ nr r2 = 2%nat /\ nl r2 = 1%nat) by exact D3.
      unfold value. rewrite dot_row; [|repeat constructor; cbn; intros K; try tauto; unfold local_end, range_at in *; lia|unfold cols, local_end, range_at in *; repeat constructor; cbn; lia].
      unfold lin. cbn [fold_right fst snd]. rewrite <- !app_assoc. cbn [app]. rewrite !app_nth2 by (unfold local_end, range_at in *; lia).
      replace (range_at r2 - length d)%nat with 0%nat by (unfold range_at in *; lia). replace (local_end r2 - 1 - length d)%nat with 2%nat by (unfold local_end in *; lia). cbn [nth]. lia. }
    rewrite V2. unfold r2. rewrite app_assoc, sat_floor; auto; [|rewrite app_length; cbn; unfold local_end; lia].
    assert (V1 : value c (d ++ [ct; slot]) = f) by (rewrite <- (Vc [] L), !app_nil_r; reflexivity).
    rewrite V1. split; intros; splits; try tauto; lia. }
  assert (RR : sat r1 (d ++ [ct; slot]) /\ length d = length shape <-> relates r1 d [ct; slot]).
  { unfold relates. destruct D1 as (-> & -> & ->). split.
    - intros (A & B). splits. exists []. auto.
    - intros (A & B & z & C & D). destruct z; [auto|discriminate]. }
  rewrite R1 in RR. unfold relates at 1. cbn [add_eq nd nr nl]. rewrite D5d, D5r, D5l, D4d, D4r, D4l. destruct D3 as (-> & -> & ->). cbn [Nat.add]. split.
  - intros (L & _ & l & Ll & S). destruct l as [|q [|q1 [|w1 [|q2 [|w2 [|]]]]]]; try (cbn in Ll; lia). apply SF in S; [|easy]. destruct S as (S & S'). assert (RR' := proj1 RR (conj S L)).
    splits; try tauto; lia.
  - intros (B & Ct & Sl & -> & M). pose proof (box_length _ _ B) as L. splits.
    exists [f / slots; f / slots; f mod slots; slot / padded (size shape); slot mod padded (size shape)].
    split; [easy|]. apply SF; [easy|]. splits. apply RR. split; [easy|]. split; lia.
Qed.
Lemma row_major_relates d ct slot : size shape <= 2 ^ 24 -> slots <= 2 ^ 24 ->
  (relates (row_major shape slots) d [ct; slot] <->
  in_box shape d /\ 0 <= slot < slots /\ ct = flat shape d / slots /\ slot mod padded (size shape) = flat shape d mod slots).
Proof.
  intros H24 Hs'. rewrite row_major_relates_gen. pose proof (size_pos _ P) as Sp. rewrite ceil_small by lia.
  destruct (coeffs_ok shape P ltac:(lia)) as (_ & _ & Fc).
  assert (E : in_box shape d -> dot (fst (row_major_coeffs shape)) d = flat shape d).
  { intros B. rewrite <- (Fc d [] (box_length _ _ B)). now rewrite app_nil_r. }
  split; [intros (B & C & S & Q & M)|intros (B & S & Q & M)]; rewrite ?(E B) in *; [splits; lia|]. refine (conj B (conj _ (conj S (conj Q M)))).
  pose proof (flat_bound _ _ B) as Fb. rewrite Q. split; [apply Z.div_pos; lia|].
  assert (flat shape d / slots <= (size shape - 1) / slots) by (apply Z.div_le_mono; lia).
  replace (size shape + slots - 1) with (size shape - 1 + 1 * slots) by lia. rewrite Z.div_add by lia. lia.
Qed.
End RowMajor.

Ltac ands := repeat match goal with H : _ /\ _ |- _ => destruct H end.
Lemma box2 a b i j : in_box [a; b] [i; j] -> 0 <= i < a /\ 0 <= j < b.
Proof. intros B. inversion B as [|? ? ? ? B1 B']; subst. inversion B' as [|? ? ? ? B2 _]; subst. lia. Qed.
Lemma some_inj {A} (a b : A) : Some a = Some b -> a = b.
Proof. congruence. Qed.
(** * The cyclic layouts *)
Ltac dims := repeat match goal with |- context [nr (add_mod_eq ?r ?l ?m ?v)] => rewrite (proj2 (dims_mod_eq r l m v)) end.
Lemma local_at_mod_eq r l m v : local_at (add_mod_eq r l m v) = local_at r.
Proof. unfold local_at. destruct (dims_mod_eq r l m v) as (-> & ->). reflexivity. Qed.
Lemma range_at_mod_eq r l m v : range_at (add_mod_eq r l m v) = range_at r.
Proof. unfold range_at. now destruct (dims_mod_eq r l m v) as (-> & _). Qed.
(** the condition of one modulo with the slot alone, and with both variables of the range *)
Lemma relates_slot_mod r c m v d ct slot : fits r -> nr r = 2%nat -> (v < nd r)%nat -> 0 < m ->
  (relates (add_mod_eq r [((range_at r + 1)%nat, c)] m v) d [ct; slot] <-> relates r d [ct; slot] /\ c * slot mod m = nth v d 0).
Proof.
  intros F N V M. rewrite relates_mod_eq; auto; [|now apply points_slot|unfold local_at; lia]. split.
  - intros (R & E). split; [easy|]. destruct R as (L & _). rewrite app_nth1 in E by lia. rewrite <- E. f_equal. unfold lin, range_at. cbn [fold_right fst snd].
    rewrite app_nth2 by lia. replace (nd r + 1 - length d)%nat with 1%nat by lia. cbn [nth]. lia.
  - intros (R & E). split; [easy|]. destruct R as (L & _). rewrite app_nth1 by lia. rewrite <- E. f_equal. unfold lin, range_at. cbn [fold_right fst snd].
    rewrite app_nth2 by lia. replace (nd r + 1 - length d)%nat with 1%nat by lia. cbn [nth]. lia.
Qed.
Lemma relates_both_mod r a b m v d ct slot : fits r -> nr r = 2%nat -> (v < nd r)%nat -> 0 < m ->
  (relates (add_mod_eq r [(range_at r, a); ((range_at r + 1)%nat, b)] m v) d [ct; slot] <-> relates r d [ct; slot] /\ (a * ct + b * slot) mod m = nth v d 0).
Proof.
  intros F N V M. rewrite relates_mod_eq; auto; [|now apply points_both|unfold local_at; lia]. split.
  - intros (R & E). split; [easy|]. destruct R as (L & _). rewrite app_nth1, lin_both in E by lia. easy.
  - intros (R & E). split; [easy|]. destruct R as (L & _). now rewrite app_nth1, lin_both by lia.
Qed.
Lemma relates_both_mod' r a b m v d ct slot : fits r -> nr r = 2%nat -> (v < nd r)%nat -> 0 < m ->
  (relates (add_mod_eq r [((range_at r + 1)%nat, b); (range_at r, a)] m v) d [ct; slot] <-> relates r d [ct; slot] /\ (b * slot + a * ct) mod m = nth v d 0).
Proof.
  intros F N V M.
  assert (Pt : points r [((range_at r + 1)%nat, b); (range_at r, a)]).
  { unfold range_at. split; [repeat constructor; cbn; intros K; try tauto; lia|]. repeat constructor; cbn; unfold local_at; lia. }
  rewrite relates_mod_eq; auto; [|unfold local_at; lia].
  assert (Lin : length d = nd r -> lin [((range_at r + 1)%nat, b); (range_at r, a)] (d ++ [ct; slot]) = b * slot + a * ct).
  { intros L. unfold lin, range_at. cbn [fold_right fst snd]. rewrite !app_nth2 by lia. replace (nd r + 1 - length d)%nat with 1%nat by lia. replace (nd r - length d)%nat with 0%nat by lia. cbn [nth]. lia. }
  split.
  - intros (R & E). split; [easy|]. destruct R as (L & _). rewrite app_nth1, Lin in E by lia. easy.
  - intros (R & E). split; [easy|]. destruct R as (L & _). now rewrite app_nth1, Lin by lia.
Qed.
(** bounds of the domain when it has two variables *)
Lemma relates_dom r v lo up d g : (v < nd r)%nat -> (relates (add_bounds r v lo (Some up)) d g <-> relates r d g /\ lo <= nth v d 0 <= up).
Proof.
  intros V. rewrite relates_bounds by (unfold local_at; lia). split.
  - intros (R & E). split; [easy|]. destruct R as (L & _). rewrite app_nth1 in E by lia. easy.
  - intros (R & E). split; [easy|]. destruct R as (L & _). now rewrite app_nth1 by lia.
Qed.
Lemma list2 (d : list Z) : length d = 2%nat -> d = [nth 0 d 0; nth 1 d 0].
Proof. destruct d as [|a [|b [|]]]; cbn; intros; try lia; reflexivity. Qed.

Lemma diagonal_relates rows columns slots r i j ct slot : 0 < rows < 2 ^ 32 -> 0 < columns < 2 ^ 32 -> diagonal [rows; columns] slots = Some r ->
  (relates r [i; j] [ct; slot] <->
   0 <= i < rows /\ 0 <= j < columns /\ 0 <= ct < Z.min (padded rows) (padded columns) /\ 0 <= slot < slots /\
   slot mod padded rows = i /\ (ct + slot) mod padded columns = j).
Proof.
  intros Hr Hc. unfold diagonal. cbn [dim nth]. unfold u32. rewrite !Z.mod_small by lia. destruct (slots <? _); [discriminate|]. intros <-%some_inj.
  destruct (padded_ok rows) as (_ & Pr); [lia|]. destruct (padded_ok columns) as (_ & Pc); [lia|].
  set (r0 := bound_all (space (length [rows; columns]) 2 0) 0 [rows; columns]).
  assert (D0 : nd r0 = 2%nat /\ nr r0 = 2%nat /\ nl r0 = 0%nat) by (apply dims_bound_all).
  assert (F0 : fits r0) by (apply fits_bound_all, fits_space).
  set (r1 := lower_bound (lower_bound r0 (range_at r0) 0) (range_at r0 + 1) 0).
  set (r2 := upper_bound r1 (range_at r1) (Z.min (padded rows) (padded columns) - 1)).
  set (r3 := upper_bound r2 (range_at r2 + 1) (slots - 1)).
  assert (D3 : nd r3 = 2%nat /\ nr r3 = 2%nat) by (split; apply D0).
  assert (F3 : fits r3) by (apply fits_bound_u, fits_bound_u, fits_bound_l, fits_bound_l; exact F0).
  set (r4 := add_mod_eq r3 _ (padded rows) 0).
  assert (D4 : nd r4 = 2%nat /\ nr r4 = 2%nat) by (unfold r4; destruct (dims_mod_eq r3 [((range_at r3 + 1)%nat, 1)] (padded rows) 0) as (-> & ->); exact D3).
  assert (F4 : fits r4) by (now apply fits_mod_eq).
  rewrite relates_both_mod by (try easy; try apply D4; lia). unfold r4. rewrite relates_slot_mod by (try easy; try apply D3; lia).
  unfold r3, r2, r1. rewrite !relates_upper, !relates_lower by (unfold local_at, range_at; cbn [upper_bound lower_bound add_ineq nd nr]; lia).
  unfold r0 at 1. rewrite relates_box by easy.
  unfold range_at. cbn [upper_bound lower_bound add_ineq nd nr]. destruct D0 as (-> & _). cbn [Nat.add app nth length].
  unfold in_box. rewrite !Z.mul_1_l. split.
  - intros R. ands. match goal with H : Forall2 _ _ _ |- _ => apply box2 in H end. splits; lia.
  - intros (B1 & B2 & C & S & M1 & M2). splits; try lia; repeat constructor; lia.
Qed.
Lemma bicyclic_relates rows columns slots r i j ct slot : 0 < rows < 2 ^ 32 -> 0 < columns < 2 ^ 32 -> rows * columns <= 2 ^ 24 -> 0 < slots <= 2 ^ 24 ->
  bicyclic [rows; columns] slots = Some r ->
  (relates r [i; j] [ct; slot] <->
   0 <= ct <= (rows * columns + slots - 1) / slots - 1 /\ 0 <= slot < slots /\ (ct * slots + slot) mod rows = i /\ (ct * slots + slot) mod columns = j).
Proof.
  intros Hr Hc He Hs. unfold bicyclic. cbn [dim nth length]. unfold u32. rewrite !Z.mod_small by lia. destruct (Z.gcd rows columns =? 1); [|discriminate]. cbn [negb]. intros <-%some_inj.
  unfold elements. cbn [fold_right]. rewrite Z.mul_1_r. rewrite ceil_small by nia.
  set (r0 := add_bounds (add_bounds (space 2 2 0) 0 0 _) 1 0 _). set (r1 := add_bounds r0 (range_at r0) 0 _). set (r2 := add_bounds r1 (range_at r1 + 1) 0 _).
  assert (F2 : fits r2) by (repeat apply fits_bounds; apply fits_space).
  set (k := [(range_at r2, slots); ((range_at r2 + 1)%nat, 1)]).
  set (r3 := add_mod_eq r2 k rows 0).
  assert (D3 : nd r3 = 2%nat /\ nr r3 = 2%nat) by (apply dims_mod_eq).
  assert (F3 : fits r3) by (now apply fits_mod_eq).
  replace k with [(range_at r3, slots); ((range_at r3 + 1)%nat, 1)] by (unfold r3; now rewrite range_at_mod_eq).
  rewrite relates_both_mod by (try easy; try apply D3; lia). unfold r3, k. rewrite relates_both_mod by (try easy; cbn; lia).
  unfold r2. rewrite relates_slot by easy. unfold r1. rewrite relates_ct by easy. unfold r0. rewrite !relates_dom by (cbn; lia). rewrite relates_space. cbn [length nth].
  rewrite (Z.mul_comm slots ct), Z.mul_1_l. pose proof (Z.mod_pos_bound (ct * slots + slot) rows ltac:(lia)). pose proof (Z.mod_pos_bound (ct * slots + slot) columns ltac:(lia)).
  split; intros; splits; try tauto; lia.
Qed.
Lemma tricyclic_relates h m n slots r a b c ct slot : 0 < h -> 0 < m -> 0 < n -> h * m * n <= 2 ^ 24 -> 0 < slots <= 2 ^ 24 ->
  tricyclic [h; m; n] slots = Some r ->
  (relates r [a; b; c] [ct; slot] <->
   0 <= ct <= (h * m * n + slots - 1) / slots - 1 /\ 0 <= slot < slots /\
   (ct * slots + slot) mod h = a /\ (ct * slots + slot) mod m = b /\ (ct * slots + slot) mod n = c).
Proof.
  intros Hh Hm Hn He Hs. unfold tricyclic. cbn [dim nth length Nat.eqb negb]. intros <-%some_inj.
  unfold elements. cbn [fold_right]. replace (h * (m * (n * 1))) with (h * m * n) by lia. rewrite ceil_small by nia.
  set (r0 := bound_all (space 3 2 0) 0 [h; m; n]). set (r1 := add_bounds r0 (range_at r0) 0 _). set (r2 := add_bounds r1 (range_at r1 + 1) 0 _).
  assert (F2 : fits r2) by (repeat apply fits_bounds; apply fits_space).
  set (k := [(range_at r2, slots); ((range_at r2 + 1)%nat, 1)]).
  set (r3 := add_mod_eq r2 k h 0). set (r4 := add_mod_eq r3 k m 1).
  assert (D3 : nd r3 = 3%nat /\ nr r3 = 2%nat) by (apply dims_mod_eq).
  assert (D4 : nd r4 = 3%nat /\ nr r4 = 2%nat) by (unfold r4; destruct (dims_mod_eq r3 k m 1) as (-> & ->); apply D3).
  assert (F3 : fits r3) by (now apply fits_mod_eq). assert (F4 : fits r4) by (now apply fits_mod_eq).
  assert (K3 : k = [(range_at r3, slots); ((range_at r3 + 1)%nat, 1)]) by (unfold r3; now rewrite range_at_mod_eq).
  assert (K4 : k = [(range_at r4, slots); ((range_at r4 + 1)%nat, 1)]) by (unfold r4; now rewrite range_at_mod_eq).
  rewrite K4. rewrite relates_both_mod by (try easy; try apply D4; lia). unfold r4. rewrite K3. rewrite relates_both_mod by (try easy; try apply D3; lia).
  unfold r3, k. rewrite relates_both_mod by (try easy; cbn; lia).
  unfold r2. rewrite relates_slot by easy. unfold r1. rewrite relates_ct by easy. unfold r0. rewrite relates_box by easy. cbn [length nth].
  rewrite (Z.mul_comm slots ct), Z.mul_1_l. pose proof (Z.mod_pos_bound (ct * slots + slot) h Hh). pose proof (Z.mod_pos_bound (ct * slots + slot) m Hm). pose proof (Z.mod_pos_bound (ct * slots + slot) n Hn).
  split.
  - intros R. ands. splits; lia.
  - intros (C & S & A & B & N). splits; try lia; repeat constructor; lia.
Qed.
Lemma bicyclic_diagonal_relates n0 n1 first stride slots y x diag slot : 0 < n0 -> 0 < n1 ->
  (relates (bicyclic_diagonal [n0; n1] first stride slots) [y; x] [diag; slot] <->
   0 <= slot < slots /\
   if first then 0 <= diag < n0 /\ (slot + stride * diag) mod n0 = y /\ slot mod n1 = x
   else 0 <= diag < n1 /\ (slot + stride * diag) mod n1 = x /\ slot mod n0 = y).
Proof.
  intros H0 H1. unfold bicyclic_diagonal. cbn [length].
  destruct first; cbn [dim nth].
  - set (r0 := space 2 2 0). set (r1 := add_bounds r0 (range_at r0) 0 _). set (r2 := add_bounds r1 (range_at r1 + 1) 0 _).
    set (r3 := add_bounds (add_bounds r2 0 0 (Some (n0 - 1))) 1 0 (Some (n1 - 1))).
    assert (F3 : fits r3) by (repeat apply fits_bounds; apply fits_space).
    set (r4 := add_mod_eq r3 _ n0 0). assert (D4 : nd r4 = 2%nat /\ nr r4 = 2%nat) by (apply dims_mod_eq). assert (F4 : fits r4) by (now apply fits_mod_eq).
    replace (range_at r2) with (range_at r4) by (unfold r4; now rewrite range_at_mod_eq).
    rewrite relates_slot_mod by (try easy; try apply D4; lia). unfold r4. change (range_at r2) with (range_at r3). rewrite relates_both_mod' by (try easy; cbn; lia).
    unfold r3. rewrite !relates_dom by (cbn; lia). unfold r2. rewrite relates_slot by easy. unfold r1. rewrite relates_ct by easy. unfold r0. rewrite relates_space. cbn [length nth].
    rewrite !Z.mul_1_l. pose proof (Z.mod_pos_bound (slot + stride * diag) n0 H0). pose proof (Z.mod_pos_bound slot n1 H1).
    split; intros; splits; try tauto; lia.
  - set (r0 := space 2 2 0). set (r1 := add_bounds r0 (range_at r0) 0 _). set (r2 := add_bounds r1 (range_at r1 + 1) 0 _).
    set (r3 := add_bounds (add_bounds r2 0 0 (Some (n0 - 1))) 1 0 (Some (n1 - 1))).
    assert (F3 : fits r3) by (repeat apply fits_bounds; apply fits_space).
    set (r4 := add_mod_eq r3 _ n1 1). assert (D4 : nd r4 = 2%nat /\ nr r4 = 2%nat) by (apply dims_mod_eq). assert (F4 : fits r4) by (now apply fits_mod_eq).
    replace (range_at r2) with (range_at r4) by (unfold r4; now rewrite range_at_mod_eq).
    rewrite relates_slot_mod by (try easy; try apply D4; lia). unfold r4. change (range_at r2) with (range_at r3). rewrite relates_both_mod' by (try easy; cbn; lia).
    unfold r3. rewrite !relates_dom by (cbn; lia). unfold r2. rewrite relates_slot by easy. unfold r1. rewrite relates_ct by easy. unfold r0. rewrite relates_space. cbn [length nth].
    rewrite !Z.mul_1_l. pose proof (Z.mod_pos_bound (slot + stride * diag) n1 H1). pose proof (Z.mod_pos_bound slot n0 H0).
    split; intros; splits; try tauto; lia.
Qed.
Lemma periodic_relates slots period r c s ct slot : periodic 1 slots period = Some r ->
  (relates r [c; s] [ct; slot] <-> c = 0 /\ ct = 0 /\ 0 <= slot < slots /\ slot mod period = s).
Proof.
  unfold periodic. cbn [Z.eqb negb orb]. destruct (_ && _) eqn:E; cbn [negb]; [|discriminate]. apply andb_prop in E as (E1 & _). apply Z.ltb_lt in E1. intros <-%some_inj.
  set (r0 := add_bounds (add_bounds (space 2 2 0) 0 0 _) 1 0 _). set (r1 := add_bounds r0 (range_at r0 + 1) 0 _).
  assert (F1 : fits r1) by (repeat apply fits_bounds; apply fits_space).
  set (r2 := add_constraint r1 _ true). assert (F2 : fits r2) by (now apply fits_constraint).
  rewrite relates_slot_mod by (try easy; cbn; lia). unfold r2. rewrite relates_eq. 2:{ split; [repeat constructor; cbn; intros K; try tauto; lia|]. repeat constructor; cbn; unfold local_at; cbn; lia. }
  unfold r1. rewrite relates_slot by easy. unfold r0. rewrite !relates_dom by (cbn; lia). rewrite relates_space.
  unfold lin. cbn [length nth fold_right fst snd app range_at nd add_bounds upper_bound lower_bound add_ineq space]. rewrite !Z.mul_1_l. pose proof (Z.mod_pos_bound slot period E1).
  split.
  - intros R. ands. splits; lia.
  - intros (A & B & C & D). splits; lia.
Qed.
Lemma per_row_relates rows columns slots r i j ct slot : 0 < columns < 2 ^ 62 -> per_row [rows; columns] slots = Some r ->
  (relates r [i; j] [ct; slot] <-> 0 <= i < rows /\ 0 <= j < columns /\ ct = i /\ 0 <= slot < slots /\ slot mod next_power_of_two columns = j).
Proof.
  intros Hc. unfold per_row. cbn [dim nth length Nat.eqb negb orb]. destruct (slots <? columns); [discriminate|].
  set (r0 := bound_all _ _ _). set (r1 := add_bounds r0 (range_at r0) 0 _). set (r2 := add_bounds r1 (range_at r1 + 1) 0 _).
  assert (F2 : fits r2) by (repeat apply fits_bounds; apply fits_space).
  set (r3 := add_constraint r2 _ true). assert (F3 : fits r3) by (now apply fits_constraint).
  set (e := row (cols r3) _). pose proof (shape_mod r3 e (next_power_of_two columns)) as (Sd & Sr & Sl & Sp).
  destruct (next_ok columns) as (_ & Pn); [lia|].
  pose proof (relates_add_mod r3 e (next_power_of_two columns)) as RM.
  destruct (add_mod r3 e (next_power_of_two columns)) as [r4 m]. cbn [fst snd] in *. intros <-%some_inj.
  assert (N3 : no_locals r3 e) by (now apply no_locals_row, points_slot).
  unfold add_constraint at 1. rewrite (RM _ _ _ (fun w => w = j)); auto; [|lia|].
  - unfold e. rewrite vis_row by (try easy; now apply points_slot). rewrite lin_slot by easy.
    unfold r3. rewrite relates_eq. 2:{ split; [repeat constructor; cbn; intros K; try tauto; lia|]. repeat constructor; cbn; unfold local_at; cbn; lia. }
    unfold r2. rewrite relates_slot by easy. unfold r1. rewrite relates_ct by easy. unfold r0. rewrite relates_box by easy.
    unfold lin. cbn [length nth fold_right fst snd app range_at nd add_bounds upper_bound lower_bound add_ineq space bound_all]. split.
    + intros R. ands. match goal with H : in_box _ _ |- _ => apply box2 in H end. splits; lia.
    + intros (A & B & C & D & E). splits; try lia; repeat constructor; lia.
  - intros x q w _ _ Lx. assert (x = []) as -> by (destruct x; [easy|cbn in Lx; lia]).
    change (nd r3) with 2%nat in *. change (nr r3) with 2%nat in *. change (nl r3) with 0%nat in *. change (local_end r3) with 4%nat in Sp. cbn in Sp. subst m.
    unfold value. rewrite dot_row; [|repeat constructor; cbn; intros K; try tauto; lia|unfold cols; repeat constructor; cbn; lia].
    unfold lin. cbn [fold_right fst snd app nth]. lia.
Qed.

(** * Storing *)
Lemma box3 a b c i j k : in_box [a; b; c] [i; j; k] -> 0 <= i < a /\ 0 <= j < b /\ 0 <= k < c.
Proof. intros B. inversion B as [|? ? ? ? B1 B']; subst. apply box2 in B'. lia. Qed.
Lemma box2_inv a b d : in_box [a; b] d -> exists i j, d = [i; j].
Proof. intros B. apply box_length in B. destruct d as [|i [|j [|]]]; try discriminate. eauto. Qed.
Lemma box3_inv a b c d : in_box [a; b; c] d -> exists i j k, d = [i; j; k].
Proof. intros B. apply box_length in B. destruct d as [|i [|j [|k [|]]]]; try discriminate. eauto. Qed.
Lemma mod_divide a p q : 0 < p -> 0 < q -> (p | q) -> (a mod q) mod p = a mod p.
Proof. intros Hp Hq (k & ->). rewrite (Z.div_mod a (k * p)) at 2 by lia. replace (k * p * (a / (k * p)) + a mod (k * p)) with (a mod (k * p) + k * (a / (k * p)) * p) by lia. now rewrite Z.mod_add by lia. Qed.
Lemma pow2_divide a b : 0 <= a <= b -> (2 ^ a | 2 ^ b).
Proof. intros H. exists (2 ^ (b - a)). rewrite <- Z.pow_add_r by lia. f_equal. lia. Qed.
Lemma padding_divide n m p q : padding n p -> padding m q -> p <= q -> (p | q).
Proof.
  intros ((a & Ha & ->) & _) ((b & Hb & ->) & _) L. apply pow2_divide. split; [easy|].
  destruct (Z.le_gt_cases a b); [easy|]. assert (2 ^ b < 2 ^ a) by (apply Z.pow_lt_mono_r; lia). lia.
Qed.
(** the remainders determine and allow each other *)
Lemma remainders m n i j : 0 < m -> 0 < n -> Z.gcd m n = 1 -> 0 <= i < m -> 0 <= j < n -> exists k, 0 <= k < m * n /\ k mod m = i /\ k mod n = j.
Proof.
  intros Hm Hn G Hi Hj. destruct (Z.gcd_bezout m n 1 G) as (u & v & E).
  set (x := j * (u * m) + i * (v * n)). exists (x mod (m * n)). split; [apply Z.mod_pos_bound; nia|]. split.
  - rewrite mod_divide by (try nia; now exists n; lia). unfold x. replace (j * (u * m) + i * (v * n)) with (i + (j * u - i * u) * m) by nia.
    rewrite Z.mod_add by lia. apply Z.mod_small. lia.
  - rewrite mod_divide by (try nia; now exists m). unfold x. replace (j * (u * m) + i * (v * n)) with (j + (i * v - j * v) * n) by nia.
    rewrite Z.mod_add by lia. apply Z.mod_small. lia.
Qed.
Lemma place k total slots : 0 < slots -> 0 <= k < total -> 0 <= k / slots <= (total + slots - 1) / slots - 1.
Proof.
  intros Hs Hk. split; [apply Z.div_pos; lia|].
  assert (k / slots <= (total - 1) / slots) by (apply Z.div_le_mono; lia).
  replace (total + slots - 1) with (total - 1 + 1 * slots) by lia. rewrite Z.div_add by lia. lia.
Qed.
