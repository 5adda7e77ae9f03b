(** C72: layouts.  A layout relates the indices of a tensor to the slots of ciphertexts that hold the element.  The theorems
    give the exact contents of the layouts built in lib/Utils/Layout/Utils.cpp, and that they lose no element and mix up none. *)
From Coq Require Import ZArith List Lia.
From Verif Require Import NumTheory_Model NumTheory_Proofs Rel_Model Rel_Proofs Layout_Spec Layout_Proofs.
Import ListNotations.
Open Scope Z_scope.

(** the packing described by a relation *)
Definition packs (r : rel) : packing := fun d ct slot => relates r d [ct; slot].

(** Row-major: the elements follow each other through the ciphertexts; a tensor that fits into one ciphertext is repeated in it
    with the next power of two as period. *)
Theorem C72_row_major shape slots p :
  Forall (fun s => 0 < s) shape -> size shape <= 2 ^ 24 -> 0 < slots <= 2 ^ 24 -> padding (size shape) p ->
  let R := packs (row_major shape slots) in
  (forall d ct slot, R d ct slot <->
     in_box shape d /\ 0 <= slot < slots /\ ct = flat shape d / slots /\ slot mod p = flat shape d mod slots) /\
  functional R /\ stores_all shape R /\ within shape ((size shape + slots - 1) / slots) slots R /\ ((p | slots) -> periodic_by p slots R).
Proof.
  intros P H24 Hs Pp R. pose proof (size_pos _ P) as Sp.
  assert (Ep : padded (size shape) = p) by (apply (padding_unique (size shape)); auto; [lia|apply padded_ok; lia]).
  assert (M : forall d ct slot, R d ct slot <->
     in_box shape d /\ 0 <= slot < slots /\ ct = flat shape d / slots /\ slot mod p = flat shape d mod slots).
  { intros d ct slot. unfold R, packs. rewrite row_major_relates by (auto; lia). now rewrite Ep. }
  clearbody R. assert (Hp : 0 < p) by (destruct Pp; lia).
  split; [exact M|]. split; [|split; [|split]].
  - intros ct slot d e A B. apply M in A as (A1 & A2 & A3 & A4). apply M in B as (B1 & B2 & B3 & B4).
    apply (flat_inj shape); auto. rewrite (Z.div_mod (flat shape d) slots), (Z.div_mod (flat shape e) slots) by lia. congruence.
  - intros d B. exists (flat shape d / slots), (flat shape d mod slots). apply M. pose proof (Z.mod_pos_bound (flat shape d) slots ltac:(lia)).
    splits; try lia. apply Z.mod_small. pose proof (flat_bound _ _ B). destruct Pp as (_ & Pp). pose proof (Z.mod_le (flat shape d) slots). lia.
  - intros d ct slot A. apply M in A as (B & S & -> & _). pose proof (flat_bound _ _ B). split; [easy|]. split; [|easy].
    pose proof (place (flat shape d) (size shape) slots). lia.
  - intros D d ct slot A. apply M. apply M in A as (B & S & C & E). splits; try (apply Z.mod_pos_bound; lia).
    rewrite <- E. rewrite mod_divide by (auto; lia). rewrite <- (Z.mul_1_l p) at 1. now rewrite Z.mod_add by lia.
Qed.
Print Assumptions C72_row_major.
Example C72_row_major_nonvacuous :
  Forall (fun s => 0 < s) [3; 4] /\ size [3; 4] <= 2 ^ 24 /\ padding (size [3; 4]) 16 /\ (16 | 32) /\
  packs (row_major [3; 4] 32) [2; 1] 0 25.
Proof.
  split; [repeat constructor|]. split; [cbn; lia|]. split; [split; [now exists 4|cbn; lia]|]. split; [now exists 2|].
  unfold packs. apply row_major_relates; try (cbn; lia); [repeat constructor|]. split; [repeat constructor; cbn; lia|]. vm_compute. repeat split; congruence.
Qed.

(** Squat diagonals: ciphertext c holds the c-th diagonal of the padded matrix. *)
Theorem C72_diagonal rows columns slots pr pc r :
  0 < rows < 2 ^ 32 -> 0 < columns < 2 ^ 32 -> padding rows pr -> padding columns pc -> diagonal [rows; columns] slots = Some r ->
  let R := packs r in
  (forall i j ct slot, R [i; j] ct slot <->
     0 <= i < rows /\ 0 <= j < columns /\ 0 <= ct < Z.min pr pc /\ 0 <= slot < slots /\ i = slot mod pr /\ j = (ct + slot) mod pc) /\
  functional R /\ within [rows; columns] (Z.min pr pc) slots R /\
  (pc <= slots -> stores_all [rows; columns] R) /\ ((Z.max pr pc | slots) -> periodic_by (Z.max pr pc) slots R).
Proof.
  intros Hr Hc Pr Pc E R.
  assert (Er : padded rows = pr) by (apply (padding_unique rows); auto; [lia|apply padded_ok; lia]).
  assert (Ec : padded columns = pc) by (apply (padding_unique columns); auto; [lia|apply padded_ok; lia]).
  assert (M : forall i j ct slot, R [i; j] ct slot <->
     0 <= i < rows /\ 0 <= j < columns /\ 0 <= ct < Z.min pr pc /\ 0 <= slot < slots /\ i = slot mod pr /\ j = (ct + slot) mod pc).
  { intros i j ct slot. unfold R, packs. rewrite (diagonal_relates rows columns slots r) by (auto; lia). rewrite Er, Ec. intuition. }
  assert (D : nd r = 2%nat).
  { unfold diagonal in E. destruct (_ <? _) in E; [discriminate|]. apply some_inj in E. subst r.
    rewrite (proj1 (dims_mod_eq _ _ _ _)), (proj1 (dims_mod_eq _ _ _ _)). reflexivity. }
  assert (L : forall d ct slot, R d ct slot -> exists i j, d = [i; j]).
  { intros d ct slot (A & _). rewrite D in A. destruct d as [|i [|j [|]]]; try discriminate. eauto. }
  assert (S : rows <= slots /\ columns <= slots).
  { unfold diagonal in E. cbn [dim nth] in E. unfold u32 in E. rewrite !Z.mod_small in E by lia. destruct (Z.ltb_spec slots (Z.max rows columns)); [discriminate|lia]. }
  clearbody R. destruct Pr as ((a & Ha & ->) & Hpr). destruct Pc as ((b & Hb & ->) & Hpc).
  split; [exact M|]. split; [|split; [|split]].
  - intros ct slot d e A B. destruct (L _ _ _ A) as (i & j & ->). destruct (L _ _ _ B) as (i' & j' & ->). apply M in A, B. ands. congruence.
  - intros d ct slot A. destruct (L _ _ _ A) as (i & j & ->). apply M in A. ands. splits. repeat constructor; lia.
  - intros Sl d B. destruct (box2_inv _ _ _ B) as (i & j & ->). apply box2 in B as (Bi & Bj).
    destruct (Z.le_gt_cases a b) as [G|G].
    + destruct (pow2_divide a b) as (q & Eq); [lia|].
      assert (L2 : 2 ^ a <= 2 ^ b) by (apply Z.pow_le_mono_r; lia).
      set (t := (j - i) mod 2 ^ b). assert (Ht : 0 <= t < 2 ^ b) by (apply Z.mod_pos_bound; lia).
      pose proof (Z.div_mod t (2 ^ a) ltac:(lia)) as DM. pose proof (Z.mod_pos_bound t (2 ^ a) ltac:(lia)) as Mt.
      exists (t mod 2 ^ a), (i + t / 2 ^ a * 2 ^ a). apply M.
      assert (t / 2 ^ a <= q - 1) by (assert (t / 2 ^ a < q); [apply Z.div_lt_upper_bound; lia|lia]).
      assert (0 <= t / 2 ^ a) by (apply Z.div_pos; lia).
      splits; try lia; try nia.
      * rewrite Z.mod_add by lia. symmetry. apply Z.mod_small. lia.
      * replace (t mod 2 ^ a + (i + t / 2 ^ a * 2 ^ a)) with (i + t) by lia. unfold t. rewrite Zplus_mod_idemp_r. replace (i + (j - i)) with j by lia. symmetry. apply Z.mod_small. lia.
    + assert (L2 : 2 ^ b < 2 ^ a) by (apply Z.pow_lt_mono_r; lia).
      exists ((j - i) mod 2 ^ b), i. apply M. pose proof (Z.mod_pos_bound (j - i) (2 ^ b) ltac:(lia)).
      splits; try lia.
      * symmetry. apply Z.mod_small. lia.
      * rewrite Zplus_mod_idemp_l. replace (j - i + i) with j by lia. symmetry. apply Z.mod_small. lia.
  - intros D' d ct slot A. destruct (L _ _ _ A) as (i & j & ->). apply M in A as (A1 & A2 & A3 & A4 & A5 & A6). apply M.
    set (p := Z.max (2 ^ a) (2 ^ b)) in *. assert (Da : (2 ^ a | p) /\ (2 ^ b | p)).
    { unfold p. destruct (Z.le_gt_cases a b) as [G|G].
      - assert (2 ^ a <= 2 ^ b) by (apply Z.pow_le_mono_r; lia). rewrite Z.max_r by lia. split; [apply pow2_divide; lia|apply Z.divide_refl].
      - assert (2 ^ b < 2 ^ a) by (apply Z.pow_lt_mono_r; lia). rewrite Z.max_l by lia. split; [apply Z.divide_refl|apply pow2_divide; lia]. }
    destruct Da as (Da & Db). assert (0 < p) by (unfold p; lia).
    splits; try lia; try (apply Z.mod_pos_bound; lia).
    + rewrite mod_divide by (try lia; eapply Z.divide_trans; eauto). destruct Da as (k & Ek). rewrite Ek, Z.mod_add by lia. exact A5.
    + rewrite <- Zplus_mod_idemp_r. rewrite mod_divide by (try lia; eapply Z.divide_trans; eauto). rewrite Zplus_mod_idemp_r, Z.add_assoc.
      destruct Db as (k & Ek). rewrite Ek, Z.mod_add by lia. exact A6.
Qed.
Print Assumptions C72_diagonal.
Example C72_diagonal_nonvacuous : exists r, diagonal [3; 5] 16 = Some r /\ padding 3 4 /\ padding 5 8 /\ (Z.max 4 8 | 16) /\ packs r [2; 4] 2 10.
Proof.
  eexists. split; [reflexivity|]. split; [split; [now exists 2|lia]|]. split; [split; [now exists 3|lia]|]. split; [now exists 2|].
  unfold packs. eapply (diagonal_relates 3 5 16); [lia|lia|reflexivity|]. vm_compute. repeat split; congruence.
Qed.
(** With fewer slots than padded columns elements are lost, though the assertion of the code holds. *)
Theorem C72_diagonal_slots_refuted : exists rows columns slots r d,
  Z.max rows columns <= slots /\ diagonal [rows; columns] slots = Some r /\ in_box [rows; columns] d /\ forall ct slot, ~ packs r d ct slot.
Proof.
  exists 2, 3, 3. eexists. exists [1; 0]. split; [lia|]. split; [reflexivity|]. split; [repeat constructor; lia|]. intros ct slot A.
  unfold packs in A. apply (diagonal_relates 2 3 3) in A; [|lia|lia|reflexivity].
  change (padded 2) with 2 in A. change (padded 3) with 4 in A. destruct A as (_ & _ & C & S & M1 & M2).
  assert (ct = 0 \/ ct = 1) by lia. assert (slot = 0 \/ slot = 1 \/ slot = 2) by lia.
  destruct H as [-> | ->]; destruct H0 as [-> | [-> | ->]]; vm_compute in M1, M2; discriminate.
Qed.
Print Assumptions C72_diagonal_slots_refuted.

(** Bicyclic: position k of the ciphertexts put after each other holds the element with the remainders of k as indices. *)
Theorem C72_bicyclic rows columns slots r :
  0 < rows < 2 ^ 32 -> 0 < columns < 2 ^ 32 -> rows * columns <= 2 ^ 24 -> 0 < slots <= 2 ^ 24 -> bicyclic [rows; columns] slots = Some r ->
  let R := packs r in let cts := (rows * columns + slots - 1) / slots in
  (forall i j ct slot, R [i; j] ct slot <->
     0 <= ct < cts /\ 0 <= slot < slots /\ i = (ct * slots + slot) mod rows /\ j = (ct * slots + slot) mod columns) /\
  functional R /\ within [rows; columns] cts slots R /\ stores_all [rows; columns] R.
Proof.
  intros Hr Hc He Hs E R cts.
  assert (M : forall i j ct slot, R [i; j] ct slot <->
     0 <= ct < cts /\ 0 <= slot < slots /\ i = (ct * slots + slot) mod rows /\ j = (ct * slots + slot) mod columns).
  { intros i j ct slot. unfold R, packs. rewrite (bicyclic_relates rows columns slots r) by (auto; lia). unfold cts. intuition lia. }
  assert (D : nd r = 2%nat /\ Z.gcd rows columns = 1).
  { unfold bicyclic in E. cbn [dim nth] in E. unfold u32 in E. rewrite !Z.mod_small in E by lia. destruct (Z.eqb_spec (Z.gcd rows columns) 1) as [G|]; [|discriminate]. split; [|exact G].
    apply some_inj in E. subst r. rewrite (proj1 (dims_mod_eq _ _ _ _)), (proj1 (dims_mod_eq _ _ _ _)). reflexivity. }
  destruct D as (D & G).
  assert (L : forall d ct slot, R d ct slot -> exists i j, d = [i; j]).
  { intros d ct slot (A & _). rewrite D in A. destruct d as [|i [|j [|]]]; try discriminate. eauto. }
  clearbody R. split; [exact M|]. split; [|split].
  - intros ct slot d e A B. destruct (L _ _ _ A) as (i & j & ->). destruct (L _ _ _ B) as (i' & j' & ->). apply M in A, B. ands. congruence.
  - intros d ct slot A. destruct (L _ _ _ A) as (i & j & ->). apply M in A. ands. subst i j. splits.
    pose proof (Z.mod_pos_bound (ct * slots + slot) rows). pose proof (Z.mod_pos_bound (ct * slots + slot) columns). repeat constructor; lia.
  - intros d B. destruct (box2_inv _ _ _ B) as (i & j & ->). apply box2 in B as (Bi & Bj).
    destruct (remainders rows columns i j) as (k & Hk & <- & <-); try lia.
    exists (k / slots), (k mod slots). apply M. rewrite (Z.mul_comm (k / slots)), <- Z.div_mod by lia.
    pose proof (place k (rows * columns) slots). pose proof (Z.mod_pos_bound k slots). unfold cts. splits; lia.
Qed.
Print Assumptions C72_bicyclic.
Example C72_bicyclic_nonvacuous : exists r, bicyclic [3; 5] 8 = Some r /\ packs r [2; 4] 1 6.
Proof. eexists. split; [reflexivity|]. unfold packs. eapply (bicyclic_relates 3 5 8); try lia; [reflexivity|]. vm_compute. repeat split; congruence. Qed.

(** Tricyclic: the same for three dimensions; the indices are coprime where the layout is used. *)
Theorem C72_tricyclic h m n slots r :
  0 < h -> 0 < m -> 0 < n -> h * m * n <= 2 ^ 24 -> 0 < slots <= 2 ^ 24 -> tricyclic [h; m; n] slots = Some r ->
  let R := packs r in let cts := (h * m * n + slots - 1) / slots in
  (forall a b c ct slot, R [a; b; c] ct slot <->
     0 <= ct < cts /\ 0 <= slot < slots /\
     a = (ct * slots + slot) mod h /\ b = (ct * slots + slot) mod m /\ c = (ct * slots + slot) mod n) /\
  functional R /\ within [h; m; n] cts slots R /\
  (Z.gcd h m = 1 -> Z.gcd h n = 1 -> Z.gcd m n = 1 -> stores_all [h; m; n] R).
Proof.
  intros Hh Hm Hn He Hs E R cts.
  assert (M : forall a b c ct slot, R [a; b; c] ct slot <->
     0 <= ct < cts /\ 0 <= slot < slots /\
     a = (ct * slots + slot) mod h /\ b = (ct * slots + slot) mod m /\ c = (ct * slots + slot) mod n).
  { intros a b c ct slot. unfold R, packs. rewrite (tricyclic_relates h m n slots r) by (auto; lia). unfold cts. intuition lia. }
  assert (D : nd r = 3%nat).
  { unfold tricyclic in E. cbn [length Nat.eqb negb] in E. apply some_inj in E. subst r.
    rewrite (proj1 (dims_mod_eq _ _ _ _)), (proj1 (dims_mod_eq _ _ _ _)), (proj1 (dims_mod_eq _ _ _ _)). reflexivity. }
  assert (L : forall d ct slot, R d ct slot -> exists i j k, d = [i; j; k]).
  { intros d ct slot (A & _). rewrite D in A. destruct d as [|i [|j [|k [|]]]]; try discriminate. eauto. }
  clearbody R. split; [exact M|]. split; [|split].
  - intros ct slot d e A B. destruct (L _ _ _ A) as (i & j & k & ->). destruct (L _ _ _ B) as (i' & j' & k' & ->). apply M in A, B. ands. congruence.
  - intros d ct slot A. destruct (L _ _ _ A) as (i & j & k & ->). apply M in A. ands. subst i j k. splits.
    pose proof (Z.mod_pos_bound (ct * slots + slot) h). pose proof (Z.mod_pos_bound (ct * slots + slot) m). pose proof (Z.mod_pos_bound (ct * slots + slot) n). repeat constructor; lia.
  - intros G1 G2 G3 d B. destruct (box3_inv _ _ _ _ B) as (a & b & c & ->). apply box3 in B as (Ba & Bb & Bc).
    destruct (remainders m n b c) as (k' & Hk' & M1 & M2); try lia.
    destruct (remainders h (m * n) a k') as (k & Hk & M3 & M4); try lia; try nia.
    { apply Znumtheory.Zgcd_1_rel_prime. apply Znumtheory.rel_prime_mult; now apply Znumtheory.Zgcd_1_rel_prime. }
    assert (Em : k mod m = b) by (rewrite <- M1, <- M4; symmetry; apply mod_divide; try nia; exists n; lia).
    assert (En : k mod n = c) by (rewrite <- M2, <- M4; symmetry; apply mod_divide; try nia; exists m; lia).
    exists (k / slots), (k mod slots). apply M. rewrite (Z.mul_comm (k / slots)), <- Z.div_mod by lia.
    pose proof (place k (h * m * n) slots). pose proof (Z.mod_pos_bound k slots). unfold cts. splits; lia.
Qed.
Print Assumptions C72_tricyclic.
Example C72_tricyclic_nonvacuous : exists r, tricyclic [2; 3; 5] 16 = Some r /\ Z.gcd 2 3 = 1 /\ Z.gcd 2 5 = 1 /\ Z.gcd 3 5 = 1 /\ packs r [1; 2; 4] 1 13.
Proof. eexists. split; [reflexivity|]. repeat (split; [reflexivity|]). unfold packs. eapply (tricyclic_relates 2 3 5 16); try lia; [reflexivity|]. vm_compute. repeat split; congruence. Qed.

(** Diagonals for a bicyclic product: along the contracted dimension (0 if [first], else 1) steps of the given stride. *)
Theorem C72_bicyclic_diagonal n0 n1 first stride slots :
  0 < n0 -> 0 < n1 ->
  let R := packs (bicyclic_diagonal [n0; n1] first stride slots) in let n := if first then n0 else n1 in let p := if first then n1 else n0 in
  (forall y x diag slot, R [y; x] diag slot <->
     0 <= diag < n /\ 0 <= slot < slots /\
     (if first then y else x) = (slot + diag * stride) mod n /\ (if first then x else y) = slot mod p) /\
  functional R /\ within [n0; n1] n slots R /\ (Z.gcd stride n = 1 -> p <= slots -> stores_all [n0; n1] R).
Proof.
  intros H0 H1 R n p.
  assert (M : forall y x diag slot, R [y; x] diag slot <->
     0 <= diag < n /\ 0 <= slot < slots /\
     (if first then y else x) = (slot + diag * stride) mod n /\ (if first then x else y) = slot mod p).
  { intros y x diag slot. unfold R, packs. rewrite bicyclic_diagonal_relates by easy. rewrite (Z.mul_comm stride). unfold n, p. destruct first; intuition lia. }
  assert (L : forall d ct slot, R d ct slot -> exists i j, d = [i; j]).
  { intros d ct slot (A & _). assert (D : nd (bicyclic_diagonal [n0; n1] first stride slots) = 2%nat).
    { unfold bicyclic_diagonal. destruct first; rewrite (proj1 (dims_mod_eq _ _ _ _)), (proj1 (dims_mod_eq _ _ _ _)); reflexivity. }
    rewrite D in A. destruct d as [|i [|j [|]]]; try discriminate. eauto. }
  assert (Hn : 0 < n) by (unfold n; destruct first; lia). assert (Hp : 0 < p) by (unfold p; destruct first; lia).
  clearbody R. split; [exact M|]. split; [|split].
  - intros ct slot d e A B. destruct (L _ _ _ A) as (i & j & ->). destruct (L _ _ _ B) as (i' & j' & ->). apply M in A, B. destruct first; ands; congruence.
  - intros d ct slot A. destruct (L _ _ _ A) as (i & j & ->). apply M in A. ands. splits.
    pose proof (Z.mod_pos_bound (slot + ct * stride) n Hn). pose proof (Z.mod_pos_bound slot p Hp). unfold n, p in *. destruct first; repeat constructor; lia.
  - intros G S d B. destruct (box2_inv _ _ _ B) as (y & x & ->). apply box2 in B as (By & Bx).
    set (u := if first then y else x). set (f := if first then x else y).
    assert (Hu : 0 <= u < n) by (unfold u, n; destruct first; lia). assert (Hf : 0 <= f < p) by (unfold f, p; destruct first; lia).
    destruct (Z.gcd_bezout stride n 1 G) as (v & w & E).
    exists (((u - f) * v) mod n), f. apply M. fold u f. pose proof (Z.mod_pos_bound ((u - f) * v) n Hn). splits; try lia.
    + rewrite <- Zplus_mod_idemp_r, Zmult_mod_idemp_l, Zplus_mod_idemp_r.
      replace (f + (u - f) * v * stride) with (u + (- ((u - f) * w)) * n) by nia. rewrite Z.mod_add by lia. symmetry. apply Z.mod_small. lia.
    + symmetry. apply Z.mod_small. lia.
Qed.
Print Assumptions C72_bicyclic_diagonal.
Example C72_bicyclic_diagonal_nonvacuous : Z.gcd 3 5 = 1 /\ packs (bicyclic_diagonal [5; 7] true 3 16) [4; 1] 2 8.
Proof. split; [reflexivity|]. unfold packs. apply bicyclic_diagonal_relates; try lia. vm_compute. repeat split; congruence. Qed.

(** Replication: slot s of the source goes to every slot with remainder s. *)
Theorem C72_periodic slots period r : periodic 1 slots period = Some r ->
  forall c s ct slot, relates r [c; s] [ct; slot] <-> c = 0 /\ ct = 0 /\ 0 <= slot < slots /\ s = slot mod period.
Proof. intros E c s ct slot. rewrite (periodic_relates slots period r) by exact E. intuition. Qed.
Print Assumptions C72_periodic.
Example C72_periodic_nonvacuous : exists r, periodic 1 16 5 = Some r /\ relates r [0; 3] [0; 13].
Proof. eexists. split; [reflexivity|]. eapply (periodic_relates 16 5); [reflexivity|]. vm_compute. repeat split; congruence. Qed.

(** One ciphertext for each row, repeated with the next power of two as period. *)
Theorem C72_per_row rows columns slots p r :
  0 < columns < 2 ^ 62 -> padding columns p -> per_row [rows; columns] slots = Some r ->
  let R := packs r in
  (forall i j ct slot, R [i; j] ct slot <-> 0 <= i < rows /\ 0 <= j < columns /\ ct = i /\ 0 <= slot < slots /\ j = slot mod p) /\
  functional R /\ within [rows; columns] rows slots R /\ stores_all [rows; columns] R /\ ((p | slots) -> periodic_by p slots R).
Proof.
  intros Hc Pp E R.
  assert (Ep : next_power_of_two columns = p) by (apply (padding_unique columns); auto; [lia|apply next_ok; lia]).
  assert (M : forall i j ct slot, R [i; j] ct slot <-> 0 <= i < rows /\ 0 <= j < columns /\ ct = i /\ 0 <= slot < slots /\ j = slot mod p).
  { intros i j ct slot. unfold R, packs. rewrite (per_row_relates rows columns slots r) by (auto; lia). rewrite Ep. intuition. }
  assert (S : columns <= slots) by (unfold per_row in E; cbn [dim nth length Nat.eqb negb orb] in E; destruct (Z.ltb_spec slots columns); [discriminate|lia]).
  assert (D : nd r = 2%nat).
  { unfold per_row in E. destruct (_ || _)%bool in E; [discriminate|]. cbn [length] in E. set (r0 := bound_all _ _ _) in E.
    match type of E with context [add_mod ?a ?b ?c] => pose proof (proj1 (shape_mod a b c)) as Sd; destruct (add_mod a b c) as [r2 m] end.
    apply some_inj in E. subst r. exact Sd. }
  assert (L : forall d ct slot, R d ct slot -> exists i j, d = [i; j]).
  { intros d ct slot (A & _). rewrite D in A. destruct d as [|i [|j [|]]]; try discriminate. eauto. }
  clearbody R. destruct Pp as (_ & Pp). split; [exact M|]. split; [|split; [|split]].
  - intros ct slot d e A B. destruct (L _ _ _ A) as (i & j & ->). destruct (L _ _ _ B) as (i' & j' & ->). apply M in A, B. ands. congruence.
  - intros d ct slot A. destruct (L _ _ _ A) as (i & j & ->). apply M in A. ands. splits; try lia. repeat constructor; lia.
  - intros d B. destruct (box2_inv _ _ _ B) as (i & j & ->). apply box2 in B as (Bi & Bj). exists i, j. apply M. splits; try lia. symmetry. apply Z.mod_small. lia.
  - intros D' d ct slot A. destruct (L _ _ _ A) as (i & j & ->). apply M in A. ands. apply M. splits; try lia; try (apply Z.mod_pos_bound; lia).
    rewrite mod_divide by (auto; lia). rewrite <- (Z.mul_1_l p) at 1. rewrite Z.mod_add by lia. easy.
Qed.
Print Assumptions C72_per_row.
Example C72_per_row_nonvacuous : exists r, per_row [3; 5] 16 = Some r /\ padding 5 8 /\ (8 | 16) /\ packs r [2; 4] 2 12.
Proof.
  eexists. split; [reflexivity|]. split; [split; [now exists 3|lia]|]. split; [now exists 2|].
  unfold packs. eapply (per_row_relates 3 5 16); [lia|reflexivity|]. vm_compute. repeat split; congruence.
Qed.

(** The number of ciphertexts is computed with floats of 24 bits: of a tensor with 2^24 + 1 elements the last is lost. *)
Theorem C72_float_refuted : exists shape slots d,
  Forall (fun s => 0 < s) shape /\ (exists k, slots = 2 ^ k) /\ in_box shape d /\ forall ct slot, ~ packs (row_major shape slots) d ct slot.
Proof.
  exists [97; 257; 673], 8192, [96; 256; 672]. split; [repeat constructor|]. split; [now exists 13|]. split; [repeat constructor; lia|]. intros ct slot A.
  unfold packs in A. apply row_major_relates_gen in A; [|repeat constructor|cbn; lia|lia].
  destruct A as (_ & C & _ & Q & _).
  change (ceil_float (size [97; 257; 673]) 8192) with 2048 in C.
  change (dot (fst (row_major_coeffs [97; 257; 673])) [96; 256; 672] / 8192) with 2048 in Q. lia.
Qed.
Print Assumptions C72_float_refuted.
(** The coefficients of the row-major order are computed with 32 bits: elements of huge tensors share a slot. *)
Theorem C72_product_refuted : exists shape slots ct slot d e,
  Forall (fun s => 0 < s) shape /\ packs (row_major shape slots) d ct slot /\ packs (row_major shape slots) e ct slot /\ d <> e.
Proof.
  exists [2; 65536; 65536], 8192, 0, 5, [0; 0; 5], [1; 0; 5]. split; [repeat constructor|].
  assert (A : forall d, in_box [2; 65536; 65536] d -> dot (fst (row_major_coeffs [2; 65536; 65536])) d = 5 -> packs (row_major [2; 65536; 65536] 8192) d 0 5).
  { intros d B E. unfold packs. apply row_major_relates_gen; [repeat constructor|vm_compute; reflexivity|lia|]. rewrite E. split; [exact B|]. vm_compute. repeat split; congruence. }
  split; [|split; [|discriminate]]; (apply A; [repeat constructor; lia|reflexivity]).
Qed.
Print Assumptions C72_product_refuted.
