(** Contents of the ciphertexts for each layout, and the kernels with the addition of the accumulator. *)
From Coq Require Import ZArith List Bool Lia Znumtheory.
From Verif Require Import Words NumTheory_Model NumTheory_Proofs Rel_Model Rel_Proofs Layout_Spec Layout_Proofs Layout_Props
  Points_Model Points_Spec Points_Proofs Points_Boxes Points_Props
  Sums Kernel_Model Kernel_Spec Kernel_Proofs KernelBsgs_Proofs KernelMat_Proofs Kernel_Props Linalg_Model Linalg_Spec.
Import ListNotations.
Open Scope Z_scope.

Section Contents.
Variable K : cring.

Lemma stored_ext (R Q : packing) f g cts slots m :
  (forall d ct s, R d ct s <-> Q d ct s) -> (forall d ct s, Q d ct s -> f d = g d) ->
  stored K R f cts slots m -> stored K Q g cts slots m.
Proof.
  intros E F (A & B & C & D). split; [exact A|]. split; [exact B|]. split.
  - intros d ct s H. rewrite <- (F d ct s H). apply C. now apply E.
  - intros ct s H1 H2 H3. apply D; auto. intros d H. apply (H3 d). now apply E.
Qed.

Lemma stored_iff (R : packing) f cts slots N m (g : Z -> Z -> K) :
  Z.of_nat N = slots -> functional R -> (forall d ct s, R d ct s -> 0 <= ct < cts /\ 0 <= s < slots) ->
  (forall ct s, 0 <= ct < cts -> 0 <= s < slots -> (exists d, R d ct s /\ g ct s = f d) \/ ((forall d, ~ R d ct s) /\ g ct s = r0 K)) ->
  (stored K R f cts slots m <-> Z.of_nat (length m) = cts /\ forall k, (k < length m)%nat -> holds K (nth k m []) N (g (Z.of_nat k))).
Proof.
  intros HN F W G. split.
  - intros (A & B & C & D). split; [exact A|]. intros k Hk. split.
    + pose proof (proj1 (Forall_forall _ _) B (nth k m []) (nth_In m [] Hk)) as E. cbn beta in E. lia.
    + intros s Hs. destruct (G (Z.of_nat k) (Z.of_nat s)) as [(d & H1 & ->)|(H1 & ->)]; [lia|lia| |].
      * rewrite <- (C d _ _ H1). unfold content. now rewrite !Nat2Z.id.
      * etransitivity; [|apply (D (Z.of_nat k) (Z.of_nat s)); [lia|lia|exact H1]]. unfold content. now rewrite !Nat2Z.id.
  - intros (A & H).
    assert (Q : forall ct s, 0 <= ct < cts -> 0 <= s < slots -> content K m ct s = g ct s).
    { intros ct s H1 H2. unfold content. destruct (H (Z.to_nat ct) ltac:(lia)) as (_ & H3). rewrite H3 by lia. now rewrite !Z2Nat.id by lia. }
    split; [exact A|]. split.
    + apply Forall_forall. intros v Hv. destruct (In_nth m v [] Hv) as (k & Hk & <-). destruct (H k Hk) as (L & _). lia.
    + split.
      * intros d ct s R1. destruct (W d ct s R1) as (H1 & H2). rewrite Q by auto. destruct (G ct s H1 H2) as [(e & R2 & ->)|(R2 & _)].
        -- f_equal. eapply F; eauto.
        -- now apply R2 in R1.
      * intros ct s H1 H2 H3. rewrite Q by auto. destruct (G ct s H1 H2) as [(e & R2 & _)|(_ & ->)]; [|reflexivity]. now apply H3 in R2.
Qed.
(** one ciphertext *)
Lemma stored_one (R : packing) f slots N v (g : Z -> K) :
  Z.of_nat N = slots -> functional R -> (forall d ct s, R d ct s -> ct = 0 /\ 0 <= s < slots) ->
  (forall s, 0 <= s < slots -> (exists d, R d 0 s /\ g s = f d) \/ ((forall d, ~ R d 0 s) /\ g s = r0 K)) ->
  (stored K R f 1 slots [v] <-> holds K v N g).
Proof.
  intros HN F W G. rewrite (stored_iff R f 1 slots N [v] (fun _ => g)); auto.
  - cbn [length]. split.
    + intros (_ & H). apply (H 0%nat). lia.
    + intros H. split; [reflexivity|]. intros k Hk. replace k with 0%nat by lia. exact H.
  - intros d ct s H. destruct (W d ct s H). lia.
  - intros ct s H1 H2. replace ct with 0 by lia. now apply G.
Qed.
Lemma stored_single R f slots m : stored K R f 1 slots m -> exists v, m = [v].
Proof. intros (A & _). destruct m as [|v [|]]; cbn [length] in A; try lia. now exists v. Qed.

Lemma mod0 x p : 0 < p -> 0 <= x mod p < p. Proof. intros. now apply Z.mod_pos_bound. Qed.

(** a matrix in row-major order *)
Lemma stored_matrix m n slots N p f v :
  Z.of_nat N = slots -> 0 < m -> 0 < n -> m * n <= slots -> slots <= 2 ^ 24 -> padding (m * n) p ->
  (stored K (packs (row_major [m; n] slots)) f 1 slots [v] <->
   holds K v N (fun s => if s mod p <? m * n then f [s mod p / n; (s mod p) mod n] else r0 K)).
Proof.
  intros HN Hm Hn Hs H24 Hp. assert (0 < m * n) by nia. assert (Pp : 0 < p) by (destruct Hp; lia).
  destruct (C72_row_major [m; n] slots p) as (M & F & _); [repeat constructor; lia|cbn [size]; lia|lia|cbn [size]; now rewrite Z.mul_1_r|].
  assert (M1 : forall d ct s, packs (row_major [m; n] slots) d ct s <->
    exists i j, d = [i; j] /\ 0 <= i < m /\ 0 <= j < n /\ ct = 0 /\ 0 <= s < slots /\ s mod p = i * n + j).
  { intros d ct s. rewrite M. split.
    - intros (B & H1 & H2 & H3). revert H2 H3. inversion B as [|? i ? d' Hi B']; subst. inversion B' as [|? j ? d'' Hj B'']; subst. inversion B''; subst. intros H2 H3.
      exists i, j. cbn [flat size] in H2, H3. rewrite !Z.mul_1_r, Z.add_0_r in *.
      assert (0 <= i * n + j < m * n) by nia. rewrite (Z.mod_small (i * n + j)) in H3 by lia. rewrite (Z.div_small (i * n + j)) in H2 by lia. splits; auto; lia.
    - intros (i & j & -> & Hi & Hj & -> & H1 & H2). cbn [flat size]. rewrite !Z.mul_1_r, Z.add_0_r.
      assert (0 <= i * n + j < m * n) by nia. rewrite (Z.mod_small (i * n + j) slots), (Z.div_small (i * n + j) slots) by lia.
      split; [constructor; [lia|]; constructor; [lia|constructor]|]. splits; auto; lia. }
  apply stored_one; auto.
  - intros d ct s H1. apply M1 in H1 as (i & j & H1). tauto.
  - intros s H1. destruct (Z.ltb_spec (s mod p) (m * n)).
    + left. exists [s mod p / n; (s mod p) mod n]. split; [|reflexivity]. apply M1. do 2 eexists. split; [reflexivity|].
      pose proof (mod0 s p Pp). pose proof (mod0 (s mod p) n Hn). splits; try lia; [apply Z.div_pos; lia|apply Z.div_lt_upper_bound; lia|].
      rewrite (Z.div_mod (s mod p) n) at 1 by lia. lia.
    + right. split; [|reflexivity]. intros d H2. apply M1 in H2 as (i & j & _ & Hi & Hj & _ & _ & E). nia.
Qed.


(** a vector in row-major order *)
Lemma stored_vector n slots N p f v :
  Z.of_nat N = slots -> 0 < n <= slots -> slots <= 2 ^ 24 -> padding n p ->
  (stored K (packs (row_major [n] slots)) f 1 slots [v] <-> holds K v N (fun s => padded1 K n (fun i => f [i]) (s mod p))).
Proof.
  intros HN Hn Hs Hp. assert (Pp : 0 < p) by (destruct Hp; lia).
  destruct (C72_row_major [n] slots p) as (M & F & _); [repeat constructor; lia|cbn [size]; lia|lia|cbn [size]; now rewrite Z.mul_1_r|].
  assert (M1 : forall d ct s, packs (row_major [n] slots) d ct s <-> exists i, d = [i] /\ 0 <= i < n /\ ct = 0 /\ 0 <= s < slots /\ s mod p = i).
  { intros d ct s. rewrite M. split.
    - intros (B & S & C & D). destruct d as [|i [|j d]]; [inversion B| |inversion B as [|? ? ? ? _ X]; inversion X]. assert (Hi : 0 <= i < n) by now inversion B. cbn [flat size] in C, D. rewrite Z.mul_1_r, Z.add_0_r in C, D.
      rewrite Z.div_small in C by lia. rewrite (Z.mod_small i) in D by lia. exists i. auto.
    - intros (i & -> & Hi & -> & S & E). cbn [flat size]. rewrite Z.mul_1_r, Z.add_0_r, (Z.div_small i), (Z.mod_small i) by lia. repeat split; auto; try lia.
      repeat constructor; lia. }
  apply stored_one; auto.
  - intros d ct s H. apply M1 in H as (i & _ & _ & -> & S & _). auto.
  - intros s S. pose proof (mod0 s p Pp). unfold padded1. destruct (Z.ltb_spec (s mod p) n).
    + left. exists [s mod p]. split; [|reflexivity]. apply M1. exists (s mod p). repeat split; auto; lia.
    + right. split; [|reflexivity]. intros d H1. apply M1 in H1 as (i & _ & Hi & _ & _ & E). lia.
Qed.
(** a matrix by diagonals *)
Lemma stored_diagonal rows cols slots N pr pc r f m :
  Z.of_nat N = slots -> 0 < rows < 2 ^ 32 -> 0 < cols < 2 ^ 32 -> padding rows pr -> padding cols pc -> diagonal [rows; cols] slots = Some r ->
  (stored K (packs r) f (Z.min pr pc) slots m <->
   Z.of_nat (length m) = Z.min pr pc /\ forall k, (k < length m)%nat ->
     holds K (nth k m []) N (fun s => padded2 K rows cols (fun i j => f [i; j]) (s mod pr) ((Z.of_nat k + s) mod pc))).
Proof.
  intros HN Hr Hc Pr Pc E. destruct (C72_diagonal rows cols slots pr pc r Hr Hc Pr Pc E) as (M & F & W & _).
  assert (P1 : 0 < pr) by (destruct Pr; lia). assert (P2 : 0 < pc) by (destruct Pc; lia).
  apply (stored_iff (packs r) f (Z.min pr pc) slots N m (fun k s => padded2 K rows cols (fun i j => f [i; j]) (s mod pr) ((k + s) mod pc))); auto.
  - intros d ct s H. now apply W in H.
  - intros ct s H1 H2. pose proof (mod0 s pr P1). pose proof (mod0 (ct + s) pc P2). unfold padded2.
    destruct (Z.ltb_spec (s mod pr) rows); cbn [andb].
    + destruct (Z.ltb_spec ((ct + s) mod pc) cols).
      * left. exists [s mod pr; (ct + s) mod pc]. split; [|reflexivity]. apply M. repeat split; auto; lia.
      * right. split; [|reflexivity]. intros d H5. destruct (W _ _ _ H5) as (B & _). inversion B as [|? i ? ? Hi Hl]. subst. inversion Hl as [|? j ? ? Hj Hl']. subst. inversion Hl'. subst.
        apply M in H5 as (_ & ? & _ & _ & _ & ->). lia.
    + right. split; [|reflexivity]. intros d H5. destruct (W _ _ _ H5) as (B & _). inversion B as [|? i ? ? Hi Hl]. subst. inversion Hl as [|? j ? ? Hj Hl']. subst. inversion Hl'. subst.
      apply M in H5 as (? & _ & _ & _ & -> & _). lia.
Qed.
Lemma one_ct n slots : 0 < n <= slots -> (n + slots - 1) / slots = 1.
Proof. intros H. symmetry. apply (Z.div_unique_pos _ _ 1 (n - 1)); lia. Qed.
(** matrices whose indices are remainders of the slot *)
Lemma stored_bicyclic m n slots N r f v :
  Z.of_nat N = slots -> 0 < m -> 0 < n -> m * n <= slots -> slots <= 2 ^ 24 -> bicyclic [m; n] slots = Some r ->
  (stored K (packs r) f 1 slots [v] <-> holds K v N (fun s => f [s mod m; s mod n])).
Proof.
  intros HN Hm Hn Hmn Hs E. assert (m <= m * n) by nia. assert (n <= m * n) by nia.
  destruct (C72_bicyclic m n slots r) as (M & F & W & _); auto; try lia. rewrite one_ct in M, W by nia.
  apply stored_one; auto.
  - intros d ct s H1. apply W in H1. lia.
  - intros s S. left. exists [s mod m; s mod n]. split; [|reflexivity]. apply M. rewrite Z.mul_0_l, Z.add_0_l. repeat split; lia.
Qed.
Lemma stored_tricyclic h m n slots N r f v :
  Z.of_nat N = slots -> 0 < h -> 0 < m -> 0 < n -> h * m * n <= slots -> slots <= 2 ^ 24 -> tricyclic [h; m; n] slots = Some r ->
  (stored K (packs r) f 1 slots [v] <-> holds K v N (fun s => f [s mod h; s mod m; s mod n])).
Proof.
  intros HN Hh Hm Hn Hmn Hs E. assert (0 < h * m * n) by nia.
  destruct (C72_tricyclic h m n slots r) as (M & F & W & _); auto; try lia. rewrite one_ct in M, W by nia.
  apply stored_one; auto.
  - intros d ct s H1. apply W in H1. lia.
  - intros s S. left. exists [s mod h; s mod m; s mod n]. split; [|reflexivity]. apply M. rewrite Z.mul_0_l, Z.add_0_l. repeat split; lia.
Qed.
Lemma stored_bicyclic_diagonal n0 n1 (first : bool) stride slots N f m :
  Z.of_nat N = slots -> 0 < n0 -> 0 < n1 ->
  let n := if first then n0 else n1 in let p := if first then n1 else n0 in
  (stored K (packs (bicyclic_diagonal [n0; n1] first stride slots)) f n slots m <->
   Z.of_nat (length m) = n /\ forall c, (c < length m)%nat ->
     holds K (nth c m []) N (fun s => if first then f [(s + Z.of_nat c * stride) mod n; s mod p] else f [s mod p; (s + Z.of_nat c * stride) mod n])).
Proof.
  intros HN H0 H1 n p. destruct (C72_bicyclic_diagonal n0 n1 first stride slots H0 H1) as (M & F & W & _). fold n p in M, W.
  apply (stored_iff _ f n slots N m (fun c s => if first then f [(s + c * stride) mod n; s mod p] else f [s mod p; (s + c * stride) mod n])); auto.
  - intros d ct s H. now apply W in H.
  - intros ct s H2 H3. left. destruct first.
    + exists [(s + ct * stride) mod n; s mod p]. split; [|reflexivity]. apply M. auto.
    + exists [s mod p; (s + ct * stride) mod n]. split; [|reflexivity]. apply M. auto.
Qed.
Lemma stored_scalar slots N f v : Z.of_nat N = slots ->
  (stored K (packs (scalar_layout slots)) f 1 slots [v] <-> holds K v N (fun _ => f [])).
Proof.
  intros HN. assert (M : forall d ct s, packs (scalar_layout slots) d ct s <-> d = [] /\ ct = 0 /\ 0 <= s < slots).
  { intros d ct s. unfold packs, relates, scalar_layout, sat. cbn -[Z.mul Z.add]. split.
    - intros (A & _ & l & B & C & D). destruct d; [|discriminate]. destruct l; [|discriminate]. cbn -[Z.mul Z.add] in *.
      inversion C as [|? ? C1 _]. inversion D as [|? ? D1 D2]. inversion D2 as [|? ? D3 _]. cbn -[Z.mul Z.add] in *. split; [reflexivity|]. lia.
    - intros (-> & -> & S). split; [reflexivity|]. split; [reflexivity|]. exists []. split; [reflexivity|]. cbn -[Z.mul Z.add].
      split; repeat constructor; cbn -[Z.mul Z.add]; lia. }
  apply stored_one; auto.
  - intros ct s d e A B. apply M in A as (-> & _). apply M in B as (-> & _). reflexivity.
  - intros d ct s A. apply M in A as (_ & A). exact A.
  - intros s S. left. exists []. split; [|reflexivity]. now apply M.
Qed.

(** * The accumulator *)
Lemma add_seq (F : nat -> K) a N c : holds K a N c ->
  map2 K (radd K) (map F (seq 0 N)) a = Some (map (fun i => radd K (F i) (c (Z.of_nat i))) (seq 0 N)).
Proof.
  intros (L & H). destruct (map2_ok K (radd K) (map F (seq 0 N)) a) as (u & E & Lu & G).
  { now rewrite map_length, seq_length. }
  rewrite E. f_equal. rewrite map_length, seq_length in Lu. apply nth_ext with (d := r0 K) (d' := r0 K).
  - now rewrite map_length, seq_length.
  - intros i Hi. rewrite Lu in Hi. rewrite nth_map_seq by auto. rewrite G by (now rewrite map_length, seq_length). rewrite nth_map_seq by auto. now rewrite H.
Qed.
Lemma holds_seq v N f : holds K v N f -> v = map (fun i => f (Z.of_nat i)) (seq 0 N).
Proof.
  intros (L & H). apply nth_ext with (d := r0 K) (d' := r0 K); [now rewrite map_length, seq_length|]. intros i Hi. rewrite L in Hi. rewrite nth_map_seq by auto. auto.
Qed.
Lemma holds_ext v N f g : (forall s, 0 <= s < Z.of_nat N -> f s = g s) -> holds K v N f -> holds K v N g.
Proof. intros E (L & H). split; [exact L|]. intros s Hs. rewrite H by auto. apply E. lia. Qed.
(** adding the accumulator and replicating the valid prefix *)
Lemma finish (f g c : Z -> K) a N per reach : 0 < per -> 0 <= reach -> per + reach <= Z.of_nat N ->
  (forall s, 0 <= s -> s + reach < Z.of_nat N -> f s = g s) ->
  (forall s, g (s mod per) = g s) -> (forall s, c (s mod per) = c s) -> holds K a N c ->
  exists out, (o <- add_init K (map (fun i => f (Z.of_nat i)) (seq 0 N)) [a] ;;
               o <- replicate_prefix K o per (Z.of_nat (length o) - reach) ;; Some [o]) = Some [out] /\
    holds K out N (fun s => radd K (c s) (g s)).
Proof.
  intros P R L Hf Hg Hc Ha. cbn [add_init]. rewrite (add_seq (fun i => f (Z.of_nat i)) a N c Ha). cbn [bind]. rewrite map_length, seq_length.
  rewrite (replicate_prefix_ok K N (fun s => radd K (f s) (c s)) (fun s => radd K (c s) (g s))); auto.
  - cbn [bind]. eexists. split; [reflexivity|]. apply (holds_map K N (fun s => radd K (c s) (g s))). reflexivity.
  - intros s H1 H2. rewrite Hf by auto. apply Kaddc.
  - intros s. now rewrite Hg, Hc.
Qed.
(** products with the diagonals of a plaintext *)
Lemma diagonal_run (T : Z -> Z -> K) (X : Z -> K) period steps ct pt N :
  (0 < N)%nat -> 1 <= period -> 1 <= steps -> holds K ct N X -> steps <= Z.of_nat (length pt) ->
  (forall c, (c < length pt)%nat -> holds K (nth c pt []) N (T (Z.of_nat c))) ->
  exists d f, rotate_and_reduce K ct (Some pt) period steps [] false true = Some d /\
    run K d = Some (map (fun i => f (Z.of_nat i)) (seq 0 N)) /\
    forall s, 0 <= s -> s + period * (steps - 1) < Z.of_nat N ->
      f s = rsum K (Z.to_nat steps) (fun c => rmul K (T (Z.of_nat c) s) (X (s + Z.of_nat c * period))).
Proof.
  intros H0 Hp Hs [Lc Hc] Lp HT. assert (0 <= period * (steps - 1)) by nia.
  assert (Lr : forall r, In r pt -> length r = N). { intros r Hr. destruct (In_nth pt r [] Hr) as (i & Hi & <-). apply HT. exact Hi. }
  unfold rotate_and_reduce. pose proof (baby_steps_pos steps ltac:(lia)). rewrite Lc.
  set (skip := fun k => existsb (fun d : Z * bool => fst d =? k) []).
  destruct (bsgs K (Leaf K (VVec K ct)) (Leaf K (VMat K pt)) period steps N (extract_at K) skip default_rotation) as [d|] eqn:E.
  2:{ unfold bsgs in E. destruct (Z.eqb_spec (baby_steps steps) 0); [lia|discriminate]. }
  pose proof (den_leaf K (no_vars K) ct) as Dc. rewrite Lc in Dc.
  pose proof (den_bsgs_plain K (no_vars K) _ pt period steps N skip _ d ltac:(lia) ltac:(lia) Lr Dc E) as D.
  exists d. eexists. split; [reflexivity|]. split; [apply (den_run K _ _ _ D)|].
  intros s L1 L2. apply big_ext. intros c Hc'. cbn [ind negb skip existsb].
  destruct (HT c ltac:(lia)) as [Lt G1]. assert (0 <= Z.of_nat c * period <= period * (steps - 1)).
  { split; [nia|]. rewrite Z.mul_comm. apply Z.mul_le_mono_nonneg_l; lia. }
  rewrite get_bound by (rewrite Lt; lia). rewrite G1 by lia.
  rewrite get_bound by (rewrite Lc; lia). rewrite Hc by lia. rewrite !Z2Nat.id by lia.
  rewrite (Z.mul_comm period). reflexivity.
Qed.
End Contents.

Lemma complement_found r lower upper image cts box : well_formed r -> bounds_hold r lower upper -> nr r = 2%nat ->
  domain_box r lower upper = Some box -> exists l, complement r lower upper image cts = Some l.
Proof.
  intros W B N D. unfold complement. rewrite N. cbn [Nat.eqb negb]. rewrite D. destruct box as (lb, ub).
  destruct (box_ok r lower upper lb ub W B D) as (L1 & L2 & _).
  destruct (for_each_run image lb ub (fun _ => mark_ct cts) (fun s => snd s =? cts) (repeat false (Z.to_nat cts), 0)) as [Q|(Q & _)]; [congruence| |];
    rewrite Q; [|eauto]. destruct (Points_Proofs.run _ _ _ _) as (seen, n). eauto.
Qed.
Lemma diagonal_targets rows cols slots r : rows <= max64 -> cols <= max64 -> diagonal [rows; cols] slots = Some r -> nr r = 2%nat.
Proof. intros A B E. apply (ready_diagonal rows cols slots r A B E). Qed.
