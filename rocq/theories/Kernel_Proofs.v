(** Proofs about the kernels of Kernel_Model.v. *)
From Coq Require Import ZArith List Bool Lia Arith Ring Ring_theory.
From Verif Require Import Words NumTheory_Model Sums Kernel_Model.
Import ListNotations.
Open Scope Z_scope.

Lemma normalize_rotation_ok r n : 0 < n -> normalize_rotation r n = r mod n.
Proof.
  intros Hn. unfold normalize_rotation.
  pose proof (Z.rem_bound_abs r n ltac:(lia)) as B.
  rewrite (Z.rem_mod_nonneg (Z.rem r n + n)) by lia.
  replace (Z.rem r n + n) with (r + (1 - Z.quot r n) * n) by (pose proof (Z.quot_rem' r n); lia).
  apply Z.mod_add. lia.
Qed.

Lemma nth_error_ext_list {A} (l l' : list A) : (forall i, nth_error l i = nth_error l' i) -> l = l'.
Proof.
  revert l'. induction l as [|x l IH]; intros [|y l'] E; auto.
  - specialize (E 0%nat). discriminate.
  - specialize (E 0%nat). discriminate.
  - f_equal; [specialize (E 0%nat); now injection E|]. apply IH. intros i. apply (E (S i)).
Qed.

Section Big.
Context {A : Type} (op : A -> A -> A) (e : A).
Hypothesis op_comm : forall x y, op x y = op y x.
Hypothesis op_assoc : forall x y z, op x (op y z) = op (op x y) z.
Hypothesis op_e : forall x, op e x = x.

(** f 0, ..., f (n-1) combined *)
Fixpoint big (n : nat) (f : nat -> A) : A :=
  match n with O => e | S n' => op (big n' f) (f n') end.

Lemma big_ext n f g : (forall i, (i < n)%nat -> f i = g i) -> big n f = big n g.
Proof. induction n; intros H; auto. cbn [big]. rewrite IHn by auto. rewrite H by lia. auto. Qed.
Lemma big_unit n f : (forall i, (i < n)%nat -> f i = e) -> big n f = e.
Proof. induction n; intros H; auto. cbn [big]. rewrite IHn by auto. rewrite H by lia. apply op_e. Qed.
Lemma big_op n f g : big n (fun i => op (f i) (g i)) = op (big n f) (big n g).
Proof.
  induction n; cbn [big]; [now rewrite op_e|]. rewrite IHn.
  rewrite !op_assoc. f_equal. rewrite <- !op_assoc. f_equal. apply op_comm.
Qed.
Lemma big_split n m f : big (n + m) f = op (big n f) (big m (fun i => f (n + i)%nat)).
Proof.
  induction m; cbn [big].
  - rewrite Nat.add_0_r, op_comm, op_e. auto.
  - rewrite Nat.add_succ_r. cbn [big]. rewrite IHm, op_assoc. auto.
Qed.
Lemma big_swap n m f :
  big n (fun i => big m (fun j => f i j)) = big m (fun j => big n (fun i => f i j)).
Proof.
  induction n; cbn [big].
  - symmetry. apply big_unit; auto.
  - rewrite IHn, <- big_op. auto.
Qed.
Lemma big_prod n m f :
  big (n * m) f = big n (fun j => big m (fun i => f (j * m + i)%nat)).
Proof.
  induction n; [reflexivity|]. cbn [big]. rewrite <- IHn.
  replace (S n * m)%nat with (n * m + m)%nat by lia. apply big_split.
Qed.
(** terms beyond the limit are dropped *)
Lemma big_cut n k f : (k <= n)%nat -> (forall i, (k <= i < n)%nat -> f i = e) -> big n f = big k f.
Proof.
  intros H1 H2. replace n with (k + (n - k))%nat by lia. rewrite big_split.
  rewrite (big_unit (n - k)). { rewrite op_comm. apply op_e. }
  intros i Hi. apply H2. lia.
Qed.
Lemma big_single n f k : (k < n)%nat -> (forall i, (i < n)%nat -> i <> k -> f i = e) -> big n f = f k.
Proof.
  induction n; intros Hk H; [lia|]. cbn [big]. destruct (Nat.eq_dec k n) as [-> |].
  - rewrite big_unit; [apply op_e|]. intros; apply H; lia.
  - rewrite IHn by (try lia; intros; apply H; lia). rewrite (H n) by lia. rewrite op_comm. apply op_e.
Qed.
(** a cyclic shift of the index *)
Lemma big_shift1 n (h : Z -> A) s : (0 < n)%nat ->
  big n (fun k => h ((s + 1 + Z.of_nat k) mod Z.of_nat n)) = big n (fun k => h ((s + Z.of_nat k) mod Z.of_nat n)).
Proof.
  intros Hn. destruct n as [|m]; [lia|]. set (N := S m) in *.
  assert (E : big N (fun k => h ((s + Z.of_nat k) mod Z.of_nat N)) =
              op (h ((s + Z.of_nat 0) mod Z.of_nat N)) (big m (fun k => h ((s + Z.of_nat (1 + k)) mod Z.of_nat N)))).
  { unfold N at 1. change (S m) with (1 + m)%nat. rewrite big_split. cbn [big]. rewrite op_e. reflexivity. }
  rewrite E. unfold N at 1. cbn [big]. rewrite op_comm. f_equal.
  - f_equal. replace (s + 1 + Z.of_nat m) with (s + Z.of_nat 0 + 1 * Z.of_nat N) by (unfold N; lia).
    rewrite Z.mod_add by (unfold N; lia). auto.
  - apply big_ext. intros. do 2 f_equal. lia.
Qed.
Lemma big_shift n (h : Z -> A) s : (0 < n)%nat ->
  big n (fun k => h ((s + Z.of_nat k) mod Z.of_nat n)) = big n (fun k => h (Z.of_nat k)).
Proof.
  intros Hn.
  assert (P : forall k, 0 <= k ->
     big n (fun i => h ((k + Z.of_nat i) mod Z.of_nat n)) = big n (fun i => h (Z.of_nat i))).
  { intros k Hk. pattern k. apply natlike_ind; auto.
    - apply big_ext. intros. rewrite Z.mod_small by lia. auto.
    - intros x Hx IH. rewrite <- IH. unfold Z.succ. apply big_shift1. auto. }
  rewrite <- (P (s mod Z.of_nat n)) by (apply Z.mod_pos_bound; lia).
  apply big_ext. intros. rewrite Zplus_mod_idemp_l. auto.
Qed.
End Big.

Section Kernels.
Variable K : cring.
Notation R := (car K).
Add Ring Kring : (r_ok K).
Local Notation zero := (r0 K).
Local Infix "+r" := (radd K) (at level 50, left associativity).
Local Infix "*r" := (rmul K) (at level 40, left associativity).
Notation rsum := (big (radd K) (r0 K)).

Lemma Kaddc x y : x +r y = y +r x. Proof. ring. Qed.
Lemma Kadda x y z : x +r (y +r z) = x +r y +r z. Proof. ring. Qed.
Lemma Kadd0 x : zero +r x = x. Proof. ring. Qed.
Lemma Kmulc x y : x *r y = y *r x. Proof. ring. Qed.
Lemma Kmula x y z : x *r (y *r z) = x *r y *r z. Proof. ring. Qed.
Lemma Kmul1 x : r1 K *r x = x. Proof. ring. Qed.
Lemma Kmul0 x : zero *r x = zero. Proof. ring. Qed.

(** slot i of v, indices taken cyclically *)
Definition get (v : list R) (i : Z) : R := nth (Z.to_nat (i mod Z.of_nat (length v))) v zero.

Lemma get_mod v i n : length v = n -> get v (i mod Z.of_nat n) = get v i.
Proof. intros <-. unfold get. destruct (length v) eqn:E.
  - destruct v; [|discriminate]. cbn. destruct (Z.to_nat _), (Z.to_nat _); auto.
  - rewrite Z.mod_mod by lia. auto. Qed.
Lemma get_nth v i : (i < length v)%nat -> get v (Z.of_nat i) = nth i v zero.
Proof. intros. unfold get. rewrite Z.mod_small by lia. rewrite Nat2Z.id. auto. Qed.
Lemma map_get v n : length v = n -> map (fun i => get v (Z.of_nat i)) (seq 0 n) = v.
Proof.
  intros <-. etransitivity; [|apply (map_seq_nth zero v)]. apply map_ext_in. intros i Hi. apply in_seq in Hi.
  apply get_nth. lia.
Qed.
Lemma get_ext v w : length v = length w -> (forall i, get v i = get w i) -> v = w.
Proof.
  intros L H. rewrite <- (map_get v _ eq_refl), <- (map_get w _ eq_refl), L. apply map_ext. auto.
Qed.

Lemma rotate_get v k : (0 < length v)%nat ->
  exists w, rotate K v k = Some w /\ length w = length v /\ forall i, get w i = get v (i + k).
Proof.
  intros H. unfold rotate. destruct (Z.eqb_spec (Z.of_nat (length v)) 0); [lia|].
  rewrite normalize_rotation_ok by lia. eexists. split; [reflexivity|].
  rewrite map_length, seq_length. split; auto. intros i. unfold get at 1.
  rewrite map_length, seq_length.
  assert (B := Z.mod_pos_bound i (Z.of_nat (length v)) ltac:(lia)).
  rewrite nth_map_seq by lia. rewrite Z2Nat.id by lia. rewrite <- Zplus_mod. reflexivity.
Qed.
Lemma map2_ok f v w : length v = length w ->
  exists u, map2 K f v w = Some u /\ length u = length v /\
    forall i, (i < length v)%nat -> nth i u zero = f (nth i v zero) (nth i w zero).
Proof.
  revert w. induction v as [|x v IH]; destruct w as [|y w]; cbn [length]; intros H; try discriminate.
  - exists []. cbn. repeat split; auto. intros; lia.
  - destruct (IH w ltac:(lia)) as (u & E & L & N). exists (f x y :: u). cbn. rewrite E.
    split; [reflexivity|]. split; [cbn; lia|]. intros [|i] Hi; auto. cbn in Hi. apply N. lia.
Qed.
Lemma map2_get f v w : (0 < length v)%nat -> length v = length w ->
  exists u, map2 K f v w = Some u /\ length u = length v /\ forall i, get u i = f (get v i) (get w i).
Proof.
  intros H0 H. destruct (map2_ok f v w H) as (u & E & L & N). exists u. repeat split; auto.
  intros i. unfold get. rewrite L, <- H. apply N.
  assert (B := Z.mod_pos_bound i (Z.of_nat (length v)) ltac:(lia)). lia.
Qed.

(** node [x] evaluates to a vector with n slots, slot i (cyclically) being f i *)
Definition den (e : env K) (x : node K) (n : nat) (f : Z -> R) : Prop :=
  exists w, eval K e x = Some [VVec K w] /\ length w = n /\ forall i, get w i = f i.

Lemma den_ext e x n f g : den e x n f -> (forall i, f i = g i) -> den e x n g.
Proof. intros (w & A & B & C) H. exists w. repeat split; auto. intros. rewrite C. auto. Qed.
Lemma den_mod e x n f i : den e x n f -> f (i mod Z.of_nat n) = f i.
Proof. intros (w & A & B & C). rewrite <- !C. apply get_mod. auto. Qed.
Lemma den_leaf e v : den e (Leaf K (VVec K v)) (length v) (get v).
Proof. exists v. auto. Qed.
Lemma den_splat e n : den e (SplatZero K n) n (fun _ => zero).
Proof.
  exists (repeat zero n). repeat split. apply repeat_length. intros. unfold get. apply nth_repeat.
Qed.
Lemma den_var e x n f v : e x = Some (VVec K v) -> length v = n -> (forall i, get v i = f i) -> den e (Var K x) n f.
Proof. intros E L G. exists v. cbn. rewrite E. auto. Qed.
Lemma den_add e a b n f g : (0 < n)%nat -> den e a n f -> den e b n g ->
  den e (Add K a b) n (fun i => f i +r g i).
Proof.
  intros H0 (w & A & B & C) (w' & A' & B' & C'). destruct (map2_get (radd K) w w') as (u & E & L & G); try lia.
  exists u. cbn [eval]. rewrite A, A'. cbn [single arith bind]. rewrite E. cbn. repeat split; auto; try lia.
  intros. rewrite G, C, C'. auto.
Qed.
Lemma den_mul e a b n f g : (0 < n)%nat -> den e a n f -> den e b n g ->
  den e (Mul K a b) n (fun i => f i *r g i).
Proof.
  intros H0 (w & A & B & C) (w' & A' & B' & C'). destruct (map2_get (rmul K) w w') as (u & E & L & G); try lia.
  exists u. cbn [eval]. rewrite A, A'. cbn [single arith bind]. rewrite E. cbn. repeat split; auto; try lia.
  intros. rewrite G, C, C'. auto.
Qed.
Lemma den_rotate e a s k n f : (0 < n)%nat -> den e a n f -> eval K e s = Some [VInt K k] ->
  den e (Rotate K a s) n (fun i => f (i + k)).
Proof.
  intros H0 (w & A & B & C) E. destruct (rotate_get w k) as (u & E' & L & G); try lia.
  exists u. cbn [eval]. rewrite A, E. cbn [single bind]. rewrite E'. cbn. repeat split; auto; try lia.
  intros. rewrite G, C. auto.
Qed.
Lemma den_rotate_by e a k n f : (0 < n)%nat -> den e a n f -> den e (rotate_by K a k) n (fun i => f (i + k)).
Proof. intros. apply den_rotate; auto. Qed.
Lemma den_extract e a m i k r : eval K e a = Some [VMat K m] -> eval K e i = Some [VInt K k] -> 0 <= k ->
  nth_error m (Z.to_nat k) = Some r -> den e (Extract K a i) (length r) (get r).
Proof.
  intros E1 E2 H E3. exists r. cbn [eval]. rewrite E1, E2. cbn [single extract bind]. unfold nth_z.
  destruct (Z.ltb_spec k 0); [lia|]. rewrite E3. cbn. auto.
Qed.
Lemma den_run x n f : den (no_vars K) x n f -> run K x = Some (map (fun i => f (Z.of_nat i)) (seq 0 n)).
Proof.
  intros (w & A & B & C). unfold run. rewrite A. f_equal. rewrite <- (map_get w n B) at 1.
  apply map_ext. auto.
Qed.

(** an operation of either kind *)
Definition op_of (mul : bool) := if mul then rmul K else radd K.
Definition unit_of (mul : bool) := if mul then r1 K else r0 K.
Definition node_of (mul : bool) := if mul then Mul K else Add K.
Lemma den_op e mul a b n f g : (0 < n)%nat -> den e a n f -> den e b n g ->
  den e (node_of mul a b) n (fun i => op_of mul (f i) (g i)).
Proof. destruct mul; [apply den_mul | apply den_add]. Qed.
Lemma op_of_comm mul x y : op_of mul x y = op_of mul y x.
Proof. destruct mul; cbn; ring. Qed.
Lemma op_of_assoc mul x y z : op_of mul x (op_of mul y z) = op_of mul (op_of mul x y) z.
Proof. destruct mul; cbn; ring. Qed.
Lemma op_of_unit mul x : op_of mul (unit_of mul) x = x.
Proof. destruct mul; cbn; ring. Qed.

(** ** Matvec *)
Lemma den_matvec e mat v n d : (0 < n)%nat -> length v = n -> (forall r, In r mat -> length r = n) ->
  matvec K mat v = Some d ->
  den e d n (fun i => rsum (length mat) (fun r => get v (i + Z.of_nat r) *r get (nth r mat []) i)).
Proof.
  intros H0 Hv Hm. unfold matvec. destruct (Nat.eqb_spec (length mat) 0) as [|Hz]; [discriminate|].
  intros E. injection E as <-.
  set (term := fun i : nat => Mul K (rotate_by K (Leaf K (VVec K v)) (Z.of_nat i))
                                (extract_at K (Leaf K (VMat K mat)) (Z.of_nat i))).
  assert (T : forall r, (r < length mat)%nat ->
     den e (term r) n (fun i => get v (i + Z.of_nat r) *r get (nth r mat []) i)).
  { intros r Hr. apply den_mul; auto.
    - apply den_rotate_by; auto. rewrite <- Hv. apply den_leaf.
    - rewrite <- (Hm (nth r mat [])) by (apply nth_In; auto).
      eapply den_extract; try reflexivity; [lia|]. rewrite Nat2Z.id. apply nth_error_nth'. auto. }
  assert (P : forall k, (k < length mat)%nat ->
     den e (fold_left (fun acc i => Add K acc (term i)) (seq 1 k) (term 0%nat)) n
       (fun i => rsum (S k) (fun r => get v (i + Z.of_nat r) *r get (nth r mat []) i))).
  { induction k; intros Hk.
    - cbn [seq fold_left]. eapply den_ext; [apply T; lia|]. intros i. cbn [big]. now rewrite Kadd0.
    - rewrite seq_S, fold_left_app. cbn [fold_left].
      eapply den_ext; [apply den_add; [auto|apply IHk; lia|apply T; lia]|].
      intros i. reflexivity. }
  specialize (P (length mat - 1)%nat ltac:(lia)). replace (S (length mat - 1)) with (length mat) in P by lia.
  exact P.
Qed.

(** ** Rotate and accumulate *)
Definition acc_sem (mul : bool) (period : Z) (l : list Z) (f : Z -> R) : Z -> R :=
  fold_left (fun f s i => op_of mul (f i) (f (i + s * period))) l f.
Lemma acc_sem_ext mul period l f g : (forall i, f i = g i) -> forall i, acc_sem mul period l f i = acc_sem mul period l g i.
Proof.
  revert f g. induction l as [|s l IH]; intros f g H i; cbn; auto.
  apply IH. intros j. rewrite !H. auto.
Qed.
Lemma den_acc e mul period l x n f : (0 < n)%nat -> den e x n f ->
  den e (fold_left (fun acc s => node_of mul acc (rotate_by K acc (s * period))) l x) n
    (acc_sem mul period l f).
Proof.
  intros H0. revert x f. induction l as [|s l IH]; intros x f H; cbn [fold_left]; auto.
  apply (IH _ (fun i => op_of mul (f i) (f (i + s * period)))). apply den_op; auto. apply den_rotate_by; auto.
Qed.

Lemma halvings_nth fuel x i : 0 <= x < 2 ^ Z.of_nat fuel ->
  nth_error (halvings fuel x) i =
  if 0 <? x / 2 ^ Z.of_nat i then Some (x / 2 ^ Z.of_nat i) else None.
Proof.
  revert x i. induction fuel; intros x i H.
  - change (2 ^ Z.of_nat 0) with 1 in H. assert (x = 0) by lia. subst. rewrite Z.div_0_l by (apply Z.pow_nonzero; lia).
    destruct i; reflexivity.
  - cbn [halvings]. rewrite Nat2Z.inj_succ, Z.pow_succ_r in H by lia. destruct (Z.ltb_spec 0 x).
    + destruct i as [|i]; cbn [nth_error].
      * change (2 ^ Z.of_nat 0) with 1. rewrite Z.div_1_r. destruct (Z.ltb_spec 0 x); [auto|lia].
      * rewrite Z.quot_div_nonneg by lia. rewrite IHfuel.
        2:{ split; [apply Z.div_pos; lia|apply Z.div_lt_upper_bound; lia]. }
        rewrite Zdiv_Zdiv by (try lia; apply Z.pow_nonneg; lia).
        replace (2 * 2 ^ Z.of_nat i) with (2 ^ Z.of_nat (S i)) by (rewrite Nat2Z.inj_succ, Z.pow_succ_r; lia).
        reflexivity.
    + assert (x = 0) by lia. subst. rewrite Z.div_0_l by (apply Z.pow_nonzero; lia). destruct i; reflexivity.
Qed.
(** the halvings of steps, in closed form *)
Lemma shift_sizes_ok steps : 0 < steps < 2 ^ 63 ->
  shift_sizes steps = map (fun i => steps / 2 ^ Z.of_nat (S i)) (seq 0 (Z.to_nat (Z.log2 steps))).
Proof.
  intros H.
  assert (E : forall i, nth_error (shift_sizes steps) i =
    nth_error (map (fun i => steps / 2 ^ Z.of_nat (S i)) (seq 0 (Z.to_nat (Z.log2 steps)))) i).
  { intros i. unfold shift_sizes. rewrite Z.quot_div_nonneg by lia. rewrite halvings_nth.
    2:{ split; [apply Z.div_pos; lia|apply Z.div_lt_upper_bound; [lia|]].
        change (2 ^ Z.of_nat 64) with 18446744073709551616. change (2 ^ 63) with 9223372036854775808 in H. lia. }
    rewrite Zdiv_Zdiv by (try lia; apply Z.pow_nonneg; lia).
    replace (2 * 2 ^ Z.of_nat i) with (2 ^ Z.of_nat (S i)) by (rewrite Nat2Z.inj_succ, Z.pow_succ_r; lia).
    pose proof (Z.log2_spec steps ltac:(lia)) as [L1 L2].
    assert (L0 := Z.log2_nonneg steps).
    destruct (Z.ltb_spec 0 (steps / 2 ^ Z.of_nat (S i))) as [Hp|Hp].
    - assert (Hi : Z.of_nat (S i) <= Z.log2 steps).
      { destruct (Z_le_gt_dec (Z.of_nat (S i)) (Z.log2 steps)); auto.
        rewrite Z.div_small in Hp; [lia|]. split; [lia|]. eapply Z.lt_le_trans; [exact L2|].
        apply Z.pow_le_mono_r; lia. }
      symmetry. erewrite map_nth_error; [reflexivity|].
      rewrite (nth_error_nth' _ 0%nat) by (rewrite seq_length; lia). rewrite seq_nth by lia. reflexivity.
    - symmetry. apply nth_error_None. rewrite map_length, seq_length.
      destruct (Nat.le_gt_cases (Z.to_nat (Z.log2 steps)) i) as [?|Hc]; auto.
      exfalso. assert (1 <= steps / 2 ^ Z.of_nat (S i)); [|lia].
      apply Z.div_le_lower_bound; [apply Z.pow_pos_nonneg; lia|]. rewrite Z.mul_1_r.
      eapply Z.le_trans; [|exact L1]. apply Z.pow_le_mono_r; lia. }
  apply nth_error_ext_list. exact E.
Qed.

Lemma acc_pow2 mul period k f i : 
  acc_sem mul period (map (fun j => 2 ^ Z.of_nat k / 2 ^ Z.of_nat (S j)) (seq 0 k)) f i =
  big (op_of mul) (unit_of mul) (2 ^ k) (fun j => f (i + Z.of_nat j * period)).
Proof.
  revert f i. induction k; intros f i.
  - cbn. rewrite op_of_unit. f_equal. lia.
  - cbn [seq map]. rewrite <- seq_shift, map_map. unfold acc_sem. cbn [fold_left].
    assert (P2 : 0 < 2 ^ Z.of_nat k) by (apply Z.pow_pos_nonneg; lia).
    assert (Q : 2 ^ Z.of_nat (S k) = 2 ^ Z.of_nat k * 2) by (rewrite Nat2Z.inj_succ, Z.pow_succ_r; lia).
    change (2 ^ Z.of_nat 1) with 2. rewrite Q, Z.div_mul by lia.
    erewrite map_ext.
    2:{ intros j. rewrite (Nat2Z.inj_succ (S j)), Z.pow_succ_r by lia. rewrite (Z.mul_comm 2).
        rewrite Z.div_mul_cancel_r; [reflexivity|apply Z.pow_nonzero; lia|lia]. }
    fold (acc_sem mul period (map (fun j => 2 ^ Z.of_nat k / 2 ^ Z.of_nat (S j)) (seq 0 k))
            (fun i => op_of mul (f i) (f (i + 2 ^ Z.of_nat k * period)))).
    rewrite IHk. rewrite big_op by (intros; first [apply op_of_comm|apply op_of_assoc|apply op_of_unit]).
    replace (2 ^ S k)%nat with (2 ^ k + 2 ^ k)%nat by (cbn; lia).
    rewrite big_split by (intros; first [apply op_of_comm|apply op_of_assoc|apply op_of_unit]).
    f_equal. apply big_ext. intros j Hj. f_equal. rewrite Nat2Z.inj_add, Nat2Z.inj_pow. change (Z.of_nat 2) with 2. lia.
Qed.

Lemma den_accumulate e mul period k x n f : (0 < n)%nat -> Z.of_nat k < 63 -> den e x n f ->
  den e (accumulate K x period (2 ^ Z.of_nat k) (node_of mul)) n
    (fun i => big (op_of mul) (unit_of mul) (2 ^ k) (fun j => f (i + Z.of_nat j * period))).
Proof.
  intros H0 Hk H. unfold accumulate. eapply den_ext; [apply den_acc; eauto|].
  intros i. rewrite shift_sizes_ok.
  2:{ split; [apply Z.pow_pos_nonneg; lia|apply Z.pow_lt_mono_r; lia]. }
  rewrite Z.log2_pow2, Nat2Z.id by lia. apply acc_pow2.
Qed.

(** ** Loops *)
Lemma evals_eq e l : 
  (fix evals (l : list (node K)) : option (list (value K)) :=
     match l with
     | [] => Some []
     | x :: l' => v <- single K (eval K e x) ;; r <- evals l' ;; Some (v :: r)
     end) l = evals K e l.
Proof. induction l; [reflexivity|]. cbn [evals]. rewrite <- IHl. reflexivity. Qed.
Lemma eval_for_loop e iv args inits lower upper body vs (I : Z -> list (value K) -> Prop) :
  evals K e inits = Some vs -> lower <= upper -> I lower vs ->
  (forall i us, lower <= i < upper -> I i us ->
     exists e' us', bind_vars K (bind_var K e iv (VInt K i)) args us = Some e' /\
       eval K e' body = Some us' /\ I (i + 1) us') ->
  exists us, eval K e (ForLoop K iv args inits lower upper body) = Some us /\ I upper us.
Proof.
  intros E Hl H0 Hs. cbn [eval]. rewrite evals_eq, E. cbn [bind].
  assert (P : forall k, (k <= Z.to_nat (upper - lower))%nat -> exists us,
     fold_left (fun acc i => vs <- acc ;; e' <- bind_vars K (bind_var K e iv (VInt K i)) args vs ;; eval K e' body)
       (map (fun k => lower + Z.of_nat k) (seq 0 k)) (Some vs) = Some us /\ I (lower + Z.of_nat k) us).
  { induction k; intros Hk.
    - exists vs. rewrite Z.add_0_r. auto.
    - destruct IHk as (us & F & J); [lia|].
      destruct (Hs (lower + Z.of_nat k) us) as (e' & us' & B & E' & J'); [lia|auto|].
      exists us'. rewrite seq_S, map_app, fold_left_app. cbn [map fold_left Nat.add].
      rewrite F. cbn [bind]. rewrite B. cbn [bind]. split; auto.
      replace (lower + Z.of_nat (S k)) with (lower + Z.of_nat k + 1) by lia. auto. }
  destruct (P (Z.to_nat (upper - lower)) ltac:(lia)) as (us & F & J). exists us. split; auto.
  rewrite Z2Nat.id in J by lia. replace (lower + (upper - lower)) with upper in J by lia. auto.
Qed.

Lemma map_firstn_S {A} (l : list A) k d : (k < length l)%nat -> firstn (S k) l = firstn k l ++ [nth k l d].
Proof.
  revert k. induction l; intros [|k] H; cbn in *; try lia; auto. f_equal. apply IHl. lia.
Qed.
Lemma acc_sem_app mul period l l' f : acc_sem mul period (l ++ l') f = acc_sem mul period l' (acc_sem mul period l f).
Proof. apply fold_left_app. Qed.

Lemma den_accumulate_rolled e mul period steps x n f d : (0 < n)%nat -> 0 < steps < 2 ^ 63 ->
  den e x n f -> accumulate_rolled K x period steps (node_of mul) = Some d ->
  den e d n (acc_sem mul period (shift_sizes steps) f).
Proof.
  intros H0 Hs Hx. unfold accumulate_rolled. destruct (Z.leb_spec steps 0); [lia|].
  pose proof (Z.log2_nonneg steps) as Hlog.
  rewrite shift_sizes_ok by auto. set (l := map _ _).
  assert (Ll : length l = Z.to_nat (Z.log2 steps)) by (unfold l; rewrite map_length, seq_length; auto).
  destruct (Z.leb_spec (Z.log2 steps) 0).
  - intros E; injection E as <-. assert (l = []) as -> by (destruct l; auto; cbn in Ll; lia). exact Hx.
  - intros E; injection E as <-. destruct Hx as (w0 & Ew0 & Lw0 & Gw0).
    set (I := fun (i : Z) (us : list (value K)) =>
      exists w, us = [VVec K w; VInt K (steps / 2 ^ (i + 1))] /\ length w = n /\
        forall s, get w s = acc_sem mul period (firstn (Z.to_nat i) l) f s).
    destruct (eval_for_loop e 0 [1%nat; 2%nat] [x; Const K (steps ÷ 2)] 0 (Z.log2 steps)
       (Yield K [node_of mul (Var K 1) (Rotate K (Var K 1) (Mul K (Var K 2) (Const K period)));
               FloorDiv K (Var K 2) 2]) [VVec K w0; VInt K (steps ÷ 2)] I) as (us & Eu & Iu).
    + cbn [evals]. rewrite Ew0. reflexivity.
    + lia.
    + exists w0. rewrite Z.quot_div_nonneg by lia. change (2 ^ (0 + 1)) with 2. repeat split; auto.
    + intros i us Hi (w & -> & Lw & Gw).
      set (sh := steps / 2 ^ (i + 1)).
      set (e' := bind_var K (bind_var K (bind_var K e 0 (VInt K i)) 2 (VInt K sh)) 1 (VVec K w)).
      assert (Hsh : 1 <= sh).
      { apply Z.div_le_lower_bound; [apply Z.pow_pos_nonneg; lia|]. rewrite Z.mul_1_r.
        etransitivity; [|apply (proj1 (Z.log2_spec steps ltac:(lia)))]. apply Z.pow_le_mono_r; lia. }
      assert (D : den e' (node_of mul (Var K 1) (Rotate K (Var K 1) (Mul K (Var K 2) (Const K period)))) n
         (fun s => op_of mul (get w s) (get w (s + sh * period)))).
      { assert (V : den e' (Var K 1) n (get w)) by (eapply den_var; [reflexivity|auto|auto]).
        apply den_op; auto. apply den_rotate; auto. }
      destruct D as (w' & Ew' & Lw' & Gw').
      exists e', [VVec K w'; VInt K (steps / 2 ^ (i + 1 + 1))]. split; [reflexivity|]. split.
      * cbn [eval]. rewrite Ew'. cbn [single bind e' bind_var Nat.eqb floor_div].
        destruct (Z.eqb_spec sh 0); [lia|]. rewrite Z.quot_div_nonneg by lia. cbn [bind single].
        unfold sh. rewrite Zdiv_Zdiv by (try lia; apply Z.pow_nonneg; lia).
        rewrite (Z.pow_add_r 2 (i + 1) 1) by lia. reflexivity.
      * exists w'. repeat split; auto. intros s. rewrite Gw'.
        replace (Z.to_nat (i + 1)) with (S (Z.to_nat i)) by lia.
        rewrite (map_firstn_S l _ 0) by lia. rewrite acc_sem_app. cbn [acc_sem fold_left].
        rewrite !Gw. do 3 f_equal. unfold l. rewrite nth_map_seq by lia. unfold sh. f_equal.
        rewrite Nat2Z.inj_succ, Z2Nat.id by lia. reflexivity.
    + destruct Iu as (w & -> & Lw & Gw). exists w. unfold den.
      rewrite firstn_all2 in Gw by lia. split; auto.
      cbn [eval] in Eu |- *. rewrite Eu. reflexivity.
Qed.
End Kernels.
