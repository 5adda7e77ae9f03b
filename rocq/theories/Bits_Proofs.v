(** Proofs about integers, their bits and tensors of them. *)
From Coq Require Import List Bool ZArith Arith Lia.
From Verif Require Import Bits_Spec Bits_Model.
Import ListNotations.
Local Open Scope Z_scope.

Lemma sequence_map {A B} (f : A -> option B) (g : A -> B) : forall l, (forall a, In a l -> f a = Some (g a)) ->
  sequence (map f l) = Some (map g l).
Proof.
  induction l as [|a l IH]; intro H; [reflexivity|]. cbn [map sequence]. rewrite (H a (or_introl eq_refl)). cbn [bind].
  rewrite IH by (intros b Hb; apply H; right; exact Hb). reflexivity.
Qed.
Lemma sequence_none {A B} (f : A -> option B) : forall l a, In a l -> f a = None -> sequence (map f l) = None.
Proof.
  induction l as [|b l IH]; intros a Ha H; [destruct Ha|]. destruct Ha as [->|Ha].
  - cbn. rewrite H. reflexivity.
  - cbn. destruct (f b); [|reflexivity]. cbn. rewrite (IH a); auto.
Qed.

(** *** Words *)
Lemma testbit_trunc w x i : 0 <= i < Z.of_nat w -> Z.testbit (trunc w x) i = Z.testbit x i.
Proof. intro H. unfold trunc. apply Z.mod_pow2_bits_low. lia. Qed.
Lemma testbit_trunc_high w x i : Z.of_nat w <= i -> Z.testbit (trunc w x) i = false.
Proof. intro H. unfold trunc. apply Z.mod_pow2_bits_high. lia. Qed.
Lemma trunc_small w x : 0 <= x < 2 ^ Z.of_nat w -> trunc w x = x.
Proof. intro H. unfold trunc. apply Z.mod_small. exact H. Qed.
Lemma trunc_range w x : 0 <= trunc w x < 2 ^ Z.of_nat w.
Proof. unfold trunc. apply Z.mod_pos_bound. apply Z.pow_pos_nonneg; lia. Qed.
Lemma attr_small w i : (i < w)%nat -> attr w (Z.of_nat i) = Z.of_nat i.
Proof.
  intro H. apply trunc_small. split; [lia|]. apply Z.lt_trans with (Z.of_nat w); [lia|]. apply Z.pow_gt_lin_r; lia.
Qed.
Lemma testbit_signed w x i : 0 <= i < Z.of_nat w -> Z.testbit (signed w x) i = Z.testbit x i.
Proof.
  intro H. unfold signed. destruct (Z.testbit x (Z.of_nat w - 1)); [|reflexivity].
  rewrite <- (Z.mod_pow2_bits_low (x - 2 ^ Z.of_nat w) (Z.of_nat w)) by lia.
  rewrite <- (Z.mod_pow2_bits_low x (Z.of_nat w) i) by lia. f_equal.
  replace (x - 2 ^ Z.of_nat w) with (x + (-1) * 2 ^ Z.of_nat w) by lia. apply Z.mod_add. pose proof (Z.pow_pos_nonneg 2 (Z.of_nat w)). lia.
Qed.

(** The i-th bit through a mask. *)
Lemma masked_bit w v m i : (i < w)%nat -> (1 < w)%nat -> Z.testbit m (Z.of_nat i) = true ->
  bind (shrsi w (andi v m) (Z.of_nat i)) (fun x => Some (trunci1 x)) = Some (Z.testbit v (Z.of_nat i)).
Proof.
  intros H Hw Hm. unfold shrsi. destruct (Z.ltb_spec (Z.of_nat i) (Z.of_nat w)); [|lia]. cbn [bind]. f_equal. unfold trunci1.
  rewrite <- Z.bit0_odd, testbit_trunc, Z.shiftr_spec, testbit_signed by lia. unfold andi. rewrite Z.land_spec. cbn [Z.add]. rewrite Hm. apply andb_true_r.
Qed.

Lemma c_shift_bit w i : (i < w)%nat -> (i < 32)%nat -> exists m, c_shift i = Some m /\ Z.testbit (attr w m) (Z.of_nat i) = true.
Proof.
  intros Hw H. unfold c_shift. destruct (Nat.ltb_spec i 32); [|lia]. eexists. split; [reflexivity|]. unfold attr. rewrite testbit_trunc by lia.
  destruct (Nat.eqb_spec i 31) as [->|E]; [reflexivity|]. apply Z.pow2_bits_true. lia.
Qed.
Lemma bits_one v : [trunci1 v] = bits 1 v.
Proof. unfold bits, trunci1. cbn. rewrite <- Z.bit0_odd. reflexivity. Qed.

Theorem convert_integer_ok w v : (w <= 32)%nat -> convert_integer w v = Some (bits w v).
Proof.
  intro H. unfold convert_integer. destruct (Nat.eqb_spec w 1) as [->|E]; [f_equal; apply bits_one|].
  apply sequence_map. intros i Hi. apply in_seq in Hi. destruct (c_shift_bit w i) as (m & -> & Hm); try lia. cbn [bind]. rewrite attr_small by lia.
  apply masked_bit; try lia; exact Hm.
Qed.
Theorem convert_integer_large w v : (32 < w)%nat -> convert_integer w v = None.
Proof.
  intro H. unfold convert_integer. destruct (Nat.eqb_spec w 1); [lia|]. apply (sequence_none _ _ 32%nat); [apply in_seq; lia|reflexivity].
Qed.

Theorem encode_element_ok w v : encode_element w v = Some (bits w v).
Proof.
  unfold encode_element. destruct (Nat.eqb_spec w 1) as [->|E]; [f_equal; apply bits_one|].
  apply sequence_map. intros i Hi. apply in_seq in Hi. rewrite attr_small by lia.
  assert (A : attr w 1 = 1). { change 1 with (Z.of_nat 1) at 1. apply attr_small. lia. } rewrite A. unfold shli.
  destruct (Z.ltb_spec (Z.of_nat i) (Z.of_nat w)); [|lia]. cbn [bind]. apply masked_bit; try lia. rewrite testbit_trunc by lia.
  rewrite Z.shiftl_spec by lia. rewrite Z.sub_diag. reflexivity.
Qed.

(** *** Bits to integers *)
Lemma testbit_ext w b i : 0 <= i < Z.of_nat w -> Z.testbit (extsi1 w b) i = b.
Proof. intro H. unfold extsi1. rewrite testbit_trunc by exact H. destruct b; [apply Z.bits_m1; lia|apply Z.bits_0]. Qed.
Lemma bound_of_bits w x : 0 <= x -> (forall i, Z.of_nat w <= i -> Z.testbit x i = false) -> x < 2 ^ Z.of_nat w.
Proof.
  intros H0 H. assert (E : x = x mod 2 ^ Z.of_nat w).
  { apply Z.bits_inj'. intros i Hi. destruct (Z_lt_le_dec i (Z.of_nat w)).
    - rewrite Z.mod_pow2_bits_low by lia. reflexivity.
    - rewrite Z.mod_pow2_bits_high, H by lia. reflexivity. }
  rewrite E. apply Z.mod_pos_bound. apply Z.pow_pos_nonneg; lia.
Qed.

Lemma convert_tensor_fold w : forall l k acc, 0 <= acc < 2 ^ Z.of_nat w -> (k + length l <= w)%nat ->
  exists r, fold_left (fun acc (ib : nat * bool) => bind acc (fun result =>
      bind (shli w (extsi1 w (snd ib)) (attr w (Z.of_nat (fst ib)))) (fun shifted => Some (ori result shifted))))
      (combine (seq k (length l)) l) (Some acc) = Some r /\ 0 <= r < 2 ^ Z.of_nat w /\
    forall j, (j < w)%nat -> Z.testbit r (Z.of_nat j) = (Z.testbit acc (Z.of_nat j) || existsb id (firstn (S j - k) l))%bool.
Proof.
  induction l as [|b l IH]; intros k acc Ha Hk.
  - exists acc. split; [reflexivity|]. split; [exact Ha|]. intros j Hj. rewrite firstn_nil. cbn. rewrite orb_false_r. reflexivity.
  - cbn [length] in Hk. cbn [length seq combine fold_left bind fst snd]. rewrite attr_small by lia. unfold shli at 2.
    destruct (Z.ltb_spec (Z.of_nat k) (Z.of_nat w)); [|lia]. cbn [bind].
    set (x := trunc w (Z.shiftl (extsi1 w b) (Z.of_nat k))). pose proof (trunc_range w (Z.shiftl (extsi1 w b) (Z.of_nat k))) as Hx. fold x in Hx.
    destruct (IH (S k) (ori acc x)) as (r & E & Hr & Hb); [|lia|].
    { unfold ori. split; [apply Z.lor_nonneg; lia|]. apply bound_of_bits; [apply Z.lor_nonneg; lia|]. intros i Hi.
      rewrite Z.lor_spec. rewrite <- (trunc_small w acc) by exact Ha. rewrite testbit_trunc_high by exact Hi. unfold x. rewrite testbit_trunc_high by exact Hi. reflexivity. }
    exists r. split; [exact E|]. split; [exact Hr|]. intros j Hj. rewrite Hb by exact Hj. unfold ori. rewrite Z.lor_spec. unfold x.
    rewrite testbit_trunc by lia. rewrite Z.shiftl_spec by lia.
    destruct (Nat.ltb_spec j k) as [L|L].
    + rewrite (Z.testbit_neg_r _ (Z.of_nat j - Z.of_nat k)) by lia. replace (S j - S k)%nat with O by lia. replace (S j - k)%nat with O by lia. cbn. rewrite !orb_false_r. reflexivity.
    + rewrite testbit_ext by lia. replace (S j - k)%nat with (S (S j - S k)) by lia. cbn [firstn existsb]. rewrite orb_assoc. reflexivity.
Qed.

Theorem convert_tensor_ok w l : (length l <= w)%nat -> exists r, convert_tensor w l = Some r /\ 0 <= r < 2 ^ Z.of_nat w /\
  forall j, (j < w)%nat -> (Z.testbit r (Z.of_nat j) = true <-> exists i, (i <= j)%nat /\ nth_error l i = Some true).
Proof.
  intro H. destruct (convert_tensor_fold w l 0 0) as (r & E & Hr & Hb); [|lia|].
  { split; [lia|]. apply Z.pow_pos_nonneg; lia. }
  exists r. split; [exact E|]. split; [exact Hr|]. intros j Hj. rewrite Hb by exact Hj. rewrite Z.bits_0, orb_false_l, Nat.sub_0_r, existsb_exists.
  split.
  - intros (b & Hin & Ht). unfold id in Ht. subst b. apply In_nth_error in Hin. destruct Hin as [i Hi].
    assert (L : (i < length (firstn (S j) l))%nat) by (apply nth_error_Some; rewrite Hi; discriminate). rewrite firstn_length in L.
    exists i. split; [lia|]. rewrite <- (firstn_skipn (S j) l). rewrite nth_error_app1; [exact Hi|rewrite firstn_length; lia].
  - intros (i & Hi & E'). exists true. split; [|reflexivity]. apply nth_error_In with i.
    assert (L : (i < length l)%nat) by (apply nth_error_Some; rewrite E'; discriminate).
    rewrite <- (firstn_skipn (S j) l) in E'. rewrite nth_error_app1 in E'; [exact E'|rewrite firstn_length; lia].
Qed.

(** *** Positions *)
Local Open Scope nat_scope.
Lemma position_lt : forall shape idx p, position shape idx = Some p -> p < elements shape.
Proof.
  induction shape as [|d shape IH]; intros [|i idx] p H; cbn [position] in H; try discriminate H.
  - injection H as <-. cbn. lia.
  - destruct (Nat.ltb_spec i d) as [L|L]; [|discriminate H]. destruct (position shape idx) as [q|] eqn:E; [|discriminate H]. injection H as <-.
    specialize (IH _ _ E). unfold elements in *. cbn [fold_right]. nia.
Qed.
Lemma position_inj : forall shape idx idx' p, position shape idx = Some p -> position shape idx' = Some p -> idx = idx'.
Proof.
  induction shape as [|d shape IH]; intros [|i idx] [|j idx'] p H H'; cbn [position] in H, H'; try discriminate; try reflexivity.
  destruct (Nat.ltb_spec i d) as [L|L]; [|discriminate H]. destruct (position shape idx) as [q|] eqn:E; [|discriminate H]. injection H as <-.
  destruct (Nat.ltb_spec j d) as [L'|L']; [|discriminate H']. destruct (position shape idx') as [q'|] eqn:E'; [|discriminate H']. injection H' as H'.
  pose proof (position_lt _ _ _ E) as B. pose proof (position_lt _ _ _ E') as B'. unfold elements in *.
  assert (i = j) by nia. subst j. assert (q = q') by lia. subst q'. f_equal. eapply IH; eauto.
Qed.
Lemma position_app : forall shape idx p w b, position shape idx = Some p -> b < w ->
  position (shape ++ [w]) (idx ++ [b]) = Some (p * w + b).
Proof.
  induction shape as [|d shape IH]; intros [|i idx] p w b H Hb; cbn [position] in H; try discriminate H.
  - injection H as <-. cbn [position app]. destruct (Nat.ltb_spec b w); [|lia]. cbn. f_equal. lia.
  - destruct (Nat.ltb_spec i d) as [L|L]; [|discriminate H]. destruct (position shape idx) as [q|] eqn:E; [|discriminate H]. injection H as <-.
    cbn [position app]. destruct (Nat.ltb_spec i d); [|lia]. rewrite (IH idx q w b E Hb). cbn [option_map]. f_equal.
    rewrite fold_right_app. cbn. rewrite Nat.mul_1_r.
    assert (A : forall s, fold_right Nat.mul w s = fold_right Nat.mul 1 s * w). { induction s as [|x s IHs]; cbn; [lia|]. rewrite IHs. lia. }
    rewrite A. lia.
Qed.

Lemma bits_length w v : length (bits w v) = w.
Proof. unfold bits. rewrite map_length, seq_length. reflexivity. Qed.
Lemma bits_nth w v b : b < w -> nth_error (bits w v) b = Some (Z.testbit v (Z.of_nat b)).
Proof.
  intro H. unfold bits. rewrite nth_error_map. rewrite (nth_error_nth' _ 0) by (rewrite seq_length; exact H). rewrite seq_nth by exact H. reflexivity.
Qed.
Lemma bit_tensor_length w : forall data, length (bit_tensor w data) = length data * w.
Proof. induction data as [|v data IH]; [reflexivity|]. unfold bit_tensor in *. cbn. rewrite app_length, bits_length, IH. lia. Qed.
Lemma bit_tensor_nth w : forall data p v b, nth_error data p = Some v -> b < w ->
  nth_error (bit_tensor w data) (p * w + b) = Some (Z.testbit v (Z.of_nat b)).
Proof.
  induction data as [|u data IH]; intros [|p] v b H Hb; try discriminate H; unfold bit_tensor; cbn [map concat].
  - injection H as ->. rewrite nth_error_app1 by (rewrite bits_length; lia). apply bits_nth. exact Hb.
  - rewrite nth_error_app2 by (rewrite bits_length; lia). rewrite bits_length. replace (S p * w + b - w) with (p * w + b) by lia. apply IH; assumption.
Qed.

Theorem read_ok shape w data idx v : extract shape data idx = Some v -> read shape w (bit_tensor w data) idx = Some (bits w v).
Proof.
  intro H. unfold extract in H. destruct (position shape idx) as [p|] eqn:E; [|discriminate H]. cbn [bind] in H. unfold read. apply sequence_map.
  intros b Hb. apply in_seq in Hb. unfold extract. rewrite (position_app shape idx p w b E) by lia. cbn [bind]. apply bit_tensor_nth; [exact H|lia].
Qed.

Lemma replace_at_app1 {A} : forall (l l' : list A) i a, i < length l -> replace_at i a (l ++ l') = replace_at i a l ++ l'.
Proof. induction l as [|x l IH]; intros l' [|i] a H; cbn in *; try lia; [reflexivity|]. rewrite IH by lia. reflexivity. Qed.
Lemma replace_at_app2 {A} : forall (l l' : list A) i a, replace_at (length l + i) a (l ++ l') = l ++ replace_at i a l'.
Proof. induction l as [|x l IH]; intros l' i a; cbn; [reflexivity|]. rewrite IH. reflexivity. Qed.
Lemma replace_at_split {A} : forall (l : list A) i a v, nth_error l i = Some v ->
  replace_at i a l = firstn i l ++ a :: skipn (S i) l /\ l = firstn i l ++ v :: skipn (S i) l.
Proof.
  induction l as [|x l IH]; intros [|i] a v H; try discriminate H.
  - injection H as ->. split; reflexivity.
  - cbn in H. destruct (IH i a v H) as [E1 E2]. split; cbn; [rewrite E1; reflexivity|f_equal; exact E2].
Qed.

Lemma write_fold (shape idx : list nat) p w : position shape idx = Some p -> forall new old done pre post k,
  length old = length new -> length done = k -> length pre = p * w -> k + length new = w ->
  fold_left (fun acc (ib : nat * bool) => bind acc (fun data =>
      bind (position (shape ++ [w]) (idx ++ [fst ib])) (fun p => Some (replace_at p (snd ib) data))))
    (combine (seq k (length new)) new) (Some (pre ++ done ++ old ++ post)) = Some (pre ++ done ++ new ++ post).
Proof.
  intro E. induction new as [|b new IH]; intros old done pre post k Ho Hd Hp Hk; destruct old as [|o old]; try discriminate Ho; [reflexivity|].
  cbn [length] in *. cbn [seq combine fold_left fst snd bind]. rewrite (position_app shape idx p w k E) by lia. cbn [bind].
  rewrite <- Hp, <- Hd, replace_at_app2. replace (length done) with (length done + 0) by lia. rewrite replace_at_app2. cbn [app replace_at].
  specialize (IH old (done ++ [b]) pre post (S k)). rewrite <- !app_assoc in IH. cbn [app] in IH. rewrite Nat.add_0_r, Hd. apply IH; try lia. rewrite app_length; cbn; lia.
Qed.

Lemma bit_tensor_app w l l' : bit_tensor w (l ++ l') = bit_tensor w l ++ bit_tensor w l'.
Proof. unfold bit_tensor. rewrite map_app, concat_app. reflexivity. Qed.

Theorem write_ok shape w data idx p v : position shape idx = Some p -> p < length data ->
  write shape w (bit_tensor w data) idx (bits w v) = Some (bit_tensor w (firstn p data ++ v :: skipn (S p) data)).
Proof.
  intros E Hp. destruct (nth_error data p) as [u|] eqn:Hu; [|apply nth_error_None in Hu; lia].
  destruct (replace_at_split data p v u Hu) as [_ E2]. rewrite E2 at 1. rewrite !bit_tensor_app.
  change (bit_tensor w (u :: skipn (S p) data)) with (bits w u ++ bit_tensor w (skipn (S p) data)).
  change (bit_tensor w (v :: skipn (S p) data)) with (bits w v ++ bit_tensor w (skipn (S p) data)).
  unfold write. pose proof (write_fold shape idx p w E (bits w v) (bits w u) [] (bit_tensor w (firstn p data)) (bit_tensor w (skipn (S p) data)) 0) as W.
  rewrite !bits_length in W. cbn [app] in W. apply W; try reflexivity; rewrite ?bits_length; try lia.
  rewrite bit_tensor_length, firstn_length_le by lia. reflexivity.
Qed.

(** *** Strides *)
Lemma flatten_fold : forall shape idx p acc, position shape idx = Some p ->
  fold_left (fun acc (p : nat * nat) => acc + fst p * snd p) (combine idx (row_major shape)) acc = acc + p.
Proof.
  induction shape as [|d shape IH]; intros [|i idx] p acc H; cbn [position] in H; try discriminate H.
  - injection H as <-. cbn. lia.
  - destruct (Nat.ltb_spec i d) as [L|L]; [|discriminate H]. destruct (position shape idx) as [q|] eqn:E; [|discriminate H]. injection H as <-.
    cbn [row_major combine fold_left fst snd]. rewrite (IH idx q _ E). unfold elements. lia.
Qed.
Lemma unflatten_ok : forall shape idx p, position shape idx = Some p -> unflatten p (row_major shape) = Some idx.
Proof.
  induction shape as [|d shape IH]; intros [|i idx] p H; cbn [position] in H; try discriminate H; [reflexivity|].
  destruct (Nat.ltb_spec i d) as [L|L]; [|discriminate H]. destruct (position shape idx) as [q|] eqn:E; [|discriminate H]. injection H as <-.
  pose proof (position_lt _ _ _ E) as B. cbn [row_major unflatten]. fold (elements shape). destruct (elements shape) as [|n] eqn:En; [lia|].
  rewrite Nat.div_add_l, (Nat.div_small q) by lia. rewrite Nat.add_0_r.
  replace (i * S n + q) with (q + i * S n) by lia. rewrite Nat.mod_add, Nat.mod_small by lia. rewrite (IH idx q E). reflexivity.
Qed.

(** *** conceal *)
Lemma unflatten_shape_one n i : n <> 0 -> unflatten i [n] = Some [i / n].
Proof. destruct n as [|n]; [lia|]. reflexivity. Qed.
Theorem conceal_vector n w a data : S (length data) = n ->
  conceal_tensor [n] w (a :: data) = Some (concat (repeat (bits w a) n)).
Proof.
  intro H. unfold conceal_tensor. replace (elements [n]) with n by (unfold elements; cbn; lia).
  rewrite (sequence_map _ (fun _ => bits w a)).
  - cbn [option_map]. f_equal. f_equal. clear H. assert (G : forall k, map (fun _ : nat => bits w a) (seq k n) = repeat (bits w a) n).
    { induction n as [|n IH]; intro k; [reflexivity|]. cbn. rewrite IH. reflexivity. } apply G.
  - intros i Hi. apply in_seq in Hi. unfold unflatten_index. cbn [Nat.ltb Nat.leb]. rewrite Nat.sub_0_r, unflatten_shape_one by lia. cbn [bind].
    rewrite Nat.div_small by lia. cbn [forallb fold_right]. rewrite Nat.max_0_r. destruct (Nat.ltb_spec 0 n); [|lia]. cbn [andb].
    unfold extract. cbn [position]. destruct (Nat.ltb_spec 0 n); [|lia]. destruct n as [|n]; [lia|]. cbn. apply encode_element_ok.
Qed.
