(** Proofs about the relations of convolution filters. *)
From Coq Require Import List Bool ZArith Lia Ring.
From Verif Require Import Kernel_Model Kernel_Spec Kernel_Proofs Rel_Model Conv_Spec Conv_Model.
Import ListNotations.
Local Open Scope Z_scope.

Lemma in_upto n z : In z (upto n) <-> 0 <= z < n.
Proof.
  unfold upto. rewrite in_map_iff. split.
  - intros (k & <- & H). apply in_seq in H. lia.
  - intros H. exists (Z.to_nat z). split; [lia|]. apply in_seq. lia.
Qed.
Lemma nodup_map {A B} (f : A -> B) l : (forall a b, In a l -> In b l -> f a = f b -> a = b) -> NoDup l -> NoDup (map f l).
Proof.
  intros H N. induction N as [|a l Ha N IH]; [constructor|]. cbn [map]. constructor.
  - intros I. apply in_map_iff in I. destruct I as (b & E & I). apply Ha. rewrite (H a b); [easy|now left|now right|easy].
  - apply IH. intros x y Hx Hy. apply H; now right.
Qed.
Lemma nodup_upto n : NoDup (upto n).
Proof. apply nodup_map; [intros; lia|apply seq_NoDup]. Qed.
Lemma nodup_flat {A B C} (g : A -> B -> C) l l' : (forall a b a' b', g a b = g a' b' -> a = a' /\ b = b') ->
  NoDup l -> NoDup l' -> NoDup (flat_map (fun a => map (g a) l') l).
Proof.
  intros H N N'. induction N as [|a l Ha N IH]; [constructor|]. cbn [flat_map].
  assert (N1 : NoDup (map (g a) l')) by (apply nodup_map; [intros x y _ _ E; apply H in E; tauto|easy]).
  assert (D : forall z, In z (map (g a) l') -> ~ In z (flat_map (fun a => map (g a) l') l)).
  { intros z I1 I2. apply in_map_iff in I1. destruct I1 as (b & <- & _). apply in_flat_map in I2. destruct I2 as (a' & I & I2).
    apply in_map_iff in I2. destruct I2 as (b' & E & _). apply H in E. destruct E as [-> _]. contradiction. }
  clear -N1 IH D. induction (map (g a) l') as [|z m IHm]; [easy|]. inversion N1 as [|? ? Z1 Z2]; subst. cbn [app]. constructor.
  - rewrite in_app_iff. intros [?|I]; [easy|]. apply (D z); [now left|easy].
  - apply IHm; [easy|]. intros y I. apply D. now right.
Qed.

Section Sums.
  Variable K : cring.
  Add Ring Kring : (r_ok K).
  Lemma ksum_ext {A} (l : list A) f g : (forall a, In a l -> f a = g a) -> ksum K l f = ksum K l g.
  Proof. induction l as [|a l IH]; intros H; [easy|]. cbn [ksum]. rewrite (H a), IH; [easy| |now left]. intros b I. apply H. now right. Qed.
  Lemma ksum_zero {A} (l : list A) f : (forall a, In a l -> f a = r0 K) -> ksum K l f = r0 K.
  Proof. induction l as [|a l IH]; intros H; [easy|]. cbn [ksum]. rewrite (H a), IH; [ring| |now left]. intros b I. apply H. now right. Qed.
  Lemma ksum_add {A} (l : list A) f g : ksum K l (fun a => radd K (f a) (g a)) = radd K (ksum K l f) (ksum K l g).
  Proof. induction l as [|a l IH]; cbn [ksum]; [ring|]. rewrite IH. ring. Qed.
  Lemma ksum_mul {A} (l : list A) f y : rmul K (ksum K l f) y = ksum K l (fun a => rmul K (f a) y).
  Proof. induction l as [|a l IH]; cbn [ksum]; [ring|]. rewrite <- IH. ring. Qed.
  Lemma ksum_swap {A B} (l : list A) (m : list B) f : ksum K l (fun a => ksum K m (f a)) = ksum K m (fun b => ksum K l (fun a => f a b)).
  Proof.
    induction l as [|a l IH]; cbn [ksum]; [symmetry; now apply ksum_zero|]. rewrite IH, <- ksum_add. now apply ksum_ext.
  Qed.
  Lemma ksum_single {A} (l : list A) f a : NoDup l -> In a l -> (forall b, In b l -> b <> a -> f b = r0 K) -> ksum K l f = f a.
  Proof.
    induction l as [|c l IH]; intros N I H; [easy|]. inversion N as [|? ? N1 N2]; subst. cbn [ksum]. destruct I as [->|I].
    - rewrite ksum_zero; [ring|]. intros b Ib. apply H; [now right|]. intros ->. contradiction.
    - rewrite (H c), IH; [ring|easy|easy| |now left|intros ->; contradiction]. intros b Ib. apply H. now right.
  Qed.
  Lemma ksum_app {A} (l m : list A) f : ksum K (l ++ m) f = radd K (ksum K l f) (ksum K m f).
  Proof. induction l as [|a l IH]; cbn [ksum app]; [ring|]. rewrite IH. ring. Qed.
  Lemma ksum_map {A B} (g : A -> B) l f : ksum K (map g l) f = ksum K l (fun a => f (g a)).
  Proof. induction l as [|a l IH]; cbn [ksum map]; [easy|]. now rewrite IH. Qed.
  Lemma ksum_flat {A B C} (g : A -> B -> C) l m f : ksum K (flat_map (fun a => map (g a) m) l) f = ksum K l (fun a => ksum K m (fun b => f (g a b))).
  Proof. induction l as [|a l IH]; cbn [ksum flat_map]; [easy|]. now rewrite ksum_app, ksum_map, IH. Qed.
  Lemma ksum_rsum n f : ksum K (upto n) f = rsum K (Z.to_nat n) (fun c => f (Z.of_nat c)).
  Proof.
    unfold upto. rewrite ksum_map. induction (Z.to_nat n) as [|m IH]; [easy|]. rewrite seq_S, ksum_app, IH. cbn [rsum ksum plus]. ring.
  Qed.
End Sums.

(** One row of the matrix: the elements of the filter in it and their columns. *)
Definition row_form (R : relation) (C r : Z) (Ks : list (list Z)) (v : list Z -> bool) (pos : list Z -> Z) : Prop :=
  NoDup Ks /\ (forall d c, R d [r; c] <-> In d Ks /\ v d = true /\ c = pos d) /\
  (forall d, In d Ks -> v d = true -> 0 <= pos d < C) /\
  (forall d d', In d Ks -> In d' Ks -> v d = true -> v d' = true -> pos d = pos d' -> d = d').

Lemma row_times (K : cring) R C r Ks v pos filter M x : row_form R C r Ks v pos -> expanded K R filter M ->
  times K C M x r = ksum K Ks (fun d => if v d then rmul K (filter d) (x (pos d)) else r0 K).
Proof.
  intros (N & HR & HB & HI) (E1 & E0).
  assert (EM : forall c, M r c = ksum K Ks (fun d => if v d && (pos d =? c) then filter d else r0 K)).
  { intros c. destruct (existsb (fun d => v d && (pos d =? c)) Ks) eqn:B.
    - apply existsb_exists in B. destruct B as (d & I & V). rewrite (ksum_single K Ks _ d N I).
      + rewrite V. apply andb_true_iff in V. destruct V as [V P]. apply Z.eqb_eq in P. apply E1. apply HR. auto.
      + intros b Ib Nb. destruct (v b && (pos b =? c)) eqn:W; [|easy]. exfalso. apply Nb.
        apply andb_true_iff in V. destruct V as [V P]. apply Z.eqb_eq in P. apply andb_true_iff in W. destruct W as [W Q]. apply Z.eqb_eq in Q.
        apply HI; auto. lia.
    - rewrite ksum_zero.
      + apply E0. intros d Hd. apply HR in Hd. destruct Hd as (I & V & ->).
        assert (T : existsb (fun d0 => v d0 && (pos d0 =? pos d)) Ks = true) by (apply existsb_exists; exists d; rewrite V, Z.eqb_refl; auto).
        rewrite T in B. discriminate B.
      + intros d I. destruct (v d && (pos d =? c)) eqn:W; [|easy]. exfalso.
        assert (T : existsb (fun d0 => v d0 && (pos d0 =? c)) Ks = true) by (apply existsb_exists; exists d; auto). rewrite T in B. discriminate B. }
  unfold times. rewrite (ksum_ext K (upto C) _ (fun c => ksum K Ks (fun d => rmul K (if v d && (pos d =? c) then filter d else r0 K) (x c)))).
  2:{ intros c _. rewrite EM. apply ksum_mul. }
  rewrite ksum_swap. apply ksum_ext. intros d I. destruct (v d) eqn:V; cbn [andb].
  - rewrite (ksum_single K (upto C) _ (pos d) (nodup_upto C)).
    + now rewrite Z.eqb_refl.
    + apply in_upto. auto.
    + intros c _ Nc. destruct (Z.eqb_spec (pos d) c); [congruence|]. apply Kmul0.
  - apply ksum_zero. intros. apply Kmul0.
Qed.
Lemma row_unique R C r Ks v pos d d' c : row_form R C r Ks v pos -> R d [r; c] -> R d' [r; c] -> d = d'.
Proof. intros (_ & HR & _ & HI) H H'. apply HR in H, H'. destruct H as (? & ? & ->), H' as (? & ? & E). now apply HI. Qed.
Lemma row_move (R R' : relation) C r r' Ks v pos : (forall d c, R' d [r'; c] <-> R d [r; c]) -> row_form R C r Ks v pos -> row_form R' C r' Ks v pos.
Proof. intros H (N & HR & HB). split; [easy|]. split; [|easy]. intros d c. rewrite H. apply HR. Qed.

Lemma split_index n a b a' b' : 0 <= b < n -> 0 <= b' < n -> a * n + b = a' * n + b' -> a = a' /\ b = b'.
Proof. intros H H' E. assert (a = a') by nia. subst. lia. Qed.
Lemma quot_div a b : 0 <= a -> 1 <= b -> Z.quot a b = a / b.
Proof. intros. apply Z.quot_div_nonneg; lia. Qed.
Lemma below_positions n f s p o : 1 <= s -> f <= n + 2 * p -> 0 <= o -> (o < positions n f s p <-> o * s <= n + 2 * p - f).
Proof.
  intros Hs Hf Ho. unfold positions. split; intros H.
  - assert (o <= (n + 2 * p - f) / s) by lia. pose proof (Z.mul_div_le (n + 2 * p - f) s ltac:(lia)). nia.
  - assert (o <= (n + 2 * p - f) / s); [|lia]. apply Z.div_le_lower_bound; lia.
Qed.

(** One dimension. *)
Definition keys1 (F : Z) : list (list Z) := map (fun k => [k]) (upto F).
Definition pos1 (s p o : Z) (d : list Z) : Z := o * s - p + nth 0 d 0.
Definition valid1 (N s p o : Z) (d : list Z) : bool := (0 <=? pos1 s p o d) && (pos1 s p o d <? N).
Lemma filter1d_iff F N s p d r c : 1 <= s -> 0 <= p -> F <= N + 2 * p ->
  (filter1d F N s p d [r; c] <-> exists k, d = [k] /\ 0 <= k < F /\ 0 <= c < N /\ 0 <= r < positions N F s p /\ c = r * s - p + k).
Proof.
  intros Hs Hp HF. unfold filter1d. destruct (Z.ltb_spec 1 s) as [G|G].
  - unfold compose. split.
    + intros (m & A & B). destruct d as [|k [|? ?]]; try contradiction. destruct m as [|m1 [|m2 [|? ?]]]; try contradiction.
      cbn [filter1d_dense] in A. cbn [striding] in B. unfold bounds in *. destruct A as (i & A). exists k.
      assert (0 <= r) by nia. split; [easy|]. split; [lia|]. split; [lia|]. split; [split; [easy|]; apply below_positions; lia|lia].
    + intros (k & -> & Hk & Hc & Hr & E). exists [r * s; c]. assert (r * s <= N + 2 * p - F) by (apply below_positions; lia).
      cbn [filter1d_dense striding]. unfold bounds. split; [exists (r * s - p)|]; nia.
  - assert (s = 1) by lia. subst s. split.
    + intros A. destruct d as [|k [|? ?]]; try contradiction. cbn [filter1d_dense] in A. unfold bounds in A. destruct A as (i & A). exists k.
      split; [easy|]. split; [lia|]. split; [lia|]. split; [split; [lia|]; apply below_positions; lia|lia].
    + intros (k & -> & Hk & Hc & Hr & E). assert (r * 1 <= N + 2 * p - F) by (apply below_positions; lia).
      cbn [filter1d_dense]. unfold bounds. exists (r - p). lia.
Qed.
Lemma form1 F N s p o : 1 <= s -> 0 <= p -> F <= N + 2 * p -> 0 <= o < positions N F s p ->
  row_form (filter1d F N s p) N o (keys1 F) (valid1 N s p o) (pos1 s p o).
Proof.
  intros Hs Hp HF Ho. unfold row_form, keys1, valid1. split; [|split; [|split]].
  - apply nodup_map; [congruence|apply nodup_upto].
  - intros d c. rewrite filter1d_iff, in_map_iff, andb_true_iff, Z.leb_le, Z.ltb_lt by easy. split.
    + intros (k & -> & Hk & Hc & _ & ->). split; [exists k; split; [easy|now apply in_upto]|]. unfold pos1. cbn [nth]. lia.
    + intros ((k & <- & Hk) & V & ->). apply in_upto in Hk. exists k. unfold pos1 in *. cbn [nth] in *. split; [easy|lia].
  - intros d _ V. rewrite andb_true_iff, Z.leb_le, Z.ltb_lt in V. lia.
  - intros d d' I I' _ _ E. apply in_map_iff in I, I'. destruct I as (k & <- & _), I' as (k' & <- & _). unfold pos1 in E. cbn [nth] in E. f_equal. lia.
Qed.

(** Two dimensions. *)
Definition keys2 (fh fw : Z) : list (list Z) := flat_map (fun i => map (fun j => [i; j]) (upto fw)) (upto fh).
Definition valid2 (h w sh sw p oh ow : Z) (d : list Z) : bool :=
  (0 <=? oh * sh - p + nth 0 d 0) && (oh * sh - p + nth 0 d 0 <? h) && (0 <=? ow * sw - p + nth 1 d 0) && (ow * sw - p + nth 1 d 0 <? w).
Definition pos2 (w sh sw p oh ow : Z) (d : list Z) : Z := (oh * sh - p + nth 0 d 0) * w + (ow * sw - p + nth 1 d 0).
Lemma valid2_iff h w sh sw p oh ow d : valid2 h w sh sw p oh ow d = true <->
  0 <= oh * sh - p + nth 0 d 0 < h /\ 0 <= ow * sw - p + nth 1 d 0 < w.
Proof. unfold valid2. rewrite !andb_true_iff, !Z.leb_le, !Z.ltb_lt. lia. Qed.
Lemma in_keys2 fh fw d : In d (keys2 fh fw) <-> exists i j, d = [i; j] /\ 0 <= i < fh /\ 0 <= j < fw.
Proof.
  unfold keys2. rewrite in_flat_map. split.
  - intros (i & Hi & I). apply in_map_iff in I. destruct I as (j & <- & Hj). apply in_upto in Hi, Hj. eauto.
  - intros (i & j & -> & Hi & Hj). exists i. split; [now apply in_upto|]. apply in_map_iff. exists j. split; [easy|now apply in_upto].
Qed.
Lemma filter2d_iff fh fw h w sh sw p d r c : 1 <= sh -> 1 <= sw -> fh <= h + 2 * p -> fw <= w + 2 * p ->
  (filter2d fh fw h w sh sw p d [r; c] <-> exists i j a b, d = [i; j] /\ 0 <= i < fh /\ 0 <= j < fw /\
     0 <= a < positions h fh sh p /\ 0 <= b < positions w fw sw p /\
     0 <= a * sh - p + i < h /\ 0 <= b * sw - p + j < w /\ r = a * positions w fw sw p + b /\ c = (a * sh - p + i) * w + (b * sw - p + j)).
Proof.
  intros H1 H2 H3 H4. split.
  - intros A. destruct d as [|i [|j [|? ?]]]; try contradiction. cbn [filter2d] in A. rewrite !quot_div in A by lia.
    fold (positions h fh sh p) in A. fold (positions w fw sw p) in A. unfold bounds in A. destruct A as (a & b & A). exists i, j, a, b.
    repeat (split; [lia||easy|]). nia.
  - intros (i & j & a & b & -> & A). cbn [filter2d]. rewrite !quot_div by lia.
    fold (positions h fh sh p). fold (positions w fw sw p). unfold bounds. exists a, b. repeat (split; [lia|]). nia.
Qed.
Lemma form2 fh fw h w sh sw p oh ow : 1 <= sh -> 1 <= sw -> fh <= h + 2 * p -> fw <= w + 2 * p ->
  0 <= oh < positions h fh sh p -> 0 <= ow < positions w fw sw p ->
  row_form (filter2d fh fw h w sh sw p) (h * w) (oh * positions w fw sw p + ow) (keys2 fh fw) (valid2 h w sh sw p oh ow) (pos2 w sh sw p oh ow).
Proof.
  intros H1 H2 H3 H4 Ho Hw. split; [|split; [|split]].
  - apply nodup_flat; [|apply nodup_upto|apply nodup_upto]. intros ? ? ? ? E. injection E. auto.
  - intros d c. rewrite filter2d_iff, in_keys2, valid2_iff by easy. unfold pos2. split.
    + intros (i & j & a & b & -> & Hi & Hj & Ha & Hb & B1 & B2 & E & ->). apply split_index in E; try easy. destruct E as [<- <-]. cbn [nth]. eauto 10.
    + intros ((i & j & -> & Hi & Hj) & (B1 & B2) & ->). cbn [nth] in *. exists i, j, oh, ow. auto 10.
  - intros d _ V. apply valid2_iff in V. unfold pos2. nia.
  - intros d d' I I' V V' E. apply in_keys2 in I, I'. apply valid2_iff in V, V'. destruct I as (i & j & -> & _), I' as (i' & j' & -> & _).
    unfold pos2 in E. cbn [nth] in *. apply split_index in E; try easy. f_equal; [lia|f_equal; lia].
Qed.

(** Channels. *)
Definition keysc (I f : Z) (Ks : list (list Z)) : list (list Z) := flat_map (fun c => map (fun d => f :: c :: d) Ks) (upto I).
Definition validc (v : list Z -> bool) (d : list Z) : bool := v (skipn 2 d).
Definition posc (tc : Z) (pos : list Z -> Z) (d : list Z) : Z := nth 1 d 0 * tc + pos (skipn 2 d).
Lemma in_keysc I f Ks d : In d (keysc I f Ks) <-> exists c d', d = f :: c :: d' /\ 0 <= c < I /\ In d' Ks.
Proof.
  unfold keysc. rewrite in_flat_map. split.
  - intros (c & Hc & H). apply in_map_iff in H. destruct H as (d' & <- & H). apply in_upto in Hc. eauto.
  - intros (c & d' & -> & Hc & H). exists c. split; [now apply in_upto|]. apply in_map_iff. eauto.
Qed.
Lemma form_channels O I tr tc (R : relation) f r0 Ks v pos : (forall d r c, R d [r; c] -> 0 <= r < tr) -> 0 <= f < O -> 0 <= r0 < tr ->
  row_form R tc r0 Ks v pos -> row_form (embed O I tr tc R) (I * tc) (f * tr + r0) (keysc I f Ks) (validc v) (posc tc pos).
Proof.
  intros Hrow Hf Hr (N & HR & HB & HI). split; [|split; [|split]].
  - apply (nodup_flat (fun c d => f :: c :: d)); [|apply nodup_upto|easy]. intros ? ? ? ? E. injection E. auto.
  - intros d c. rewrite in_keysc. unfold validc, posc. split.
    + intros A. destruct d as [|f' [|c' d]]; try contradiction. cbn [embed] in A. unfold bounds in A.
      destruct A as (sr & sc & S & B1 & B2 & E1 & E2 & _). pose proof (Hrow _ _ _ S) as Hsr.
      assert (E : f' = f /\ sr = r0) by (apply (split_index tr); lia). destruct E as [-> ->]. apply HR in S. destruct S as (S1 & S2 & ->).
      cbn [nth skipn]. split; [exists c', d; repeat split; auto; lia|]. split; [easy|lia].
    + intros ((c' & d' & -> & Hc & Hd) & V & ->). cbn [nth skipn] in *. cbn [embed]. unfold bounds. exists r0, (pos d').
      split; [apply HR; auto|]. pose proof (HB d' Hd V). split; [lia|]. split; [lia|]. split; [lia|]. split; [lia|]. nia.
  - intros d Hd V. apply in_keysc in Hd. destruct Hd as (c & d' & -> & Hc & Hd). unfold validc, posc in *. cbn [nth skipn] in *. specialize (HB d' Hd V). nia.
  - intros d d' Hd Hd' V V' E. apply in_keysc in Hd, Hd'. destruct Hd as (c & e & -> & Hc & Hd), Hd' as (c' & e' & -> & Hc' & Hd').
    unfold validc, posc in *. cbn [nth skipn] in *. apply split_index in E; [|now apply HB|now apply HB]. destruct E as [<- E].
    f_equal. f_equal. now apply HI.
Qed.

Lemma rows1 F N s p d r c : 1 <= s -> 0 <= p -> F <= N + 2 * p -> filter1d F N s p d [r; c] -> 0 <= r < positions N F s p.
Proof. intros Hs Hp HF H. apply filter1d_iff in H; try easy. destruct H as (k & _ & H). lia. Qed.
Lemma positions_pos n f s p : 1 <= s -> f <= n + 2 * p -> 1 <= positions n f s p.
Proof. intros. unfold positions. assert (0 <= (n + 2 * p - f) / s) by (apply Z.div_pos; lia). lia. Qed.
Lemma flat_range n m a b : 0 <= a < n -> 0 <= b < m -> 0 <= a * m + b < n * m.
Proof. intros. nia. Qed.
Lemma rows2 fh fw h w sh sw p d r c : 1 <= sh -> 1 <= sw -> fh <= h + 2 * p -> fw <= w + 2 * p ->
  filter2d fh fw h w sh sw p d [r; c] -> 0 <= r < positions h fh sh p * positions w fw sw p.
Proof. intros H1 H2 H3 H4 H. apply filter2d_iff in H; try easy. destruct H as (i & j & a & b & H). destruct H as (_ & _ & _ & Ha & Hb & _ & _ & -> & _). now apply flat_range. Qed.

Lemma filter1d_channels_eq O I F N s p : 1 <= s -> F <= N + 2 * p ->
  filter1d_channels O I F N s p = embed O I (positions N F s p) N (filter1d F N s p).
Proof. intros. unfold filter1d_channels, expanded1d, positions. now rewrite quot_div by lia. Qed.
Lemma filter2d_channels_eq O I fh fw h w sh sw p : 1 <= sh -> 1 <= sw -> fh <= h + 2 * p -> fw <= w + 2 * p ->
  filter2d_channels O I fh fw h w sh sw p = embed O I (positions h fh sh p * positions w fw sw p) (h * w) (filter2d fh fw h w sh sw p).
Proof. intros. unfold filter2d_channels, expanded2d, positions. now rewrite !quot_div by lia. Qed.
Lemma form1c O I F N s p f o : 1 <= s -> 0 <= p -> F <= N + 2 * p -> 0 <= f < O -> 0 <= o < positions N F s p ->
  row_form (filter1d_channels O I F N s p) (I * N) (f * positions N F s p + o) (keysc I f (keys1 F)) (validc (valid1 N s p o)) (posc N (pos1 s p o)).
Proof.
  intros. rewrite filter1d_channels_eq by easy. apply form_channels; try easy; [|now apply form1]. intros d r c. now apply rows1.
Qed.
Lemma form2c O I fh fw h w sh sw p f oh ow : 1 <= sh -> 1 <= sw -> fh <= h + 2 * p -> fw <= w + 2 * p -> 0 <= f < O ->
  0 <= oh < positions h fh sh p -> 0 <= ow < positions w fw sw p ->
  row_form (filter2d_channels O I fh fw h w sh sw p) (I * (h * w))
    (f * (positions h fh sh p * positions w fw sw p) + (oh * positions w fw sw p + ow))
    (keysc I f (keys2 fh fw)) (validc (valid2 h w sh sw p oh ow)) (posc (h * w) (pos2 w sh sw p oh ow)).
Proof.
  intros. rewrite filter2d_channels_eq by easy. apply form_channels; try easy; [|now apply flat_range|now apply form2].
  intros d r c. now apply rows2.
Qed.

(** The sums over the elements of a row are convolutions. *)
Lemma sum1 (K : cring) F N s p o (w x y : Z -> K) : (forall i, 0 <= i < N -> y i = x i) ->
  ksum K (keys1 F) (fun d => if valid1 N s p o d then rmul K (w (nth 0 d 0)) (y (pos1 s p o d)) else r0 K) = conv1d K F N s p w x o.
Proof.
  intros E. unfold keys1, conv1d. rewrite ksum_map. apply ksum_ext. intros k _. unfold valid1, pos1, data1. cbn [nth].
  destruct ((0 <=? o * s - p + k) && (o * s - p + k <? N)) eqn:B; [|symmetry; rewrite Kmulc; apply Kmul0].
  rewrite E; [easy|]. rewrite andb_true_iff, Z.leb_le, Z.ltb_lt in B. lia.
Qed.
Lemma sum2 (K : cring) fh fw h w sh sw p oh ow (W x : Z -> Z -> K) (y : Z -> K) : (forall i j, 0 <= i < h -> 0 <= j < w -> y (i * w + j) = x i j) ->
  ksum K (keys2 fh fw) (fun d => if valid2 h w sh sw p oh ow d then rmul K (W (nth 0 d 0) (nth 1 d 0)) (y (pos2 w sh sw p oh ow d)) else r0 K) =
  conv2d K fh fw h w sh sw p W x oh ow.
Proof.
  intros E. unfold keys2, conv2d. rewrite (ksum_flat K (fun i j => [i; j])). apply ksum_ext. intros i _. apply ksum_ext. intros j _.
  unfold pos2, data2. destruct (valid2 h w sh sw p oh ow [i; j]) eqn:V; unfold valid2 in V; cbn [nth] in *; rewrite V.
  - rewrite E; [easy| |]; rewrite !andb_true_iff, !Z.leb_le, !Z.ltb_lt in V; lia.
  - symmetry. rewrite Kmulc. apply Kmul0.
Qed.
Lemma sumc (K : cring) I f tc Ks v pos (w : Z -> Z -> list Z -> K) (y : Z -> K) :
  ksum K (keysc I f Ks) (fun d => if validc v d then rmul K (w (nth 0 d 0) (nth 1 d 0) (skipn 2 d)) (y (posc tc pos d)) else r0 K) =
  ksum K (upto I) (fun c => ksum K Ks (fun d => if v d then rmul K (w f c d) (y (c * tc + pos d)) else r0 K)).
Proof. unfold keysc. now rewrite (ksum_flat K (fun c d => f :: c :: d)). Qed.

(** Interchange of rows. *)
Lemma digits2 g f : 1 <= g -> 0 <= f mod g < g /\ 0 <= f mod (g * g) / g < g /\ f = f / (g * g) * (g * g) + f mod (g * g) / g * g + f mod g.
Proof.
  intros Hg. pose proof (Z.mod_pos_bound f g ltac:(lia)). pose proof (Z.mod_pos_bound f (g * g) ltac:(nia)).
  assert (E : f mod (g * g) mod g = f mod g) by (symmetry; apply Znumtheory.Zmod_div_mod; [lia|nia|exists g; lia]).
  pose proof (Z.div_mod (f mod (g * g)) g ltac:(lia)). pose proof (Z.div_mod f (g * g) ltac:(nia)).
  split; [easy|]. split; [split; [apply Z.div_pos; lia|apply Z.div_lt_upper_bound; nia]|nia].
Qed.
Lemma shuffled_inj h w g f oh ow f' oh' ow' : 1 <= g -> 0 <= oh < h -> 0 <= ow < w -> 0 <= oh' < h -> 0 <= ow' < w ->
  shuffled h w g f oh ow = shuffled h w g f' oh' ow' -> f = f' /\ oh = oh' /\ ow = ow'.
Proof.
  intros Hg H1 H2 H3 H4 E. destruct (digits2 g f Hg) as (A1 & A2 & A3), (digits2 g f' Hg) as (B1 & B2 & B3). unfold shuffled in E.
  set (a := f mod g) in *. set (b := f mod (g * g) / g) in *. set (c := f / (g * g)) in *.
  set (a' := f' mod g) in *. set (b' := f' mod (g * g) / g) in *. set (c' := f' / (g * g)) in *. clearbody a b c a' b' c'.
  rewrite <- !Z.add_assoc in E.
  assert (R1 : 0 <= oh * g + b < h * g) by now apply flat_range. assert (R2 : 0 <= ow * g + a < w * g) by now apply flat_range.
  assert (R3 : 0 <= oh' * g + b' < h * g) by now apply flat_range. assert (R4 : 0 <= ow' * g + a' < w * g) by now apply flat_range.
  apply split_index in E; [|now apply flat_range|now apply flat_range]. destruct E as [Ec E].
  apply split_index in E; try easy. destruct E as [E1 E2]. apply split_index in E1, E2; try easy.
  destruct E1 as [-> Eb], E2 as [-> Ea]. split; [|easy]. rewrite A3, B3, Ec, Eb, Ea. reflexivity.
Qed.
Lemma shuffled_range C h w g f oh ow : 1 <= g -> (g * g | C) -> 0 <= f < C -> 0 <= oh < h -> 0 <= ow < w ->
  0 <= f / (g * g) < C / (g * g) /\ 0 <= shuffled h w g f oh ow < C * h * w.
Proof.
  intros Hg [q Hq] Hf H1 H2. destruct (digits2 g f Hg) as (A1 & A2 & A3). unfold shuffled.
  assert (Eq : C / (g * g) = q) by (rewrite Hq; apply Z.div_mul; nia). rewrite Eq.
  assert (R0 : 0 <= f / (g * g) < q) by (split; [apply Z.div_pos; nia|apply Z.div_lt_upper_bound; nia]). split; [easy|].
  assert (R1 : 0 <= oh * g + f mod (g * g) / g < h * g) by now apply flat_range. assert (R2 : 0 <= ow * g + f mod g < w * g) by now apply flat_range.
  rewrite <- Z.add_assoc. replace (C * h * w) with (q * (h * g * (w * g))) by (rewrite Hq; ring). apply flat_range; [easy|now apply flat_range].
Qed.
Lemma shuffled_onto C h w g z : 1 <= g -> (g * g | C) -> 1 <= h -> 1 <= w -> 0 <= z < C * h * w ->
  exists f oh ow, 0 <= f < C /\ 0 <= oh < h /\ 0 <= ow < w /\ z = shuffled h w g f oh ow.
Proof.
  intros Hg [q Hq] H1 H2 Hz.
  assert (P : 0 < h * g * (w * g)) by nia. assert (Pw : 0 < w * g) by nia.
  set (c := z / (h * g * (w * g))). set (m := z mod (h * g * (w * g))). set (y := m / (w * g)). set (x := m mod (w * g)).
  assert (Ez : z = c * (h * g * (w * g)) + m) by (unfold c, m; pose proof (Z.div_mod z (h * g * (w * g))); lia).
  assert (Bm : 0 <= m < h * g * (w * g)) by now apply Z.mod_pos_bound.
  assert (Em : m = y * (w * g) + x) by (unfold y, x; pose proof (Z.div_mod m (w * g)); lia).
  assert (Bx : 0 <= x < w * g) by now apply Z.mod_pos_bound.
  assert (By : 0 <= y < h * g) by (unfold y; split; [apply Z.div_pos; lia|apply Z.div_lt_upper_bound; nia]).
  assert (Bc : 0 <= c < q) by (unfold c; split; [apply Z.div_pos; lia|apply Z.div_lt_upper_bound; [easy|]; replace (h * g * (w * g) * q) with (C * h * w) by (rewrite Hq; ring); lia]).
  pose proof (Z.mod_pos_bound x g ltac:(lia)) as Bxg. pose proof (Z.mod_pos_bound y g ltac:(lia)) as Byg.
  pose proof (Z.div_mod x g ltac:(lia)) as Ex. pose proof (Z.div_mod y g ltac:(lia)) as Ey.
  set (f := c * (g * g) + (y mod g * g + x mod g)).
  assert (Bl : 0 <= y mod g * g + x mod g < g * g) by now apply flat_range.
  assert (Ef : f / (g * g) = c) by (unfold f; rewrite Z.div_add_l by nia; rewrite (Z.div_small _ _ Bl); lia).
  assert (Efm : f mod (g * g) = y mod g * g + x mod g) by (unfold f; rewrite Z.add_comm, Z.mod_add by nia; now apply Z.mod_small).
  assert (Ef1 : f mod (g * g) / g = y mod g) by (rewrite Efm, Z.div_add_l by lia; rewrite (Z.div_small _ _ Bxg); lia).
  assert (Ef2 : f mod g = x mod g).
  { unfold f. replace (c * (g * g) + (y mod g * g + x mod g)) with (x mod g + (c * g + y mod g) * g) by ring. rewrite Z.mod_add by lia. now apply Z.mod_mod; lia. }
  exists f, (y / g), (x / g). split; [unfold f; nia|]. split; [split; [apply Z.div_pos; lia|apply Z.div_lt_upper_bound; nia]|].
  split; [split; [apply Z.div_pos; lia|apply Z.div_lt_upper_bound; nia]|]. unfold shuffled. rewrite Ef, Ef1, Ef2.
  rewrite Ez, Em. replace (y / g * g + y mod g) with y by lia. replace (x / g * g + x mod g) with x by lia. ring.
Qed.

Lemma shuffle1_inj w g f o f' o' : 1 <= g -> 0 <= o < w -> 0 <= o' < w ->
  (f / g) * (w * g) + (o * g + f mod g) = (f' / g) * (w * g) + (o' * g + f' mod g) -> f = f' /\ o = o'.
Proof.
  intros Hg H1 H2 E. pose proof (Z.mod_pos_bound f g ltac:(lia)). pose proof (Z.mod_pos_bound f' g ltac:(lia)).
  pose proof (Z.div_mod f g ltac:(lia)). pose proof (Z.div_mod f' g ltac:(lia)).
  apply split_index in E; [|now apply flat_range|now apply flat_range]. destruct E as [E1 E2]. apply split_index in E2; try easy. destruct E2. split; [|easy]. rewrite H3, H4. congruence.
Qed.
Lemma interchange1d_iff C w g i o : 1 <= g -> (g | C) -> 1 <= w ->
  (interchange1d C w g [i] [o] <-> exists f k, 0 <= f < C /\ 0 <= k < w /\ i = f * w + k /\ o = (f / g) * (w * g) + (k * g + f mod g)).
Proof.
  intros Hg [q Hq] Hw. cbn [interchange1d]. split.
  - intros (wi & ci & wo & co & H). destruct H as (B1 & B2 & _ & _ & -> & -> & -> & -> & _). exists ci, wi. repeat split; lia.
  - intros (f & k & Bf & Bk & -> & ->). pose proof (Z.mod_pos_bound f g ltac:(lia)).
    assert (R : 0 <= f / g < q) by (split; [apply Z.div_pos; lia|apply Z.div_lt_upper_bound; lia]).
    assert (Eq : Z.quot C g = q) by (rewrite Hq; apply Z.quot_mul; lia).
    assert (R2 : 0 <= k * g + f mod g < w * g) by now apply flat_range.
    pose proof (flat_range C w f k Bf Bk) as R3. pose proof (flat_range q (w * g) (f / g) (k * g + f mod g) R R2) as R4.
    assert (Ew : C * w = q * (w * g)) by (rewrite Hq; ring).
    exists k, f, (k * g + f mod g), (f / g). rewrite Eq. repeat (split; [easy||lia|]). lia.
Qed.
Lemma interchange2d_iff C h w g i o : 1 <= g -> (g * g | C) ->
  (interchange2d C h w g [i] [o] <-> exists f oh ow, 0 <= f < C /\ 0 <= oh < h /\ 0 <= ow < w /\ i = f * (h * w) + (oh * w + ow) /\ o = shuffled h w g f oh ow).
Proof.
  intros Hg D. cbn [interchange2d]. split.
  - intros (hi & wi & ci & ho & wo & co & H). destruct H as (B1 & B2 & B3 & _ & _ & _ & -> & -> & -> & -> & -> & _). exists ci, hi, wi.
    unfold shuffled. repeat split; lia.
  - intros (f & oh & ow & Bf & Bh & Bw & -> & ->). destruct (shuffled_range C h w g f oh ow Hg D Bf Bh Bw) as [R0 R].
    destruct (digits2 g f Hg) as (A1 & A2 & _). exists oh, ow, f, (oh * g + f mod (g * g) / g), (ow * g + f mod g), (f / (g * g)).
    assert (Q : Z.quot C (g * g) = C / (g * g)) by (apply Z.quot_div_nonneg; nia). rewrite Q.
    assert (R1 : 0 <= oh * g + f mod (g * g) / g < h * g) by now apply flat_range. assert (R2 : 0 <= ow * g + f mod g < w * g) by now apply flat_range.
    assert (R3 : 0 <= f * (h * w) + (oh * w + ow) < C * (h * w)) by (apply flat_range; [easy|now apply flat_range]).
    unfold shuffled in *. repeat (split; [easy||lia|]). lia.
Qed.

Lemma interchanged_rows O I F N s p f o d c : 1 <= s -> 0 <= p -> F <= N + 2 * p -> (s | O) -> 0 <= f < O -> 0 <= o < positions N F s p ->
  (filter1d_interchanged O I F N s p d [(f / s) * (positions N F s p * s) + (o * s + f mod s); c] <->
   filter1d_channels O I F N s p d [f * positions N F s p + o; c]).
Proof.
  intros Hs Hp HF D Bf Bo. unfold filter1d_interchanged, compose. rewrite quot_div by lia. fold (positions N F s p).
  pose proof (positions_pos N F s p Hs HF) as P. split.
  - intros (m & A & B). destruct m as [|m1 [|m2 [|? ?]]]; try contradiction. cbn [keep_columns] in B. destruct B as [B E].
    apply interchange1d_iff in B; try easy. destruct B as (f' & o' & Bf' & Bo' & -> & E'). apply shuffle1_inj in E'; try easy. destruct E' as [-> ->].
    replace c with m2 by lia. easy.
  - intros A. exists [f * positions N F s p + o; c]. split; [easy|]. cbn [keep_columns]. split; [|lia]. apply interchange1d_iff; try easy. exists f, o. auto.
Qed.

Section Seq.
  Variables O I fh fw h w sh sw p S : Z.
  Hypothesis Hsh : 1 <= sh.
  Hypothesis Hsw : 1 <= sw.
  Hypothesis Hh : fh <= h + 2 * p.
  Hypothesis Hw : fw <= w + 2 * p.
  Let H := positions h fh sh p.
  Let W := positions w fw sw p.
  Lemma out_h_eq : out_h fh h sh p = H. Proof. unfold out_h, H, positions. now rewrite quot_div by lia. Qed.
  Lemma out_w_eq : out_w fw w sw p = W. Proof. unfold out_w, W, positions. now rewrite quot_div by lia. Qed.
  Lemma max_row_eq : max_row O fh fw h w sh sw p = O * (H * W).
  Proof. unfold max_row, total_rows, expanded2d, H, W, positions. cbn [fst]. now rewrite !quot_div by lia. Qed.
  Lemma max_col_eq : max_col I fh fw h w sh sw p = I * (h * w). Proof. reflexivity. Qed.

  Definition row_of (inter : bool) (f oh ow : Z) : Z := if inter then shuffled H W sh f oh ow else f * (H * W) + (oh * W + ow).
  Lemma sequence_iff (inter : bool) d r c : (inter = true -> (sh * sh | O)) ->
    (sequence_matrix O I fh fw h w sh sw p inter d [r; c] <->
     exists f k i j oh ow, d = [f; k; i; j] /\ 0 <= f < O /\ 0 <= k < I /\ 0 <= i < fh /\ 0 <= j < fw /\ 0 <= oh < H /\ 0 <= ow < W /\
       0 <= oh * sh - p + i < h /\ 0 <= ow * sw - p + j < w /\ r = row_of inter f oh ow /\
       c = k * (h * w) + ((oh * sh - p + i) * w + (ow * sw - p + j))).
  Proof.
    intros D. split.
    - intros (m3 & (m2 & A & B) & E4).
      destruct m3 as [|r3 [|c3 [|col3 [|? ?]]]]; try contradiction. cbn [step4] in E4.
      destruct m2 as [|f2 [|c2 [|oh2 [|ow2 [|col2 [|? ?]]]]]]; try contradiction. cbn [step3] in B.
      assert (A1 : exists f k i j oh ow, d = [f; k; i; j] /\ 0 <= f < O /\ 0 <= k < I /\ 0 <= i < fh /\ 0 <= j < fw /\ 0 <= oh < H /\ 0 <= ow < W /\
        col2 = (oh * sh - p + i) * w + ow * sw - p + j /\ 0 <= oh * sh - p + i < h /\ 0 <= ow * sw - p + j < w /\ c2 = k /\
        (f2, oh2, ow2) = if inter then (f / (sh * sh), oh * sh + f mod (sh * sh) / sh, ow * sh + f mod sh) else (f, oh, ow)).
      { destruct inter.
        - destruct A as (m1 & A & B2). destruct d as [|f [|k [|i [|j [|? ?]]]]]; try contradiction.
          destruct m1 as [|f1 [|c1 [|oh1 [|ow1 [|col1 [|? ?]]]]]]; try contradiction. cbn [step1] in A. cbn [step2] in B2.
          rewrite out_h_eq, out_w_eq in A. unfold g in B2.
          destruct A as (-> & -> & A). destruct B2 as (_ & _ & _ & _ & _ & -> & -> & -> & -> & ->). exists f, k, i, j, oh1, ow1.
          destruct A as (A1 & A2 & A3 & A4 & A5 & A6 & -> & A8 & A9). auto 20.
        - destruct d as [|f [|k [|i [|j [|? ?]]]]]; try contradiction. cbn [step1] in A. rewrite out_h_eq, out_w_eq in A.
          destruct A as (-> & -> & A1 & A2 & A3 & A4 & A5 & A6 & -> & A8 & A9). exists f, k, i, j, oh2, ow2. auto 20. }
      destruct A1 as (f & k & i & j & oh & ow & -> & A1 & A2 & A3 & A4 & A5 & A6 & -> & A8 & A9 & -> & E).
      destruct B as (_ & _ & _ & _ & _ & -> & -> & ->). destruct E4 as (_ & _ & _ & -> & ->).
      exists f, k, i, j, oh, ow. repeat (split; [easy|]). unfold total_cols, expanded2d. cbn [snd]. split; [|lia].
      rewrite out_h_eq, out_w_eq. unfold row_of, shuffled, g. destruct inter; injection E; intros; subst; ring.
    - intros (f & k & i & j & oh & ow & -> & A1 & A2 & A3 & A4 & A5 & A6 & A8 & A9 & -> & ->).
      set (col := (oh * sh - p + i) * w + ow * sw - p + j).
      assert (Bc : 0 <= col < h * w) by (unfold col; pose proof (flat_range h w _ _ A8 A9); lia).
      assert (Bm : 0 <= col < I * (h * w)) by nia.
      set (t := if inter then (f / (sh * sh), oh * sh + f mod (sh * sh) / sh, ow * sh + f mod sh) else (f, oh, ow)).
      exists [row_of inter f oh ow; k; col]. split.
      + exists [fst (fst t); k; snd (fst t); snd t; col]. split.
        * unfold t. destruct inter; cbn [fst snd].
          -- exists [f; k; oh; ow; col]. cbn [step1 step2]. rewrite out_h_eq, out_w_eq, max_col_eq. unfold g. repeat (split; [easy|]). easy.
          -- cbn [step1]. rewrite out_h_eq, out_w_eq. repeat (split; [easy|]). easy.
        * cbn [step3]. rewrite out_h_eq, out_w_eq, max_col_eq. unfold g, t, row_of. destruct inter; cbn [fst snd].
          -- destruct (shuffled_range O H W sh f oh ow Hsh (D eq_refl) A1 A5 A6) as [R0 _]. destruct (digits2 sh f Hsh) as (D1 & D2 & _).
             assert (Q : Z.quot O (sh * sh) = O / (sh * sh)) by (apply Z.quot_div_nonneg; nia). rewrite Q.
             split; [easy|]. split; [easy|]. split; [now apply flat_range|]. split; [now apply flat_range|]. repeat (split; [easy|]). unfold shuffled. ring.
          -- repeat (split; [easy|]). ring.
      + cbn [step4]. rewrite max_row_eq. unfold total_cols, expanded2d. cbn [snd]. split; [|repeat (split; [easy|]); unfold col; ring].
        unfold row_of. destruct inter.
        * destruct (shuffled_range O H W sh f oh ow Hsh (D eq_refl) A1 A5 A6) as [_ R]. lia.
        * apply flat_range; [easy|now apply flat_range].
  Qed.
  Lemma row_of_inj (inter : bool) f oh ow f' oh' ow' : 0 <= oh < H -> 0 <= ow < W -> 0 <= oh' < H -> 0 <= ow' < W ->
    row_of inter f oh ow = row_of inter f' oh' ow' -> f = f' /\ oh = oh' /\ ow = ow'.
  Proof.
    intros B1 B2 B3 B4 E. unfold row_of in E. destruct inter; [now apply shuffled_inj in E|].
    apply split_index in E; [|now apply flat_range|now apply flat_range]. destruct E as [-> E]. apply split_index in E; easy.
  Qed.
  Lemma sequence_form (inter : bool) f oh ow : (inter = true -> (sh * sh | O)) -> 0 <= f < O -> 0 <= oh < H -> 0 <= ow < W ->
    row_form (sequence_matrix O I fh fw h w sh sw p inter) (I * (h * w)) (row_of inter f oh ow)
      (keysc I f (keys2 fh fw)) (validc (valid2 h w sh sw p oh ow)) (posc (h * w) (pos2 w sh sw p oh ow)).
  Proof.
    intros D Bf Bh Bw. apply (row_move (filter2d_channels O I fh fw h w sh sw p) _ _ (f * (H * W) + (oh * W + ow))); [|now apply form2c].
    intros d c. rewrite sequence_iff by easy.
    destruct (form2c O I fh fw h w sh sw p f oh ow Hsh Hsw Hh Hw Bf Bh Bw) as (_ & HR & _). fold H W in HR. rewrite HR, in_keysc. unfold validc, posc. split.
    - intros (f' & k & i & j & oh' & ow' & -> & A1 & A2 & A3 & A4 & A5 & A6 & A8 & A9 & E & ->). apply row_of_inj in E; try easy.
      destruct E as (<- & <- & <-). cbn [nth skipn]. split; [exists k, [i; j]; split; [easy|]; split; [easy|]; apply in_keys2; eauto|].
      split; [now apply valid2_iff|reflexivity].
    - intros ((k & d' & -> & Hk & Hd) & V & ->). apply in_keys2 in Hd. destruct Hd as (i & j & -> & Hi & Hj). cbn [nth skipn] in *. apply valid2_iff in V.
      cbn [nth] in V. exists f, k, i, j, oh, ow. unfold pos2. cbn [nth]. repeat (split; [easy|]). easy.
  Qed.
  Lemma sequence_range (inter : bool) d r c : (inter = true -> (sh * sh | O)) -> sequence_matrix O I fh fw h w sh sw p inter d [r; c] ->
    0 <= r < O * (H * W) /\ 0 <= c < I * (h * w).
  Proof.
    intros D A. apply sequence_iff in A; [|easy].
    destruct A as (f & k & i & j & oh & ow & -> & A1 & A2 & A3 & A4 & A5 & A6 & A8 & A9 & -> & ->). split.
    - unfold row_of. destruct inter; [|apply flat_range; [easy|now apply flat_range]].
      destruct (shuffled_range O H W sh f oh ow Hsh (D eq_refl) A1 A5 A6) as [_ R]. lia.
    - apply flat_range; [easy|now apply flat_range].
  Qed.

  (** Whether an entry of the matrix comes from the filter can be decided. *)
  Lemma dec_bounded n (P : Z -> Prop) : (forall z, 0 <= z < n -> P z \/ ~ P z) -> (exists z, 0 <= z < n /\ P z) \/ ~ (exists z, 0 <= z < n /\ P z).
  Proof.
    intros D. assert (G : forall l, (forall z, In z l -> 0 <= z < n) -> (exists z, In z l /\ P z) \/ ~ (exists z, In z l /\ P z)).
    { induction l as [|a l IH]; intros B; [right; intros (z & [] & _)|]. destruct (D a) as [Y|N]; [apply B; now left|left; exists a; split; [now left|easy]|].
      destruct IH as [(z & Iz & Y)|N']; [intros; apply B; now right|left; exists z; split; [now right|easy]|]. right. intros (z & [->|Iz] & Y); [easy|]. apply N'. eauto. }
    destruct (G (upto n)) as [(z & Iz & Y)|N]; [intros z; apply in_upto|left; exists z; split; [now apply in_upto|easy]|].
    right. intros (z & B & Y). apply N. exists z. split; [now apply in_upto|easy].
  Qed.
  Lemma sequence_dec (inter : bool) r c : (inter = true -> (sh * sh | O)) ->
    (exists d, sequence_matrix O I fh fw h w sh sw p inter d [r; c]) \/ (forall d, ~ sequence_matrix O I fh fw h w sh sw p inter d [r; c]).
  Proof.
    intros D.
    destruct (dec_bounded O (fun f => exists oh, 0 <= oh < H /\ exists ow, 0 <= ow < W /\ r = row_of inter f oh ow)) as [(f & Bf & oh & Bh & ow & Bw & ->)|N].
    { intros f _. apply dec_bounded. intros oh _. apply dec_bounded. intros ow _. destruct (Z.eq_dec r (row_of inter f oh ow)); auto. }
    - destruct (sequence_form inter f oh ow D Bf Bh Bw) as (_ & HR & _).
      destruct (existsb (fun d => validc (valid2 h w sh sw p oh ow) d && (c =? posc (h * w) (pos2 w sh sw p oh ow) d)) (keysc I f (keys2 fh fw))) eqn:E.
      + left. apply existsb_exists in E. destruct E as (d & Id & V). apply andb_true_iff in V. destruct V as [V E]. apply Z.eqb_eq in E. exists d. apply HR. auto.
      + right. intros d A. apply HR in A. destruct A as (Id & V & Ec).
        assert (T : existsb (fun d => validc (valid2 h w sh sw p oh ow) d && (c =? posc (h * w) (pos2 w sh sw p oh ow) d)) (keysc I f (keys2 fh fw)) = true)
          by (apply existsb_exists; exists d; split; [easy|]; now rewrite V, (proj2 (Z.eqb_eq _ _) Ec)).
        rewrite T in E. discriminate E.
    - right. intros d A. apply N. apply sequence_iff in A; [|easy].
      destruct A as (f & k & i & j & oh & ow & _ & A1 & _ & _ & _ & A5 & A6 & _ & _ & E & _). eauto 10.
  Qed.
End Seq.
