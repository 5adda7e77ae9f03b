(** Finite integer sums and list helpers (proof library). *)
From Coq Require Import ZArith List Lia Arith Setoid Morphisms.
From Verif Require Import ModEq.
Import ListNotations.
Open Scope Z_scope.

(** f 0 + ... + f (n-1) *)
Fixpoint sumn (n : nat) (f : nat -> Z) : Z :=
  match n with O => 0 | S n' => sumn n' f + f n' end.

Lemma sumn_ext n f g : (forall i, (i < n)%nat -> f i = g i) -> sumn n f = sumn n g.
Proof. induction n; simpl; intros H; auto. rewrite IHn by auto. rewrite H by lia. auto. Qed.
Lemma sumn_cong q n f g : (forall i, (i < n)%nat -> cong q (f i) (g i)) -> cong q (sumn n f) (sumn n g).
Proof.
  induction n; simpl; intros H; [reflexivity|].
  rewrite IHn by (intros; apply H; lia). rewrite H by lia. reflexivity.
Qed.
Lemma sumn_add n f g : sumn n (fun i => f i + g i) = sumn n f + sumn n g.
Proof. induction n; simpl; lia. Qed.
Lemma sumn_sub n f g : sumn n (fun i => f i - g i) = sumn n f - sumn n g.
Proof. induction n; simpl; lia. Qed.
Lemma sumn_opp n f : sumn n (fun i => - f i) = - sumn n f.
Proof. induction n; simpl; lia. Qed.
Lemma sumn_scal n c f : sumn n (fun i => c * f i) = c * sumn n f.
Proof. induction n; cbn [sumn]; [lia|]. rewrite IHn. lia. Qed.
Lemma sumn_scal_r n c f : sumn n (fun i => f i * c) = sumn n f * c.
Proof. induction n; cbn [sumn]; [lia|]. rewrite IHn. lia. Qed.
Lemma sumn_zero n f : (forall i, (i < n)%nat -> f i = 0) -> sumn n f = 0.
Proof. induction n; simpl; intros H; auto. rewrite IHn by auto. rewrite H by lia. auto. Qed.
Lemma sumn_split n m f : sumn (n + m) f = sumn n f + sumn m (fun i => f (n + i)%nat).
Proof.
  induction m; simpl.
  - rewrite Nat.add_0_r. lia.
  - rewrite Nat.add_succ_r. simpl. rewrite IHm. lia.
Qed.
Lemma sumn_first n f : sumn (S n) f = f 0%nat + sumn n (fun i => f (S i)).
Proof.
  change (S n) with (1 + n)%nat. rewrite sumn_split. simpl. lia.
Qed.
Lemma sumn_swap n m (f : nat -> nat -> Z) :
  sumn n (fun i => sumn m (fun j => f i j)) = sumn m (fun j => sumn n (fun i => f i j)).
Proof.
  induction n; simpl.
  - symmetry. apply sumn_zero. auto.
  - rewrite IHn, <- sumn_add. reflexivity.
Qed.
Lemma sumn_even_odd n f :
  sumn (2 * n) f = sumn n (fun i => f (2 * i)%nat) + sumn n (fun i => f (2 * i + 1)%nat).
Proof.
  induction n; [reflexivity|].
  replace (2 * S n)%nat with (S (S (2 * n))) by lia. cbn [sumn]. rewrite IHn.
  replace (S (2 * n)) with (2 * n + 1)%nat by lia. lia.
Qed.
Lemma sumn_rev n f : sumn n (fun i => f (n - 1 - i)%nat) = sumn n f.
Proof.
  induction n; [reflexivity|]. rewrite sumn_first. cbn [sumn].
  rewrite <- IHn. replace (S n - 1 - 0)%nat with n by lia.
  rewrite Z.add_comm. f_equal. apply sumn_ext. intros. f_equal. lia.
Qed.
Lemma sumn_single n f k : (k < n)%nat -> (forall i, (i < n)%nat -> i <> k -> f i = 0) ->
  sumn n f = f k.
Proof.
  induction n; intros Hk H; [lia|]. cbn [sumn]. destruct (Nat.eq_dec k n) as [-> |].
  - rewrite sumn_zero; [lia|]. intros; apply H; lia.
  - rewrite IHn by (try lia; intros; apply H; lia). rewrite (H n) by lia. lia.
Qed.

(** lists *)
Lemma map_seq_nth {A} (d : A) (l : list A) : map (fun i => nth i l d) (seq 0 (length l)) = l.
Proof.
  induction l; simpl; auto. f_equal. rewrite <- seq_shift, map_map. auto.
Qed.
Lemma nth_map_seq {A} (f : nat -> A) n i d : (i < n)%nat -> nth i (map f (seq 0 n)) d = f i.
Proof.
  intros H. rewrite nth_indep with (d' := f (0 + 0)%nat) by (rewrite map_length, seq_length; auto).
  rewrite Nat.add_0_r. rewrite map_nth. rewrite seq_nth by auto. auto.
Qed.
Lemma list_eq_nth {A} (d : A) l l' : length l = length l' ->
  (forall i, (i < length l)%nat -> nth i l d = nth i l' d) -> l = l'.
Proof. intros H1 H2. apply nth_ext with d d; auto. Qed.
