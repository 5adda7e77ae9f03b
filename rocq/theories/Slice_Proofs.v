From Coq Require Import List Bool ZArith Lia.
From Verif Require Import Slice_Spec Slice_Model.
Import ListNotations.
Local Open Scope Z_scope.

Lemma in_bounds_length shape idx : in_bounds shape idx -> length shape = length idx.
Proof. induction 1; cbn; lia. Qed.
Lemma bounded_spec shape vars : bounded shape vars = true <-> in_bounds shape vars.
Proof.
  revert vars. induction shape as [|n shape IH]; intros [|x vars]; cbn [bounded].
  - split; [constructor|auto].
  - split; [discriminate|]. intro H. inversion H.
  - split; [discriminate|]. intro H. inversion H.
  - rewrite !andb_true_iff, !Z.leb_le, IH. split.
    + intros [H1 H2]. constructor; [lia|exact H2].
    + intro H. inversion H; subst. split; [lia|auto].
Qed.
Lemma indices_spec shape idx : In idx (indices shape) <-> in_bounds shape idx.
Proof.
  revert idx. induction shape as [|n shape IH]; intro idx; cbn [indices].
  - split; [intros [<-|[]]; constructor|]. intro H. inversion H. left. auto.
  - rewrite in_flat_map. split.
    + intros [i [Hi Hm]]. apply in_seq in Hi. apply in_map_iff in Hm as [r [<- Hr]]. apply IH in Hr. constructor; auto. lia.
    + intro H. inversion H as [|n' i s r Hi Hr]; subst. exists (Z.to_nat i). split; [apply in_seq; lia|]. apply in_map_iff.
      exists r. split; [f_equal; lia|]. apply IH. auto.
Qed.
Lemma list_eqb_spec a b : list_eqb a b = true <-> a = b.
Proof.
  revert b. induction a as [|x a IH]; intros [|y b]; cbn [list_eqb]; try (split; [auto; discriminate|discriminate || auto]).
  rewrite andb_true_iff, Z.eqb_eq, IH. split; [intros [-> ->]; auto|]. intro H. injection H as -> ->. auto.
Qed.

(** *** Coordinates *)
Lemma non_unit_length shape d : length d = length shape -> length (non_unit shape d) = length (non_unit shape shape).
Proof.
  revert d. induction shape as [|n shape IH]; intros [|x d] H; try discriminate H; auto. cbn [non_unit].
  destruct (n =? 1); cbn [length]; rewrite IH; auto.
Qed.
Lemma non_unit_bounds shape d : in_bounds shape d -> in_bounds (non_unit shape shape) (non_unit shape d).
Proof.
  induction 1; cbn [non_unit]; [constructor|]. destruct (x =? 1); auto. constructor; auto.
Qed.
Lemma non_unit_not_one shape : Forall (fun n => n <> 1) (non_unit shape shape).
Proof. induction shape as [|n shape IH]; cbn [non_unit]; auto. destruct (Z.eqb_spec n 1); auto. Qed.
Lemma non_unit_inj shape : forall d d', in_bounds shape d -> in_bounds shape d' -> non_unit shape d = non_unit shape d' -> d = d'.
Proof.
  induction shape as [|n shape IH]; intros d d' Hd Hd' H; inversion Hd; inversion Hd'; subst; auto. cbn [non_unit] in H.
  destruct (Z.eqb_spec n 1) as [->|]; [f_equal; [lia|auto]|]. injection H as -> H. f_equal; auto.
Qed.
Lemma expand_length sizes : forall c, length (expand sizes c) = length sizes.
Proof. induction sizes as [|n sizes IH]; intro c; cbn [expand]; auto. destruct (n =? 1); cbn [length]; rewrite IH; auto. Qed.
Lemma expand_bounds sizes : forall c, (forall n, In n sizes -> 1 <= n) -> in_bounds (non_unit sizes sizes) c -> in_bounds sizes (expand sizes c).
Proof.
  induction sizes as [|n sizes IH]; intros c Hp H; cbn [expand non_unit] in *; [constructor|].
  destruct (Z.eqb_spec n 1) as [->|].
  - constructor; [lia|]. apply IH; auto. intros; apply Hp; right; auto.
  - inversion H; subst. cbn [hd tl]. constructor; auto. apply IH; auto. intros; apply Hp; right; auto.
Qed.
Lemma expand_inj sizes : forall c c', length c = length (non_unit sizes sizes) -> length c' = length (non_unit sizes sizes) ->
  expand sizes c = expand sizes c' -> c = c'.
Proof.
  induction sizes as [|n sizes IH]; intros c c' Hc Hc' H; cbn [expand non_unit] in *.
  - destruct c; [|discriminate Hc]. destruct c'; [auto|discriminate Hc'].
  - destruct (n =? 1); [injection H as H; auto|]. destruct c as [|x c]; [discriminate Hc|]. destruct c' as [|x' c']; [discriminate Hc'|].
    cbn [hd tl] in H. injection H as -> H. f_equal. cbn [length] in *. apply IH; auto; lia.
Qed.
Lemma strided_inj offsets strides : (forall s, In s strides -> s <> 0) -> forall c c',
  length c = length offsets -> length c' = length offsets -> length strides = length offsets ->
  strided offsets strides c = strided offsets strides c' -> c = c'.
Proof.
  revert strides. induction offsets as [|o offsets IH]; intros [|s strides] Hs [|x c] [|x' c'] H1 H2 H3 H; try discriminate; auto.
  cbn [strided] in H. injection H as Hx H. assert (s <> 0) by (apply Hs; left; auto). f_equal.
  - assert (x * s = x' * s) by lia. nia.
  - apply (IH strides); auto. intros; apply Hs; right; auto.
Qed.
Lemma strided_length offsets strides c : length strides = length offsets -> length c = length offsets -> length (strided offsets strides c) = length offsets.
Proof.
  revert strides c. induction offsets as [|o offsets IH]; intros [|s strides] [|x c] H1 H2; try discriminate; auto. cbn [strided length]. rewrite IH; auto.
Qed.

Lemma position_bounds large offsets sizes strides shape idx : valid_slice large offsets sizes strides shape -> in_bounds shape idx ->
  in_bounds large (slice_position offsets sizes strides shape idx).
Proof.
  intros V H. unfold slice_position. apply (fits _ _ _ _ _ V). apply expand_bounds; [apply (positive _ _ _ _ _ V)|].
  rewrite (reduced _ _ _ _ _ V). apply non_unit_bounds. auto.
Qed.
Lemma position_inj large offsets sizes strides shape i j : valid_slice large offsets sizes strides shape -> in_bounds shape i -> in_bounds shape j ->
  slice_position offsets sizes strides shape i = slice_position offsets sizes strides shape j -> i = j.
Proof.
  intros V Hi Hj H. destruct V as [[R1 [R2 R3]] Hp Ha Hr Hf]. unfold slice_position in H. apply strided_inj in H; auto; try (rewrite ?expand_length; congruence).
  apply expand_inj in H.
  - eapply non_unit_inj; eauto.
  - rewrite Hr. apply non_unit_length. symmetry. apply in_bounds_length. auto.
  - rewrite Hr. apply non_unit_length. symmetry. apply in_bounds_length. auto.
Qed.

(** *** The relation *)
Lemma link_spec sv : forall offsets sizes strides r k rest,
  length sizes = length offsets -> length strides = length offsets -> length r = length offsets ->
  (forall n, In n sizes -> 1 <= n) -> length rest = length (non_unit sizes sizes) ->
  (forall i, (i < length rest)%nat -> sv (k + i)%nat = nth i rest 0) ->
  (link sv offsets sizes strides r k = true <-> r = strided offsets strides (expand sizes rest)).
Proof.
  induction offsets as [|o offsets IH]; intros [|n sizes] [|s strides] [|x r] k rest H1 H2 H3 Hp Hl Hn; try discriminate.
  - cbn. tauto.
  - cbn [link expand strided non_unit] in *. assert (1 <= n) by (apply Hp; left; auto).
    assert (Hp' : forall m, In m sizes -> 1 <= m) by (intros; apply Hp; right; auto).
    destruct (Z.eqb_spec n 1) as [->|Hne].
    + change (1 <? 1) with false. cbn [strided]. rewrite andb_true_iff, Z.eqb_eq, (IH sizes strides r k rest); auto. split.
      * intros [Hx ->]. f_equal. lia.
      * intro H0. injection H0 as Hx ->. split; [lia|auto].
    + destruct (Z.ltb_spec 1 n) as [_|]; [|lia]. destruct rest as [|y rest]; [discriminate Hl|]. cbn [length] in Hl. cbn [hd tl strided].
      rewrite andb_true_iff, Z.eqb_eq, (IH sizes strides r (S k) rest); auto.
      * pose proof (Hn 0%nat ltac:(cbn; lia)) as H0. rewrite Nat.add_0_r in H0. cbn [nth] in H0. rewrite H0. split.
        -- intros [Hx ->]. f_equal. lia.
        -- intro E. injection E as Hx ->. split; [lia|auto].
      * intros i Hi. specialize (Hn (S i) ltac:(cbn; lia)). cbn [nth] in Hn. rewrite <- Hn. f_equal. lia.
Qed.

Lemma non_unit_app_ones ns n d : Forall (fun x => x <> 1) ns -> length d = (length ns + n)%nat ->
  non_unit (ns ++ repeat 1 n) d = firstn (length ns) d.
Proof.
  revert d. induction ns as [|x ns IH]; intros d H Hl.
  - cbn [length app firstn] in *. revert d Hl. induction n as [|n IHn]; intros [|y d] Hl; try discriminate; auto.
    cbn [repeat non_unit]. change (1 =? 1) with true. cbn iota. apply IHn. cbn [length] in Hl. lia.
  - destruct d as [|y d]; [discriminate Hl|]. inversion H; subst. cbn [app non_unit length firstn]. destruct (Z.eqb_spec x 1); [contradiction|].
    f_equal. apply IH; [auto|cbn [length] in Hl; lia].
Qed.
Lemma compact_firstn shape d : compact shape -> length d = length shape -> non_unit shape d = firstn (length (non_unit shape shape)) d.
Proof.
  intros [n E] Hl. pose proof (non_unit_not_one shape) as Hne. remember (non_unit shape shape) as ns. rewrite E. apply non_unit_app_ones; auto.
  rewrite Hl, E, app_length, repeat_length. reflexivity.
Qed.
Lemma nth_firstn (l : list Z) n i : (i < n)%nat -> nth i (firstn n l) 0 = nth i l 0.
Proof. revert n i. induction l as [|x l IH]; intros [|n] [|i] H; cbn; auto; try lia. apply IH. lia. Qed.

Lemma link_position sv large offsets sizes strides shape d r : valid_slice large offsets sizes strides shape -> compact shape ->
  in_bounds shape d -> length r = length large -> (forall i, (i < length d)%nat -> sv i = nth i d 0) ->
  (link sv offsets sizes strides r 0 = true <-> r = slice_position offsets sizes strides shape d).
Proof.
  intros V Hc Hd Hr Hsv. destruct V as [[R1 [R2 R3]] Hp Ha Hred Hf]. unfold slice_position. apply link_spec; auto; try congruence.
  - rewrite Hred. apply non_unit_length. symmetry. apply in_bounds_length; auto.
  - intros i Hi. rewrite (non_unit_length shape d) in Hi by (symmetry; apply in_bounds_length; auto).
    rewrite compact_firstn by (auto; symmetry; apply in_bounds_length; auto). rewrite nth_firstn by auto. apply Hsv.
    assert (H : (length (non_unit shape shape) <= length shape)%nat).
    { clear. induction shape as [|x s IH]; cbn [non_unit length]; auto. assert ((length (non_unit s s) <= length s)%nat) by auto. destruct (x =? 1); cbn [length]; lia. }
    rewrite <- (in_bounds_length _ _ Hd). cbn [Nat.add]. lia.
Qed.

Lemma insertion_ok large offsets sizes strides shape d r : valid_slice large offsets sizes strides shape -> compact shape ->
  (insertion_relation shape large offsets sizes strides d r = true <-> in_bounds shape d /\ r = slice_position offsets sizes strides shape d).
Proof.
  intros V Hc. unfold insertion_relation. rewrite !andb_true_iff, !bounded_spec. split.
  - intros [[Hd Hr] Hl]. split; auto. eapply link_position in Hl; eauto; [symmetry; apply in_bounds_length; auto|].
    intros i Hi. apply app_nth1. auto.
  - intros [Hd ->]. pose proof (position_bounds _ _ _ _ _ _ V Hd) as Hb. repeat split; auto.
    eapply link_position; eauto; [symmetry; apply in_bounds_length; auto|]. intros i Hi. apply app_nth1. auto.
Qed.
Lemma extraction_ok large offsets sizes strides shape d r : valid_slice large offsets sizes strides shape -> compact shape ->
  (extraction_relation large shape offsets sizes strides d r = true <-> in_bounds shape r /\ d = slice_position offsets sizes strides shape r).
Proof.
  intros V Hc. unfold extraction_relation. rewrite !andb_true_iff, !bounded_spec. split.
  - intros [[Hd Hr] Hl]. split; auto. eapply link_position in Hl; eauto. symmetry. apply in_bounds_length. auto.
  - intros [Hr ->]. pose proof (position_bounds _ _ _ _ _ _ V Hr) as Hb. repeat split; auto.
    eapply link_position; eauto. symmetry. apply in_bounds_length. auto.
Qed.

(** *** Padding and shifting *)
Lemma padded_by_spec low : forall p u, length p = length low -> length u = length low ->
  (padded_by low p u = true <-> forall i, (i < length low)%nat -> nth i p 0 = nth i u 0 + nth i low 0).
Proof.
  induction low as [|l low IH]; intros [|x p] [|y u] H1 H2; try discriminate.
  - cbn. split; auto. intros _ i Hi. lia.
  - cbn [padded_by]. rewrite andb_true_iff, Z.eqb_eq, IH by (cbn in *; lia). split.
    + intros [H H'] [|i] Hi; cbn [nth]; [lia|]. apply H'. cbn in Hi. lia.
    + intro H. split; [specialize (H 0%nat ltac:(cbn; lia)); cbn in H; lia|]. intros i Hi. apply (H (S i)). cbn. lia.
Qed.
Lemma set_var_nth pos x vars i : (pos < length vars)%nat -> nth i (set_var pos x vars) 0 = if Nat.eqb i pos then x else nth i vars 0.
Proof.
  revert pos i. induction vars as [|y vars IH]; intros [|pos] [|i] H; cbn [set_var nth length Nat.eqb] in *; auto; try lia. apply IH. lia.
Qed.
Lemma set_var_length pos x vars : length (set_var pos x vars) = length vars.
Proof. revert pos. induction vars as [|y vars IH]; intros [|pos]; cbn; auto. Qed.

(** *** Forwarding *)
Lemma find_position offsets sizes strides shape r large : valid_slice large offsets sizes strides shape ->
  forall idx, in_bounds shape idx -> slice_position offsets sizes strides shape idx = r ->
  find (fun idx => list_eqb (slice_position offsets sizes strides shape idx) r) (indices shape) = Some idx.
Proof.
  intros V idx Hidx Hp. destruct (find _ _) as [j|] eqn:E.
  - apply find_some in E as [Hj He]. apply indices_spec in Hj. apply list_eqb_spec in He. f_equal. eapply position_inj; eauto. congruence.
  - exfalso. apply find_none with (x := idx) in E; [|apply indices_spec; auto]. rewrite (proj2 (list_eqb_spec _ _) Hp) in E. discriminate E.
Qed.
Lemma insert_same large offsets sizes strides shape source dest idx : valid_slice large offsets sizes strides shape -> in_bounds shape idx ->
  insert_slice offsets sizes strides shape source dest (slice_position offsets sizes strides shape idx) = source idx.
Proof. intros V H. unfold insert_slice. erewrite find_position; eauto. Qed.
Lemma insert_other offsets sizes strides shape source dest r :
  (forall idx, in_bounds shape idx -> slice_position offsets sizes strides shape idx <> r) -> insert_slice offsets sizes strides shape source dest r = dest r.
Proof.
  intro H. unfold insert_slice. destruct (find _ _) as [j|] eqn:E; auto. apply find_some in E as [Hj He]. apply indices_spec in Hj.
  apply list_eqb_spec in He. exfalso. eapply H; eauto.
Qed.
Lemma offsets_eqb_spec a b : offsets_eqb a b = true -> a = b.
Proof.
  revert b. induction a as [|x a IH]; intros [|y b] H; try discriminate H; auto. cbn [offsets_eqb] in H. apply andb_true_iff in H as [H1 H2].
  f_equal; auto. destruct x, y; try discriminate H1; cbn in H1; [apply Z.eqb_eq in H1|apply Nat.eqb_eq in H1]; congruence.
Qed.
Lemma slice_set_spec large s r : valid_slice large (map static_value (offsets s)) (sizes s) (strides s) (shape s) -> compact (shape s) ->
  (slice_set large s r = true <-> exists idx, in_bounds (shape s) idx /\ r = slice_position (map static_value (offsets s)) (sizes s) (strides s) (shape s) idx).
Proof.
  intros V C. unfold slice_set. rewrite existsb_exists. split.
  - intros [d [_ H]]. apply insertion_ok in H; eauto.
  - intros [d H]. exists d. split; [apply indices_spec; tauto|]. apply insertion_ok; auto.
Qed.
Lemma disjoint_spec large a b : 
  valid_slice large (map static_value (offsets a)) (sizes a) (strides a) (shape a) -> compact (shape a) ->
  valid_slice large (map static_value (offsets b)) (sizes b) (strides b) (shape b) -> compact (shape b) ->
  disjoint large a b = true -> forall i j, in_bounds (shape a) i -> in_bounds (shape b) j ->
  slice_position (map static_value (offsets a)) (sizes a) (strides a) (shape a) i <> slice_position (map static_value (offsets b)) (sizes b) (strides b) (shape b) j.
Proof.
  intros Va Ca Vb Cb H i j Hi Hj E. unfold disjoint in H. rewrite forallb_forall in H.
  specialize (H (slice_position (map static_value (offsets b)) (sizes b) (strides b) (shape b) j)).
  assert (Hin : In (slice_position (map static_value (offsets b)) (sizes b) (strides b) (shape b) j) (indices large)) by (apply indices_spec; eapply position_bounds; eauto).
  specialize (H Hin). rewrite (proj2 (slice_set_spec large a _ Va Ca)), (proj2 (slice_set_spec large b _ Vb Cb)) in H; [discriminate H| |]; eauto.
Qed.

(** *** Slices whose shape is not compact *)
Lemma link_vars sv : forall offsets sizes strides k rest,
  length sizes = length offsets -> length strides = length offsets -> (forall s, In s strides -> s <> 0) ->
  (forall n, In n sizes -> 1 <= n) -> length rest = length (non_unit sizes sizes) ->
  link sv offsets sizes strides (strided offsets strides (expand sizes rest)) k = true ->
  forall i, (i < length rest)%nat -> sv (k + i)%nat = nth i rest 0.
Proof.
  induction offsets as [|o offsets IH]; intros [|n sizes] [|s strides] k rest H1 H2 Hs Hp Hl H i Hi; try discriminate.
  - cbn in Hl. lia.
  - cbn [link expand strided non_unit] in *. assert (1 <= n) by (apply Hp; left; auto). assert (s <> 0) by (apply Hs; left; auto).
    assert (Hp' : forall m, In m sizes -> 1 <= m) by (intros; apply Hp; right; auto).
    assert (Hs' : forall m, In m strides -> m <> 0) by (intros; apply Hs; right; auto).
    destruct (Z.eqb_spec n 1) as [->|Hne].
    + change (1 <? 1) with false in H. cbn [strided] in H. apply andb_true_iff in H as [_ H]. apply (IH sizes strides k rest); auto.
    + destruct (Z.ltb_spec 1 n) as [_|]; [|lia]. destruct rest as [|y rest]; [discriminate Hl|]. cbn [length hd tl strided] in *.
      apply andb_true_iff in H as [Hx H]. apply Z.eqb_eq in Hx. destruct i as [|i].
      * rewrite Nat.add_0_r. cbn [nth]. assert (sv k * s = y * s) by lia. nia.
      * cbn [nth]. replace (k + S i)%nat with (S k + i)%nat by lia. apply (IH sizes strides (S k) rest); auto; lia.
Qed.
Lemma zeros_bounds shape : (forall n, In n shape -> 1 <= n) -> in_bounds shape (repeat 0 (length shape)).
Proof.
  induction shape as [|n shape IH]; intro H; cbn [length repeat]; constructor; [assert (1 <= n) by (apply H; left; auto); lia|].
  apply IH. intros; apply H; right; auto.
Qed.
Lemma head_one shape : (forall n, In n shape -> 1 <= n) -> non_unit shape shape <> [] ->
  exists d, in_bounds shape d /\ nth 0 (non_unit shape d) 0 = 1.
Proof.
  induction shape as [|n shape IH]; intros Hp Hne; cbn [non_unit] in Hne; [contradiction|].
  assert (1 <= n) by (apply Hp; left; auto). assert (Hp' : forall m, In m shape -> 1 <= m) by (intros; apply Hp; right; auto).
  destruct (Z.eqb_spec n 1) as [->|].
  - destruct (IH Hp' Hne) as [d [H1 H2]]. exists (0 :: d). split; [constructor; [lia|auto]|]. exact H2.
  - exists (1 :: repeat 0 (length shape)). split; [constructor; [lia|apply zeros_bounds; auto]|]. cbn [non_unit]. destruct (Z.eqb_spec n 1); [contradiction|reflexivity].
Qed.
Lemma all_ones shape : non_unit shape shape = [] -> shape = repeat 1 (length shape).
Proof.
  induction shape as [|n shape IH]; cbn [non_unit length repeat]; auto. destruct (Z.eqb_spec n 1) as [->|]; [|discriminate]. intro H. f_equal. auto.
Qed.
Lemma compact_from_vars shape : (forall n, In n shape -> 1 <= n) ->
  (forall d, in_bounds shape d -> forall i, (i < length (non_unit shape shape))%nat -> nth i d 0 = nth i (non_unit shape d) 0) -> compact shape.
Proof.
  induction shape as [|n shape IH]; intros Hp H; [exists 0%nat; reflexivity|].
  assert (1 <= n) by (apply Hp; left; auto). assert (Hp' : forall m, In m shape -> 1 <= m) by (intros; apply Hp; right; auto).
  destruct (Z.eqb_spec n 1) as [->|Hn].
  - destruct (non_unit shape shape) as [|x l] eqn:E.
    + exists (S (length shape)). cbn [non_unit]. change (1 =? 1) with true. cbn iota. rewrite E. cbn [app repeat]. f_equal. apply all_ones. auto.
    + exfalso. destruct (head_one shape Hp') as [d [Hd H1]]; [rewrite E; discriminate|].
      specialize (H (0 :: d) ltac:(constructor; [lia|auto]) 0%nat). cbn [non_unit] in H. change (1 =? 1) with true in H. cbn iota in H.
      rewrite E, H1 in H. cbn in H. specialize (H ltac:(lia)). discriminate H.
  - destruct (IH Hp') as [k E].
    + intros d Hd i Hi. specialize (H (0 :: d) ltac:(constructor; [lia|auto]) (S i)). cbn [non_unit] in H.
      destruct (Z.eqb_spec n 1); [contradiction|]. cbn [nth length] in H. apply H. lia.
    + exists k. cbn [non_unit]. destruct (Z.eqb_spec n 1); [contradiction|]. cbn [app]. f_equal. exact E.
Qed.
Lemma shape_positive sizes shape : (forall n, In n sizes -> 1 <= n) -> non_unit sizes sizes = non_unit shape shape -> forall n, In n shape -> 1 <= n.
Proof.
  intros Hp Hr n Hn. destruct (Z.eq_dec n 1) as [->|Hne]; [lia|]. apply Hp.
  assert (H : forall s m, In m (non_unit s s) <-> In m s /\ m <> 1).
  { clear. induction s as [|x s IH]; intro m; cbn [non_unit]; [cbn; tauto|]. destruct (Z.eqb_spec x 1) as [->|]; cbn [In]; rewrite IH; intuition congruence. }
  assert (Hin : In n (non_unit sizes sizes)) by (rewrite Hr; apply H; auto). apply H in Hin. tauto.
Qed.
Lemma insertion_needs_compact large offsets sizes strides shape : valid_slice large offsets sizes strides shape ->
  (forall d, in_bounds shape d -> insertion_relation shape large offsets sizes strides d (slice_position offsets sizes strides shape d) = true) -> compact shape.
Proof.
  intros V H. destruct V as [[R1 [R2 R3]] Hp Ha Hr Hf]. apply compact_from_vars; [eapply shape_positive; eauto|].
  intros d Hd i Hi. specialize (H d Hd). unfold insertion_relation in H. apply andb_true_iff in H as [_ H].
  assert (Hl : length (non_unit shape d) = length (non_unit shape shape)) by (apply non_unit_length; symmetry; apply in_bounds_length; auto).
  unfold slice_position in H. eapply link_vars with (i := i) in H; eauto; try congruence.
  - cbn [Nat.add] in H. rewrite app_nth1 in H; auto.
    assert (Hle : (length (non_unit shape shape) <= length shape)%nat).
    { clear. induction shape as [|x s IH]; cbn [non_unit length]; auto. destruct (x =? 1); cbn [length]; lia. }
    rewrite <- (in_bounds_length _ _ Hd). lia.
Qed.
