From Coq Require Import List Bool ZArith Lia.
From Verif Require Import Slice_Spec Slice_Model Slice_Proofs PackedAccess_Spec PackedAccess_Model.
Import ListNotations.
Local Open Scope Z_scope.

Lemma point_eqb_spec p q : point_eqb p q = true <-> p = q.
Proof. destruct p, q. unfold point_eqb. cbn [fst snd]. rewrite andb_true_iff, !Z.eqb_eq. split; [intros [-> ->]; auto|]. intro H. injection H as -> ->. auto. Qed.

Lemma exists_index shape f : existsb f (indices shape) = true <-> exists i, in_bounds shape i /\ f i = true.
Proof. rewrite existsb_exists. split; intros [i [H1 H2]]; exists i; split; auto; apply indices_spec; auto. Qed.
Lemma exists_index_false shape f : existsb f (indices shape) = false <-> forall i, in_bounds shape i -> f i = false.
Proof.
  split.
  - intros H i Hi. destruct (f i) eqn:E; auto. exfalso. assert (existsb f (indices shape) = true) by (apply exists_index; eauto). congruence.
  - intro H. destruct (existsb f (indices shape)) eqn:E; auto. apply exists_index in E as [i [Hi Hf]]. rewrite H in Hf; auto.
Qed.

(** What a conversion of layouts does. *)
Lemma conversion_packs shape from to d input output : unambiguous shape to -> covers shape from -> packs shape from d input ->
  remaps (conversion shape from to) input output -> packs shape to d output.
Proof.
  intros U C P R idx q Hi Hq. destruct (R q) as [[p [Hm Ho]]|[_ Hz]].
  - apply exists_index in Hm as [j [Hj Hm]]. apply andb_true_iff in Hm as [H1 H2]. rewrite Ho. rewrite (P j p); auto. f_equal. apply (U j idx q); auto.
  - exfalso. destruct (C idx Hi) as [p Hp]. specialize (Hz p). unfold conversion in Hz. rewrite exists_index_false in Hz. specialize (Hz idx Hi). rewrite Hp, Hq in Hz. discriminate Hz.
Qed.
Lemma scalar_unambiguous L : unambiguous [] L.
Proof. intros i j p Hi Hj _ _. inversion Hi. inversion Hj. auto. Qed.

Lemma extract_ok shape L d ct idx target result output : packs shape L d ct -> in_bounds shape idx -> L idx target = true ->
  remaps (conversion [] (extracted_layout L idx target) result) (extract_masked target ct) output ->
  packs [] result (fun _ => d idx) output.
Proof.
  intros P Hi Ht R. eapply conversion_packs; [apply scalar_unambiguous| | |exact R].
  - intros i _. exists target. unfold extracted_layout, points_of. rewrite Ht. apply point_eqb_spec. auto.
  - intros i p _ H. unfold extracted_layout, points_of in H. apply andb_true_iff in H as [H1 H2]. unfold extract_masked, extract_mask. rewrite H2.
    rewrite (P idx p); auto. lia.
Qed.

Lemma insert_ok shape L d dest idx v out : unambiguous shape L -> packs shape L d dest -> in_bounds shape idx ->
  (forall p, out p = if L idx p then v else dest p) -> packs shape L (insert_element idx v d) out.
Proof.
  intros U P Hi Ho i p Hb Hp. rewrite Ho. unfold insert_element. destruct (list_eqb i idx) eqn:E.
  - apply list_eqb_spec in E as ->. rewrite Hp. auto.
  - destruct (L idx p) eqn:Ei; [|apply P; auto]. exfalso. rewrite (U i idx p) in E; auto. assert (list_eqb idx idx = true) by (apply list_eqb_spec; auto). congruence.
Qed.

Lemma dynamic_mask_eq shape (L : layout) idx p : in_bounds shape idx -> existsb (fun i => L i p && list_eqb i idx) (indices shape) = L idx p.
Proof.
  intro Hi. destruct (L idx p) eqn:E.
  - apply exists_index. exists idx. rewrite E. split; auto. cbn. apply list_eqb_spec. auto.
  - apply exists_index_false. intros i _. destruct (list_eqb i idx) eqn:Ei; [apply list_eqb_spec in Ei as ->; rewrite E; auto|apply andb_false_r].
Qed.

(** Slices. *)
Section Slices.
  Variables large offsets sizes strides shape : list Z.
  Hypothesis V : valid_slice large offsets sizes strides shape.
  Hypothesis C : compact shape.
  Notation position := (slice_position offsets sizes strides shape).

  Lemma slice_layout_spec L lower idx p : slice_layout large shape offsets sizes strides L lower idx p = true <->
    in_bounds shape idx /\ L (position idx) (fst p + lower, snd p) = true.
  Proof.
    unfold slice_layout. rewrite exists_index. split.
    - intros [r [Hr H]]. apply andb_true_iff in H as [H1 H2]. apply extraction_ok in H1 as [Hi ->]; auto.
    - intros [Hi H]. exists (position idx). split; [eapply position_bounds; eauto|]. apply andb_true_iff. split; auto. apply extraction_ok; auto.
  Qed.
  Lemma slice_layout_unambiguous L lower : unambiguous large L -> unambiguous shape (slice_layout large shape offsets sizes strides L lower).
  Proof.
    intros U i j p Hi Hj H1 H2. apply slice_layout_spec in H1 as [_ H1]. apply slice_layout_spec in H2 as [_ H2].
    apply (position_inj large offsets sizes strides shape); auto. eapply U; eauto; eapply position_bounds; eauto.
  Qed.
  Lemma slice_layout_covers L lower : covers large L -> covers shape (slice_layout large shape offsets sizes strides L lower).
  Proof.
    intros Cv i Hi. destruct (Cv (position i)) as [[c s] Hp]; [eapply position_bounds; eauto|]. exists (c - lower, s). apply slice_layout_spec. split; auto.
    cbn [fst snd]. replace (c - lower + lower) with c by lia. auto.
  Qed.
  Lemma slice_mapping_spec source result p q : slice_mapping large shape offsets sizes strides source result p q = true <->
    exists idx, in_bounds shape idx /\ source (position idx) p = true /\ result idx q = true.
  Proof.
    unfold slice_mapping. rewrite exists_index. split.
    - intros [r [Hr H]]. apply andb_true_iff in H as [H1 H2]. apply exists_index in H2 as [idx [Hi H2]]. apply andb_true_iff in H2 as [H2 H3].
      apply extraction_ok in H2 as [_ ->]; auto. exists idx. auto.
    - intros [idx [Hi [H1 H2]]]. exists (position idx). split; [eapply position_bounds; eauto|]. rewrite H1. cbn. apply exists_index. exists idx. split; auto.
      rewrite H2, andb_true_r. apply extraction_ok; auto.
  Qed.
  Lemma extract_slice_ok source result d input output : covers large source -> unambiguous shape result -> packs large source d input ->
    remaps (slice_mapping large shape offsets sizes strides source result) input output ->
    packs shape result (fun idx => d (position idx)) output.
  Proof.
    intros Cv U P R idx q Hi Hq. destruct (R q) as [[p [Hm Ho]]|[_ Hz]].
    - apply slice_mapping_spec in Hm as [j [Hj [H1 H2]]]. rewrite Ho, (P (position j) p); auto; [|eapply position_bounds; eauto]. do 2 f_equal. apply (U j idx q); auto.
    - exfalso. destruct (Cv (position idx)) as [p Hp]; [eapply position_bounds; eauto|]. specialize (Hz p).
      assert (slice_mapping large shape offsets sizes strides source result p q = true) by (apply slice_mapping_spec; eauto). congruence.
  Qed.

  Lemma insertion_layout_spec L lower idx p : insertion_layout large shape offsets sizes strides L lower idx p = true <->
    in_bounds shape idx /\ L (position idx) (fst p + lower, snd p) = true.
  Proof.
    unfold insertion_layout. rewrite exists_index. split.
    - intros [r [Hr H]]. apply andb_true_iff in H as [H1 H2]. apply insertion_ok in H1 as [Hi ->]; auto.
    - intros [Hi H]. exists (position idx). split; [eapply position_bounds; eauto|]. apply andb_true_iff. split; auto. apply insertion_ok; auto.
  Qed.
  Lemma insertion_layout_unambiguous L lower : unambiguous large L -> unambiguous shape (insertion_layout large shape offsets sizes strides L lower).
  Proof.
    intros U i j p Hi Hj H1 H2. apply insertion_layout_spec in H1 as [_ H1]. apply insertion_layout_spec in H2 as [_ H2].
    apply (position_inj large offsets sizes strides shape); auto. eapply U; eauto; eapply position_bounds; eauto.
  Qed.
End Slices.

(** With unit strides the box of the slice consists of its positions. *)
Lemma in_slice_spec : forall offsets sizes r, length sizes = length offsets -> length r = length offsets ->
  (in_slice offsets sizes r = true <-> exists c, in_bounds sizes c /\ r = strided offsets (repeat 1 (length offsets)) c).
Proof.
  induction offsets as [|o offsets IH]; intros [|n sizes] [|x r] H1 H2; try discriminate.
  - cbn. split; auto. intros _. exists []. split; [constructor|auto].
  - cbn [in_slice]. rewrite !andb_true_iff, !Z.leb_le, IH by (cbn in *; lia). split.
    + intros [[Ha Hb] [c [Hc ->]]]. exists (x - o :: c). split; [constructor; auto; lia|]. cbn [length repeat strided]. f_equal. lia.
    + intros [c [Hc E]]. inversion Hc; subst. cbn [length repeat strided] in E. injection E as -> ->. split; [lia|]. eauto.
Qed.
Lemma expand_onto sizes : forall c, in_bounds sizes c -> expand sizes (non_unit sizes c) = c.
Proof.
  induction sizes as [|n sizes IH]; intros c H; inversion H; subst; auto. cbn [expand non_unit]. destruct (Z.eqb_spec n 1) as [->|].
  - f_equal; [lia|auto].
  - cbn [hd tl]. f_equal. auto.
Qed.
Lemma non_unit_onto shape : (forall n, In n shape -> 1 <= n) -> forall c, in_bounds (non_unit shape shape) c -> in_bounds shape (expand shape c) /\ non_unit shape (expand shape c) = c.
Proof.
  induction shape as [|n shape IH]; intros Hp c H; cbn [non_unit expand] in *.
  - inversion H. split; auto. constructor.
  - assert (Hp' : forall m, In m shape -> 1 <= m) by (intros; apply Hp; right; auto). destruct (Z.eqb_spec n 1) as [->|].
    + destruct (IH Hp' c H) as [A B]. split; [constructor; auto; lia|auto].
    + inversion H; subst. cbn [hd tl]. destruct (IH Hp' l') as [A B]; auto. split; [constructor; auto|]. f_equal. auto.
Qed.
Lemma in_slice_position large offsets sizes shape r : valid_slice large offsets sizes (repeat 1 (length offsets)) shape -> length r = length large ->
  (in_slice offsets sizes r = true <-> exists idx, in_bounds shape idx /\ r = slice_position offsets sizes (repeat 1 (length offsets)) shape idx).
Proof.
  intros V Hr. destruct V as [[R1 [R2 R3]] Hp Ha Hred Hf]. rewrite in_slice_spec by congruence. unfold slice_position. split.
  - intros [c [Hc ->]]. pose proof (non_unit_bounds _ _ Hc) as Hn. rewrite Hred in Hn. apply non_unit_onto in Hn as [A B]; [|eapply shape_positive; eauto].
    exists (expand shape (non_unit sizes c)). split; auto. rewrite B, expand_onto; auto.
  - intros [idx [Hi ->]]. exists (expand sizes (non_unit shape idx)). split; auto. apply expand_bounds; auto. rewrite Hred. apply non_unit_bounds. auto.
Qed.

Lemma insert_slice_ok large offsets sizes shape L lower source dest src d :
  let strides := repeat 1 (length offsets) in
  valid_slice large offsets sizes strides shape -> compact shape -> unambiguous large L ->
  packs large L d dest ->
  packs shape (insertion_layout large shape offsets sizes strides L lower) src source ->
  (forall idx p, in_bounds shape idx -> L (slice_position offsets sizes strides shape idx) p = true -> fst p = lower) ->
  packs large L (insert_data offsets sizes strides shape src d) (insert_packed large offsets sizes L source dest).
Proof.
  intros strides V C U P Ps Hone r p Hr Hp. unfold insert_packed, insert_data.
  pose proof (in_bounds_length _ _ Hr) as Hlen.
  destruct (in_slice offsets sizes r) eqn:E.
  - assert (Es : slice_points large offsets sizes L p = true) by (apply exists_index; exists r; rewrite E, Hp; auto). rewrite Es.
    apply (in_slice_position large offsets sizes shape) in E as [idx [Hi E]]; auto. fold strides in E. rewrite (find_position offsets sizes strides shape r large V idx); auto.
    rewrite (Ps idx (0, snd p)); auto; [lia|]. apply insertion_layout_spec; auto. split; auto. cbn [fst snd]. rewrite <- E. rewrite <- (Hone idx p); auto; [|rewrite <- E; auto].
    destruct p. auto.
  - assert (Es : slice_points large offsets sizes L p = false).
    { apply exists_index_false. intros i Hi. destruct (L i p) eqn:Ei; [|apply andb_false_r]. rewrite (U i r p); auto. rewrite E. auto. }
    rewrite Es. destruct (find _ _) as [j|] eqn:Ef.
    + exfalso. apply find_some in Ef as [Hj Hf]. apply indices_spec in Hj. apply list_eqb_spec in Hf.
      assert (in_slice offsets sizes r = true) by (apply (in_slice_position large offsets sizes shape); eauto). congruence.
    + rewrite (P r p); auto. lia.
Qed.

(** Padding. *)
Lemma padded_by_sub low : forall p u, length p = length low -> length u = length low -> (padded_by low p u = true <-> u = sub_low p low).
Proof.
  induction low as [|l low IH]; intros [|x p] [|y u] H1 H2; try discriminate; [cbn; tauto|]. cbn [padded_by sub_low]. rewrite andb_true_iff, Z.eqb_eq, IH by (cbn in *; lia).
  split; [intros [A ->]; f_equal; lia|]. intro H. injection H as -> ->. split; auto. lia.
Qed.
Section Padding.
  Variables padded unpadded low : list Z.
  Hypothesis R1 : length padded = length low.
  Hypothesis R2 : length unpadded = length low.

  Lemma padding_spec p u : padding_relation padded unpadded low p u = true <-> in_bounds padded p /\ in_bounds unpadded u /\ u = sub_low p low.
  Proof.
    unfold padding_relation. rewrite !andb_true_iff, !bounded_spec. split.
    - intros [[Hp Hu] H]. apply in_bounds_length in Hp as Lp. apply in_bounds_length in Hu as Lu. apply padded_by_sub in H; [auto|congruence|congruence].
    - intros [Hp [Hu H]]. apply in_bounds_length in Hp as Lp. apply in_bounds_length in Hu as Lu. split; auto. apply padded_by_sub; auto; congruence.
  Qed.
  Lemma sub_low_inj : forall l p p', length p = length l -> length p' = length l -> sub_low p l = sub_low p' l -> p = p'.
  Proof.
    induction l as [|x l IH]; intros [|a p] [|b p'] H1 H2 H; try discriminate; auto. cbn [sub_low] in H. injection H as Ha H. f_equal; [lia|]. apply IH; auto.
  Qed.
  Lemma pad_layout_unambiguous L : unambiguous unpadded L -> unambiguous padded (pad_layout padded unpadded low L).
  Proof.
    intros U i j p Hi Hj H1 H2. unfold pad_layout in *. apply exists_index in H1 as [u [Hu H1]]. apply exists_index in H2 as [u' [Hu' H2]].
    apply andb_true_iff in H1 as [A1 B1]. apply andb_true_iff in H2 as [A2 B2]. apply padding_spec in A1 as [_ [_ A1]]. apply padding_spec in A2 as [_ [_ A2]].
    apply in_bounds_length in Hi. apply in_bounds_length in Hj. apply (sub_low_inj low); try congruence. rewrite <- A1, <- A2. eapply U; eauto.
  Qed.
  Lemma pad_ok source result d input output : covers unpadded source -> unambiguous padded result -> packs unpadded source d input ->
    remaps (pad_mapping padded unpadded low source result) input output -> packs padded result (pad_data unpadded low d) output.
  Proof.
    intros Cv U P R i q Hi Hq. unfold pad_data. destruct (existsb _ _) eqn:E.
    - apply exists_index in E as [u [Hu E]]. apply list_eqb_spec in E. rewrite E. destruct (R q) as [[p [Hm Ho]]|[_ Hz]].
      + unfold pad_mapping in Hm. apply exists_index in Hm as [u' [Hu' Hm]]. apply andb_true_iff in Hm as [Hs Hm]. apply exists_index in Hm as [j [Hj Hm]].
        apply andb_true_iff in Hm as [Hm Hr]. apply padding_spec in Hm as [_ [_ Hm]]. rewrite Ho, (P u' p); auto. f_equal. rewrite Hm, <- E. f_equal. apply (U j i q); auto.
      + exfalso. destruct (Cv u Hu) as [p Hp]. specialize (Hz p). unfold pad_mapping in Hz. rewrite exists_index_false in Hz. specialize (Hz u Hu). rewrite Hp in Hz. cbn in Hz.
        rewrite exists_index_false in Hz. specialize (Hz i Hi). rewrite Hq, andb_true_r in Hz.
        assert (padding_relation padded unpadded low i u = true) by (apply padding_spec; auto). congruence.
    - rewrite exists_index_false in E. destruct (R q) as [[p [Hm Ho]]|[Hz _]]; auto. exfalso.
      unfold pad_mapping in Hm. apply exists_index in Hm as [u' [Hu' Hm]]. apply andb_true_iff in Hm as [Hs Hm]. apply exists_index in Hm as [j [Hj Hm]].
      apply andb_true_iff in Hm as [Hm Hr]. apply padding_spec in Hm as [_ [_ Hm]]. rewrite (U j i q) in Hm; auto. specialize (E u' Hu'). rewrite <- Hm in E.
      assert (list_eqb u' u' = true) by (apply list_eqb_spec; auto). congruence.
  Qed.
End Padding.
