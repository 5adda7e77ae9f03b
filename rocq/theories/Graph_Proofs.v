(** Proofs about the graph model: sets, topological sort, level sort. *)
From Coq Require Import ZArith List Bool Arith Lia Sorted Permutation Relations.
From Verif Require Import Words Graph_Model.
Import ListNotations.
Open Scope nat_scope.

(** ** sets *)
Lemma set_count_In x l : set_count x l = true <-> In x l.
Proof.
  unfold set_count. rewrite existsb_exists. split.
  - intros (y & H & E). apply Nat.eqb_eq in E. subst. auto.
  - intros H. exists x. rewrite Nat.eqb_refl. auto.
Qed.
Lemma set_count_false x l : set_count x l = false <-> ~ In x l.
Proof. rewrite <- set_count_In. destruct (set_count x l); intuition congruence. Qed.
Lemma set_count_cons x y l : set_count x (y :: l) = (x =? y) || set_count x l.
Proof. reflexivity. Qed.
Lemma set_insert_In x y l : In y (set_insert x l) <-> y = x \/ In y l.
Proof.
  induction l as [|z l IH]; cbn [set_insert In]; [intuition|].
  destruct (Nat.ltb_spec x z); cbn [In]; [intuition|].
  destruct (Nat.eqb_spec x z); cbn [In]; [subst; intuition|]. rewrite IH. intuition.
Qed.
Lemma set_insert_sorted x l : StronglySorted lt l -> StronglySorted lt (set_insert x l).
Proof.
  induction 1 as [|z l H IH HF]; cbn [set_insert]; [repeat constructor|].
  destruct (Nat.ltb_spec x z).
  - constructor; [constructor; auto|]. constructor; auto.
    eapply Forall_impl; [|exact HF]. intros; lia.
  - destruct (Nat.eqb_spec x z); [constructor; auto|]. constructor; auto.
    apply Forall_forall. intros y Hy. apply set_insert_In in Hy as [->|Hy]; [lia|].
    rewrite Forall_forall in HF. auto.
Qed.
Lemma sorted_nodup l : StronglySorted lt l -> NoDup l.
Proof.
  induction 1 as [|z l H IH HF]; constructor; auto. intros Hin. rewrite Forall_forall in HF.
  apply HF in Hin. lia.
Qed.
Lemma set_insert_length x l : length (set_insert x l) <= S (length l).
Proof.
  induction l as [|z l IH]; cbn [set_insert length]; auto.
  destruct (x <? z); cbn [length]; auto. destruct (x =? z); cbn [length]; lia.
Qed.
Lemma upd_same {A} (f : nat -> A) k v : upd f k v k = v.
Proof. unfold upd. rewrite Nat.eqb_refl. auto. Qed.
Lemma upd_other {A} (f : nat -> A) k v i : i <> k -> upd f k v i = f i.
Proof. intros. unfold upd. destruct (Nat.eqb_spec i k); congruence. Qed.

(** ** well-formed graphs *)
Record wf (g : graph) : Prop := {
  wf_verts : StronglySorted lt (verts g);
  wf_out : forall v, StronglySorted lt (outE g v);
  wf_in : forall v, StronglySorted lt (inE g v);
  wf_sym : forall u v, In v (outE g u) <-> In u (inE g v);
  wf_incl : forall u v, In v (outE g u) -> In u (verts g) /\ In v (verts g) }.

Lemma wf_empty : wf empty_graph.
Proof. split; simpl; try constructor; intros; simpl in *; tauto. Qed.
Lemma wf_add_vertex v g : wf g -> wf (add_vertex v g).
Proof.
  intros [A B C D E]. split; simpl; auto using set_insert_sorted.
  intros u w H. rewrite !set_insert_In. destruct (E u w H). auto.
Qed.
Lemma wf_add_edge s t g : wf g -> wf (snd (add_edge s t g)).
Proof.
  intros [A B C D E]. unfold add_edge.
  destruct (negb _ || negb _) eqn:H; [split; auto|].
  apply orb_false_iff in H as [H1 H2]. apply negb_false_iff in H1, H2. apply set_count_In in H1, H2.
  split; simpl; auto.
  - intros v. unfold upd. destruct (v =? s); auto. apply set_insert_sorted; auto.
  - intros v. unfold upd. destruct (v =? t); auto. apply set_insert_sorted; auto.
  - intros u v. unfold upd.
    destruct (Nat.eqb_spec u s) as [->|Hu], (Nat.eqb_spec v t) as [->|Hv]; rewrite ?set_insert_In, ?D; intuition congruence.
  - intros u v. unfold upd. destruct (Nat.eqb_spec u s) as [->|Hu]; rewrite ?set_insert_In; [|apply E].
    intros [->|H]; [auto|apply (E _ _ H)].
Qed.
Lemma edges_out_eq g v : wf g -> edges_out_of g v = outE g v.
Proof.
  intros W. unfold edges_out_of. destruct (set_count v (verts g)) eqn:E; auto.
  apply set_count_false in E. destruct (outE g v) as [|x l] eqn:F; auto.
  destruct E. apply (wf_incl g W v x). rewrite F. simpl. auto.
Qed.
Lemma edges_in_eq g v : wf g -> edges_into g v = inE g v.
Proof.
  intros W. unfold edges_into. destruct (set_count v (verts g)) eqn:E; auto.
  apply set_count_false in E. destruct (inE g v) as [|x l] eqn:F; auto.
  destruct E. apply (wf_incl g W x v). apply (wf_sym g W). rewrite F. simpl. auto.
Qed.
Lemma has_edge_In g u v : wf g -> (has_edge g u v = true <-> In v (outE g u)).
Proof.
  intros W. unfold has_edge. destruct (negb _ || negb _) eqn:H.
  - split; [discriminate|]. intros Hin. destruct (wf_incl g W _ _ Hin) as [A B].
    apply set_count_In in A, B. rewrite A, B in H. discriminate.
  - apply set_count_In.
Qed.

(** ** finite relations: predecessors everywhere give a cycle *)
Lemma not_nodup (l : list nat) : ~ NoDup l -> exists l1 x l2 l3, l = l1 ++ x :: l2 ++ x :: l3.
Proof.
  induction l as [|a l IH]; intros H; [destruct H; constructor|].
  destruct (in_dec Nat.eq_dec a l) as [Hin|Hn].
  - apply in_split in Hin as (l2 & l3 & ->). exists [], a, l2, l3. auto.
  - destruct IH as (l1 & x & l2 & l3 & ->).
    + intros ND. apply H. constructor; auto.
    + exists (a :: l1), x, l2, l3. auto.
Qed.
Lemma sorted_app_trans {R : nat -> nat -> Prop} l1 x l2 y l3 :
  Sorted R (l1 ++ x :: l2 ++ y :: l3) -> clos_trans nat R x y.
Proof.
  induction l1 as [|a l1 IH]; cbn [app]; intros H; [|inversion H; auto].
  revert x H. induction l2 as [|b l2 IH2]; cbn [app]; intros x H; inversion H as [|? ? H1 H2]; subst; inversion H2; subst.
  - constructor; auto.
  - eapply t_trans; [constructor; eassumption|]. apply IH2. auto.
Qed.
Lemma pred_cycle (R : nat -> nat -> Prop) (S : list nat) : S <> [] ->
  (forall v, In v S -> exists u, In u S /\ R u v) -> exists v, clos_trans nat R v v.
Proof.
  intros Hne HP.
  assert (W : forall k, exists l, length l = k /\ incl l S /\ Sorted R l).
  { induction k as [|k (l & L & I & C)].
    - exists []. repeat split; auto. intros x [].
    - destruct l as [|x l].
      + destruct S as [|s S]; [congruence|]. exists [s]. simpl in L. subst.
        split; auto. split; [intros y [<-|[]]; left; auto|]. repeat constructor.
      + destruct (HP x) as (u & Hu & Hr); [apply I; left; auto|].
        exists (u :: x :: l). split; [simpl in *; lia|]. split; [intros y [<-|Hy]; auto|].
        constructor; auto. }
  destruct (W (Datatypes.S (length S))) as (l & L & I & C).
  destruct (not_nodup l) as (l1 & x & l2 & l3 & ->).
  - intros ND. pose proof (NoDup_incl_length ND I). lia.
  - exists x. eapply sorted_app_trans; eauto.
Qed.

(** positions in a list *)
Fixpoint pos (x : nat) (l : list nat) : nat :=
  match l with [] => 0 | y :: r => if x =? y then 0 else S (pos x r) end.
Lemma pos_split l1 x l2 : ~ In x l1 -> pos x (l1 ++ x :: l2) = length l1.
Proof.
  induction l1 as [|a l IH]; simpl; intros H.
  - rewrite Nat.eqb_refl. auto.
  - destruct (Nat.eqb_spec x a); [subst; tauto|]. rewrite IH; tauto.
Qed.
(** [u] occurs before [v] in the list *)
Definition before (l : list nat) (u v : nat) : Prop := exists l1 l2 l3, l = l1 ++ u :: l2 ++ v :: l3.
Lemma before_pos l u v : NoDup l -> before l u v -> pos u l < pos v l.
Proof.
  intros ND (l1 & l2 & l3 & ->).
  rewrite pos_split by (apply NoDup_remove_2 in ND; rewrite in_app_iff in ND; tauto).
  change (l1 ++ u :: l2 ++ v :: l3) with (l1 ++ (u :: l2) ++ v :: l3) in *. rewrite app_assoc in *.
  rewrite pos_split by (apply NoDup_remove_2 in ND; rewrite in_app_iff in ND; tauto).
  rewrite app_length. simpl. lia.
Qed.
Lemma forward_acyclic (R : nat -> nat -> Prop) l : NoDup l -> (forall u v, R u v -> before l u v) ->
  forall v, ~ clos_trans nat R v v.
Proof.
  intros ND HF v Hc.
  assert (forall u w, clos_trans nat R u w -> pos u l < pos w l).
  { intros u w H. induction H; [apply before_pos; auto|lia]. }
  apply H in Hc. lia.
Qed.

(** ** Kahn's algorithm *)
Section Kahn.
Variable g : graph.
Hypothesis W : wf g.
Let E u v := In v (outE g u).

Definition pending (R : list nat) (v : nat) : Z :=
  Z.of_nat (length (filter (fun u => negb (set_count u R)) (inE g v))).
(** reversed order: all predecessors of a vertex come later in the list *)
Fixpoint good (R : list nat) : Prop :=
  match R with [] => True | v :: R' => (forall u, E u v -> In u R') /\ good R' end.

Lemma kahn_targets T : forall cnt A, NoDup T ->
  let '(cnt', A') := fold_left kahn_target T (cnt, A) in
  (forall v, cnt' v = cnt v - (if set_count v T then 1 else 0))%Z /\
  A' = rev (filter (fun v => (cnt v - 1 =? 0)%Z) T) ++ A.
Proof.
  induction T as [|t T IH]; intros cnt A ND; cbn [fold_left].
  - split; [intros; simpl; lia|auto].
  - apply NoDup_cons_iff in ND as [Hn ND]. cbn [kahn_target].
    specialize (IH (upd cnt t (cnt t - 1)%Z) (if (cnt t - 1 =? 0)%Z then t :: A else A) ND).
    destruct (fold_left _ _ _) as [cnt' A']. destruct IH as [H1 H2]. split.
    + intros v. rewrite H1. unfold upd, set_count. cbn [existsb]. fold (set_count v T).
      destruct (Nat.eqb_spec v t) as [->|Hv]; cbn [orb]; auto.
      replace (set_count t T) with false by (symmetry; apply set_count_false; auto). lia.
    + rewrite H2. cbn [filter].
      rewrite (filter_ext_in (fun v => (upd cnt t (cnt t - 1) v - 1 =? 0)%Z) (fun v => (cnt v - 1 =? 0)%Z)).
      * destruct (cnt t - 1 =? 0)%Z; auto. cbn [rev]. rewrite <- app_assoc. auto.
      * intros a Ha. rewrite upd_other; auto. intros ->. auto.
Qed.

Record kinv (cnt : nat -> Z) (A R : list nat) : Prop := {
  ki_nodup : NoDup (A ++ R);
  ki_incl : incl (A ++ R) (verts g);
  ki_cnt : forall v, In v (verts g) -> cnt v = pending R v;
  ki_zero : forall v, In v (verts g) -> (cnt v = 0%Z <-> In v (A ++ R));
  ki_good : good R }.

Lemma pending_zero R v : pending R v = 0%Z <-> (forall u, E u v -> In u R).
Proof.
  unfold pending. split.
  - intros H u Hu. assert (L : length (filter (fun u => negb (set_count u R)) (inE g v)) = 0) by lia.
    apply length_zero_iff_nil in L. destruct (set_count u R) eqn:F; [apply set_count_In; auto|].
    assert (In u (filter (fun u => negb (set_count u R)) (inE g v))).
    { apply filter_In. rewrite F. split; auto. apply (wf_sym g W). auto. }
    rewrite L in H0. destruct H0.
  - intros H. replace (filter _ _) with (@nil nat); auto. symmetry.
    destruct (filter _ _) as [|x l] eqn:F; auto.
    assert (In x (x :: l)) by (left; auto). rewrite <- F in H0. apply filter_In in H0 as [H1 H2].
    apply (wf_sym g W) in H1. apply H in H1. apply set_count_In in H1. rewrite H1 in H2. discriminate.
Qed.
Lemma pending_cons R s v : ~ In s R ->
  (pending R v = pending (s :: R) v + (if set_count v (outE g s) then 1 else 0))%Z.
Proof.
  intros Hs. unfold pending.
  assert (X : forall l, NoDup l ->
    (Z.of_nat (length (filter (fun u => negb (set_count u R)) l)) =
     Z.of_nat (length (filter (fun u => negb (set_count u (s :: R))) l)) + (if set_count s l then 1 else 0))%Z).
  { induction l as [|a l IH]; intros ND; [reflexivity|]. apply NoDup_cons_iff in ND as [Hn ND].
    cbn [filter]. rewrite !set_count_cons, (Nat.eqb_sym s a). specialize (IH ND). destruct (Nat.eqb_spec a s) as [->|Ha]; cbn [orb negb].
    - replace (set_count s R) with false by (symmetry; apply set_count_false; auto).
      replace (set_count s l) with false in IH by (symmetry; apply set_count_false; auto).
      cbn [negb length]. lia.
    - destruct (set_count a R); cbn [negb length]; lia. }
  rewrite X by (apply sorted_nodup, (wf_in g W)). f_equal.
  destruct (set_count v (outE g s)) eqn:E1, (set_count s (inE g v)) eqn:E2; auto.
  - apply set_count_In in E1. apply (wf_sym g W) in E1. apply set_count_In in E1. congruence.
  - apply set_count_In in E2. apply (wf_sym g W) in E2. apply set_count_In in E2. congruence.
Qed.

Lemma kinv_init : kinv (fun v => Z.of_nat (length (edges_into g v))) (initial_active g) [].
Proof.
  assert (EQ : forall v, edges_into g v = inE g v) by (intros; apply edges_in_eq; auto).
  split.
  - rewrite app_nil_r. apply NoDup_rev, NoDup_filter, sorted_nodup, (wf_verts g W).
  - rewrite app_nil_r. intros v Hv. unfold initial_active in Hv. apply in_rev in Hv. apply filter_In in Hv. tauto.
  - intros v Hv. unfold pending. rewrite EQ.
    replace (filter _ (inE g v)) with (inE g v); auto. clear. induction (inE g v) as [|a l IH]; auto. unfold set_count in *. cbn [filter existsb negb] in *. rewrite <- IH at 1. auto.
  - intros v Hv. rewrite app_nil_r. unfold initial_active. rewrite <- in_rev, filter_In, Nat.eqb_eq. intuition lia.
  - exact I.
Qed.
Lemma kinv_step cnt s A R : kinv cnt (s :: A) R ->
  let '(cnt', A') := fold_left kahn_target (edges_out_of g s) (cnt, A) in kinv cnt' A' (s :: R).
Proof.
  intros [I1 I2 I3 I4 I5]. rewrite edges_out_eq by auto.
  pose proof (kahn_targets (outE g s) cnt A (sorted_nodup _ (wf_out g W s))) as HK.
  destruct (fold_left _ _ _) as [cnt' A']. destruct HK as [HC ->].
  assert (Sv : In s (verts g)) by (apply I2; left; auto).
  assert (Sn : ~ In s R). { cbn [app] in I1. apply NoDup_cons_iff in I1 as [X _]. rewrite in_app_iff in X. tauto. }
  set (F := filter (fun v => (cnt v - 1 =? 0)%Z) (outE g s)).
  assert (FI : forall v, In v F <-> In v (outE g s) /\ cnt v = 1%Z).
  { intros v. unfold F. rewrite filter_In, Z.eqb_eq. intuition lia. }
  assert (Fnew : forall v, In v F -> ~ In v ((s :: A) ++ R)).
  { intros v Hv Hin. apply FI in Hv as [Hv1 Hv2]. apply I4 in Hin; [lia|]. apply (wf_incl g W s v Hv1). }
  assert (Perm : Permutation (F ++ (s :: A) ++ R) ((rev F ++ A) ++ s :: R)).
  { rewrite <- (Permutation_rev F). cbn [app]. rewrite <- !app_assoc. apply Permutation_app_head.
    apply Permutation_middle. }
  assert (C' : forall v, In v (verts g) -> cnt' v = pending (s :: R) v).
  { intros v Hv. rewrite HC, I3, (pending_cons R s v Sn) by auto. lia. }
  split.
  - eapply Permutation_NoDup; [exact Perm|].
    assert (NDF : NoDup F) by apply NoDup_filter, sorted_nodup, (wf_out g W).
    clear - NDF I1 Fnew. revert NDF Fnew. generalize F as l. induction l as [|a l IH]; intros; auto.
    apply NoDup_cons_iff in NDF as [X Y]. cbn [app]. constructor.
    + rewrite in_app_iff. intros [?|?]; [auto|]. apply (Fnew a); auto. left; auto.
    + apply IH; auto. intros v Hv. apply Fnew. right; auto.
  - intros v Hv. apply (Permutation_in _ (Permutation_sym Perm)) in Hv. apply in_app_iff in Hv as [Hv|Hv].
    + apply FI in Hv. apply (wf_incl g W s v). tauto.
    + apply I2; auto.
  - auto.
  - intros v Hv. rewrite HC.
    assert (EP : In v ((rev F ++ A) ++ s :: R) <-> In v F \/ In v ((s :: A) ++ R)).
    { rewrite <- in_app_iff. split; apply Permutation_in; auto. apply Permutation_sym; auto. }
    rewrite EP, FI, <- (I4 v Hv).
    pose proof (I3 v Hv) as E1. assert (0 <= cnt v)%Z by (rewrite E1; unfold pending; lia).
    destruct (set_count v (outE g s)) eqn:EO.
    + apply set_count_In in EO.
      assert (cnt v <> 0%Z).
      { intros Z0. rewrite E1 in Z0. apply pending_zero with (u := s) in Z0; auto. }
      intuition lia.
    + apply set_count_false in EO. rewrite Z.sub_0_r. intuition lia.
  - split; auto. intros u Hu. assert (Z0 : cnt s = 0%Z) by (apply I4; auto; left; auto).
    rewrite I3 in Z0 by auto. eapply pending_zero; eauto.
Qed.
Lemma kahn_ok fuel : forall cnt A R, kinv cnt A R -> fuel + length R = length (verts g) ->
  exists R', kahn fuel g cnt A R = Some (rev R') /\ exists cnt', kinv cnt' [] R'.
Proof.
  induction fuel as [|f IH]; intros cnt A R K HL.
  - destruct A as [|s A]; cbn [kahn].
    + exists R. split; eauto.
    + exfalso. destruct K as [I1 I2 _ _ _]. pose proof (NoDup_incl_length I1 I2) as X.
      rewrite app_length in X. simpl in X. lia.
  - destruct A as [|s A]; cbn [kahn].
    + exists R. split; eauto.
    + pose proof (kinv_step cnt s A R K) as K'. destruct (fold_left _ _ _) as [cnt' A'].
      apply IH with (1 := K'). simpl. lia.
Qed.
Lemma good_before R u v : good R -> E u v -> In v R -> before (rev R) u v.
Proof.
  intros HG Hu Hv. apply in_split in Hv as (l1 & l2 & ->).
  assert (X : In u l2).
  { clear - HG Hu. induction l1 as [|a l1 IH]; cbn [app good] in HG; [apply HG; auto|]. apply IH. tauto. }
  apply in_split in X as (l3 & l4 & ->). exists (rev l4), (rev l3), (rev l1).
  rewrite rev_app_distr. cbn [rev]. rewrite rev_app_distr. cbn [rev]. rewrite <- !app_assoc. auto.
Qed.
Lemma topological_sort_ok :
  match topological_sort g with
  | None => False
  | Some (Some l) => Permutation l (verts g) /\ forall u v, E u v -> before l u v
  | Some None => exists v, clos_trans nat E v v
  end.
Proof.
  unfold topological_sort.
  destruct (kahn_ok (length (verts g)) _ _ _ kinv_init ltac:(simpl; lia)) as (R & -> & cnt & [I1 I2 I3 I4 I5]).
  cbn [app] in *. rewrite rev_length.
  pose proof (NoDup_incl_length I1 I2) as HL.
  destruct (Nat.eqb_spec (length R) (length (verts g))) as [EL|NL].
  - assert (P : Permutation R (verts g)).
    { apply NoDup_Permutation_bis; auto. lia. }
    split.
    + rewrite <- Permutation_rev. auto.
    + intros u v Hu. apply good_before; auto. apply (Permutation_in _ (Permutation_sym P)).
      apply (wf_incl g W u v Hu).
  - set (S := filter (fun v => negb (set_count v R)) (verts g)).
    assert (SI : forall v, In v S <-> In v (verts g) /\ ~ In v R).
    { intros v. unfold S. rewrite filter_In. rewrite negb_true_iff, set_count_false. tauto. }
    apply (pred_cycle E S).
    + intros HS. apply NL. assert (incl (verts g) R).
      { intros v Hv. destruct (in_dec Nat.eq_dec v R) as [|N]; auto.
        assert (In v S) by (apply SI; auto). rewrite HS in H. destruct H. }
      pose proof (NoDup_incl_length (sorted_nodup _ (wf_verts g W)) H). lia.
    + intros v Hv. apply SI in Hv as [Hv Hn].
      destruct (filter (fun u => negb (set_count u R)) (inE g v)) as [|u l] eqn:F.
      * exfalso. apply Hn. apply I4; auto. rewrite I3 by auto. unfold pending. rewrite F. auto.
      * assert (X : In u (u :: l)) by (left; auto). rewrite <- F in X. apply filter_In in X as [X1 X2].
        apply negb_true_iff, set_count_false in X2. apply (wf_sym g W) in X1. exists u. split; auto.
        apply SI. split; auto. apply (wf_incl g W u v X1).
Qed.
End Kahn.
