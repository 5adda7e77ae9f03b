(** Proofs about the graph model: level sort and critical path. *)
From Coq Require Import ZArith List Bool Arith Lia Sorted Permutation Relations.
From Verif Require Import Words Graph_Model Graph_Proofs.
Import ListNotations.
Open Scope nat_scope.

(** ** levels *)
Definition zmax (f : nat -> Z) (l : list nat) : Z := fold_left (fun m e => Z.max m (f e)) l (-1)%Z.
Lemma fold_zmax (f : nat -> Z) l : forall a, let r := fold_left (fun m e => Z.max m (f e)) l a in
  (a <= r)%Z /\ (forall x, In x l -> f x <= r)%Z /\ (r = a \/ exists x, In x l /\ r = f x).
Proof.
  induction l as [|y l IH]; intros a; cbn [fold_left In]; [intuition lia|].
  destruct (IH (Z.max a (f y))) as (H1 & H2 & H3). cbn zeta in *.
  set (r := fold_left _ l _) in *. split; [lia|]. split.
  - intros x [->|Hx]; [lia|auto].
  - destruct H3 as [H3|(x & Hx & E)].
    + destruct (Z.max_spec a (f y)) as [[_ M]|[_ M]]; rewrite M in H3; [right; exists y; auto|left; auto].
    + right. exists x. auto.
Qed.
Lemma fold_zmax_ext (f f' : nat -> Z) l a : (forall x, In x l -> f x = f' x) ->
  fold_left (fun m e => Z.max m (f e)) l a = fold_left (fun m e => Z.max m (f' e)) l a.
Proof.
  revert a. induction l as [|y l IH]; intros a H; cbn [fold_left]; auto.
  rewrite H by (left; auto). apply IH. intros; apply H; right; auto.
Qed.

Section Levels.
Variable g : graph.
Hypothesis W : wf g.
Fixpoint rgood (l done : list nat) : Prop :=
  match l with
  | [] => True
  | v :: r => ~ In v done /\ (forall s, In s (outE g v) -> In s done) /\ rgood r (v :: done)
  end.
Definition linv (lv : nat -> Z) (mx : Z) (done : list nat) : Prop :=
  (forall v, In v done -> lv v = 1 + zmax lv (outE g v))%Z /\
  (forall v s, In v done -> In s (outE g v) -> In s done) /\
  (forall v, In v done -> 0 <= lv v <= mx)%Z /\ (0 <= mx)%Z /\
  (mx = 0%Z \/ exists v, In v done /\ lv v = mx).

Lemma assign_levels_ok l : forall lv mx done, rgood l done -> linv lv mx done ->
  let '(lv', mx') := fold_left (assign_level g) l (lv, mx) in
  linv lv' mx' (rev l ++ done).
Proof.
  induction l as [|v l IH]; intros lv mx done HG HI; cbn [fold_left]; auto.
  destruct HG as (Hn & Hs & HG). destruct HI as (I1 & I2 & I3 & I4 & I5).
  cbn [assign_level]. rewrite edges_out_eq by auto. fold (zmax lv (outE g v)).
  set (x := (1 + zmax lv (outE g v))%Z).
  assert (X0 : (0 <= x)%Z) by (unfold x; destruct (fold_zmax lv (outE g v) (-1)%Z); unfold zmax; lia).
  assert (EX : forall u, (forall s, In s (outE g u) -> In s done) -> zmax (upd lv v x) (outE g u) = zmax lv (outE g u)).
  { intros u Hu. apply fold_zmax_ext. intros s Hin. apply upd_other. intros ->. apply Hn. auto. }
  cbn [rev]. rewrite <- app_assoc. cbn [app]. apply IH; auto. split; [|split; [|split; [|split]]].
  - intros u [<-|Hu].
    + rewrite upd_same, EX; auto.
    + rewrite upd_other by (intros ->; auto). rewrite EX; [auto|]. intros s Hin. eapply I2; eauto.
  - intros u s [<-|Hu] Hin; [right; auto|right; eapply I2; eauto].
  - intros u [<-|Hu].
    + rewrite upd_same. lia.
    + rewrite upd_other by (intros ->; auto). specialize (I3 u Hu). lia.
  - lia.
  - destruct (Z.max_spec x mx) as [[L M]|[L M]]; rewrite M.
    + destruct I5 as [->|(u & Hu & E)]; [auto|]. right. exists u. split; [right; auto|].
      rewrite upd_other by (intros ->; auto). auto.
    + right. exists v. split; [left; auto|]. apply upd_same.
Qed.
Lemma before_rgood l : NoDup l -> (forall u v, In v (outE g u) -> In u l -> before l u v) -> rgood (rev l) [].
Proof.
  intros ND HB.
  assert (X : forall l2 l1, l = l1 ++ l2 -> rgood (rev l1) l2).
  { intros l2 l1. revert l2. induction l1 as [|v l1 IH] using rev_ind; intros l2 E; [exact I|].
    rewrite rev_app_distr. cbn [rev app rgood]. rewrite <- app_assoc in E. cbn [app] in E.
    split; [|split].
    - rewrite E in ND. apply NoDup_remove_2 in ND. rewrite in_app_iff in ND. tauto.
    - intros s Hs. assert (B : before l v s) by (apply HB; auto; rewrite E; apply in_app_iff; right; left; auto).
      apply before_pos in B; auto. rewrite E in B at 1. rewrite pos_split in B.
      2:{ rewrite E in ND. apply NoDup_remove_2 in ND. rewrite in_app_iff in ND. tauto. }
      destruct (HB v s Hs) as (a & b & c & E2).
      { rewrite E. apply in_app_iff. right; left; auto. }
      assert (Hin : In s l) by (rewrite E2; rewrite in_app_iff; right; right; rewrite in_app_iff; right; left; auto).
      rewrite E in Hin. apply in_app_iff in Hin as [Hin|[<-|Hin]]; auto.
      + exfalso. apply in_split in Hin as (p & r & ->). rewrite E in B. rewrite <- app_assoc in B. cbn [app] in B.
        rewrite pos_split in B.
        * rewrite app_length in B. simpl in B. lia.
        * rewrite E, <- app_assoc in ND. cbn [app] in ND. apply NoDup_remove_2 in ND. rewrite in_app_iff in ND. tauto.
      + exfalso. rewrite E in B. rewrite pos_split in B; [lia|].
        rewrite E in ND. apply NoDup_remove_2 in ND. rewrite in_app_iff in ND. tauto.
    - apply IH. auto. }
  apply X. rewrite app_nil_r. auto.
Qed.
Lemma levels_ok order : Permutation order (verts g) -> (forall u v, In v (outE g u) -> before order u v) ->
  exists lv mx, fold_left (assign_level g) (rev order) (fun _ => 0%Z, 0%Z) = (lv, mx) /\
  (forall v, In v (verts g) -> lv v = 1 + zmax lv (outE g v))%Z /\
  (forall v, In v (verts g) -> 0 <= lv v <= mx)%Z /\ (0 <= mx)%Z /\
  (verts g <> [] -> exists v, In v (verts g) /\ lv v = mx).
Proof.
  intros P HB.
  assert (ND : NoDup order) by (eapply Permutation_NoDup; [apply Permutation_sym; eauto|apply sorted_nodup, (wf_verts g W)]).
  pose proof (before_rgood order ND (fun u v H _ => HB u v H)) as HG.
  pose proof (assign_levels_ok (rev order) (fun _ => 0%Z) 0%Z [] HG) as HL.
  destruct (fold_left _ _ _) as [lv mx]. exists lv, mx. split; auto.
  rewrite rev_involutive, app_nil_r in HL.
  destruct HL as (I1 & I2 & I3 & I4 & I5).
  { split; [|split; [|split; [|split]]]; try (intros; simpl in *; tauto); lia || auto. }
  assert (PI : forall v, In v (verts g) <-> In v order).
  { intros v. split; apply Permutation_in; auto. apply Permutation_sym; auto. }
  split; [intros v Hv; apply I1, PI; auto|]. split; [intros v Hv; apply I3, PI; auto|]. split; auto.
  intros Hne. destruct I5 as [->|(v & Hv & E)]; [|exists v; rewrite PI; auto].
  destruct (verts g) as [|a l] eqn:EV; [congruence|]. exists a. split; [left; auto|].
  assert (In a order) by (apply PI; left; auto). specialize (I3 a H). lia.
Qed.
End Levels.

(** ** buckets *)
Lemma bucket_perm (f : nat -> nat) l n :
  Permutation (concat (map (fun i => filter (fun v => f v =? i) l) (seq 0 n))) (filter (fun v => f v <? n) l).
Proof.
  induction n as [|n IH].
  - simpl. rewrite (filter_ext _ (fun _ => false)); [induction l; auto|]. intros a. apply Nat.ltb_ge. lia.
  - rewrite seq_S, map_app, concat_app, IH. cbn [map concat plus]. rewrite app_nil_r.
    clear IH. induction l as [|a l IH]; auto. cbn [filter].
    destruct (Nat.ltb_spec (f a) n), (Nat.eqb_spec (f a) n), (Nat.ltb_spec (f a) (S n)); try lia; cbn [app]; auto.
    rewrite <- Permutation_middle. auto.
Qed.
Lemma bucket_levels_ok g lv mx : (0 <= mx)%Z -> (forall v, In v (verts g) -> 0 <= lv v <= mx)%Z ->
  let L := bucket_levels g lv mx in
  length L = Z.to_nat (mx + 1) /\ Permutation (concat L) (verts g) /\
  (forall i v, In v (nth i L []) <-> In v (verts g) /\ Z.of_nat i = (mx - lv v)%Z).
Proof.
  intros H0 H. cbn zeta. unfold bucket_levels. split; [rewrite map_length, seq_length; auto|]. split.
  - rewrite (map_ext _ (fun i => filter (fun v => Z.to_nat (mx - lv v) =? i) (verts g))).
    + rewrite bucket_perm. rewrite (filter_ext_in _ (fun _ => true)).
      * induction (verts g); auto. simpl. constructor. apply IHl. intros; apply H; right; auto.
      * intros v Hv. specialize (H v Hv). apply Nat.ltb_lt. lia.
    + intros i. apply filter_ext_in. intros v Hv. specialize (H v Hv).
      destruct (Z.eqb_spec (mx - lv v) (Z.of_nat i)), (Nat.eqb_spec (Z.to_nat (mx - lv v)) i); lia.
  - intros i v. set (F := fun i => filter (fun v => (mx - lv v =? Z.of_nat i)%Z) (verts g)).
    destruct (Nat.lt_ge_cases i (Z.to_nat (mx + 1))) as [Hi|Hi].
    + rewrite (nth_indep _ [] (F 0)) by (rewrite map_length, seq_length; auto).
      rewrite map_nth, seq_nth by auto. unfold F. rewrite filter_In, Z.eqb_eq. simpl. intuition lia.
    + rewrite nth_overflow by (rewrite map_length, seq_length; auto). cbn [In]. split; [tauto|].
      intros [Hv E]. specialize (H v Hv). lia.
Qed.
