(** Properties C38-C42, C52, C58 and C59: the graph utilities. *)
From Coq Require Import ZArith List Bool Arith Lia Sorted Permutation Relations.
From Verif Require Import Words Graph_Model Graph_Proofs Graph2_Proofs Graph3_Proofs Graph4_Proofs
  Graph5_Proofs Graph6_Proofs Graph7_Proofs.
Import ListNotations.
Open Scope nat_scope.

(** ** Specification vocabulary *)

(** graphs obtained through the public interface *)
Inductive built : graph -> Prop :=
| built_empty : built empty_graph
| built_vertex v g : built g -> built (add_vertex v g)
| built_edge s t g : built g -> built (snd (add_edge s t g))
| built_contract s t g : built g -> built (snd (contract_edge s t g)).
Definition vertex (g : graph) (v : nat) : Prop := In v (verts g).
Definition edge (g : graph) (u v : nat) : Prop := has_edge g u v = true.
(** reachability through one or more edges; through zero or more edges *)
Definition reaches (g : graph) : nat -> nat -> Prop := clos_trans nat (edge g).
Definition reachable (g : graph) : nat -> nat -> Prop := clos_refl_trans nat (edge g).
Definition cyclic (g : graph) : Prop := exists v, reaches g v v.
(** a list of vertices each joined to the next by an edge *)
Definition is_walk (g : graph) (l : list nat) : Prop := l <> [] /\ Sorted (edge g) l.
Definition walk_between (g : graph) (u v : nat) (l : list nat) : Prop :=
  is_walk g l /\ hd 0 l = u /\ last l 0 = v.
(** [occurs_before l u v] is [before]: u stands somewhere before v in the list *)
Definition occurs_before (l : list nat) (u v : nat) : Prop := exists l1 l2 l3, l = l1 ++ u :: l2 ++ v :: l3.

Lemma built_wf g : built g -> wf g.
Proof. induction 1; [apply wf_empty|apply wf_add_vertex|apply wf_add_edge|apply wf_contract]; auto. Qed.
Lemma edge_out g u v : wf g -> (edge g u v <-> In v (outE g u)).
Proof. apply has_edge_In. Qed.
Lemma ct_iff (R R' : nat -> nat -> Prop) : (forall u v, R u v <-> R' u v) ->
  forall u v, clos_trans nat R u v <-> clos_trans nat R' u v.
Proof.
  intros H u v. split; (induction 1 as [? ? X|? ? ? _ A _ B]; [apply t_step, H, X|exact (t_trans _ _ _ _ _ A B)]).
Qed.
Lemma rt_iff (R R' : nat -> nat -> Prop) : (forall u v, R u v <-> R' u v) ->
  forall u v, clos_refl_trans nat R u v <-> clos_refl_trans nat R' u v.
Proof.
  intros H u v. split; (induction 1 as [? ? X| |? ? ? _ A _ B]; [apply rt_step, H, X|apply rt_refl|exact (rt_trans _ _ _ _ _ A B)]).
Qed.
Lemma sorted_iff (R R' : nat -> nat -> Prop) l : (forall u v, R u v <-> R' u v) -> Sorted R l -> Sorted R' l.
Proof.
  intros H. induction 1 as [|a l HS IH HH]; constructor; auto. destruct HH; constructor. apply H; auto.
Qed.

(** ** the interface itself *)
Theorem C38_edges g s t u v : built g ->
  (edge (snd (add_edge s t g)) u v <-> edge g u v \/ (u = s /\ v = t /\ vertex g s /\ vertex g t)) /\
  (fst (add_edge s t g) = true <-> vertex g s /\ vertex g t).
Proof.
  intros HB. pose proof (built_wf g HB) as W. pose proof (wf_add_edge s t g W) as W'.
  rewrite !edge_out by auto. unfold add_edge, vertex.
  destruct (negb _ || negb _) eqn:H.
  - assert (~ (In s (verts g) /\ In t (verts g))).
    { intros [A B]. apply set_count_In in A, B. rewrite A, B in H. discriminate. }
    cbn [fst snd]. intuition congruence.
  - apply orb_false_iff in H as [H1 H2]. apply negb_false_iff in H1, H2. apply set_count_In in H1, H2.
    cbn [fst snd outE]. split; [|tauto]. unfold upd. destruct (Nat.eqb_spec u s) as [->|Hu].
    + rewrite set_insert_In. intuition.
    + intuition congruence.
Qed.
Print Assumptions C38_edges.

(** ** C38 *)
Theorem C38_topological_sort g : built g ->
  exists r, topological_sort g = Some r /\
  match r with
  | Some l => Permutation l (verts g) /\ forall u v, edge g u v -> occurs_before l u v
  | None => cyclic g
  end.
Proof.
  intros HB. pose proof (built_wf g HB) as W. pose proof (topological_sort_ok g W) as H.
  destruct (topological_sort g) as [[l|]|]; [| |destruct H].
  - eexists. split; [reflexivity|]. destruct H as [H1 H2]. split; auto.
    intros u v He. apply H2. apply edge_out; auto.
  - eexists. split; [reflexivity|]. destruct H as (v & Hv). exists v. revert Hv. apply ct_iff.
    intros. apply edge_out; auto.
Qed.
Theorem C38_fails_iff_cyclic g : built g -> (topological_sort g = Some None <-> cyclic g).
Proof.
  intros HB. pose proof (built_wf g HB) as W. destruct (C38_topological_sort g HB) as (r & E & H).
  rewrite E. destruct r as [l|]; split; auto; [discriminate|].
  intros (v & Hv). exfalso. destruct H as [P HF].
  assert (ND : NoDup l) by (eapply Permutation_NoDup; [apply Permutation_sym; eauto|apply sorted_nodup, (wf_verts g W)]).
  exact (forward_acyclic (edge g) l ND HF v Hv).
Qed.
Print Assumptions C38_topological_sort.
Print Assumptions C38_fails_iff_cyclic.

Definition make (vs : list nat) (es : list (nat * nat)) : graph :=
  fold_left (fun g e => snd (add_edge (fst e) (snd e) g)) es
    (fold_left (fun g v => add_vertex v g) vs empty_graph).
Lemma make_built vs es : built (make vs es).
Proof.
  unfold make.
  assert (H : built (fold_left (fun g v => add_vertex v g) vs empty_graph)).
  { generalize empty_graph, built_empty. induction vs; intros; simpl; auto. apply IHvs. constructor. auto. }
  revert H. generalize (fold_left (fun g v => add_vertex v g) vs empty_graph).
  induction es; intros; simpl; auto. apply IHes. constructor. auto.
Qed.
Example C38_nonvacuous : built (make [0;1;2;3;4] [(0,1);(1,2);(0,3);(3,2);(2,4)]) /\
  topological_sort (make [0;1;2;3;4] [(0,1);(1,2);(0,3);(3,2);(2,4)]) = Some (Some [0;3;1;2;4]) /\
  topological_sort (make [0;1;2] [(0,1);(1,2);(2,1)]) = Some None.
Proof. split; [apply make_built|]. split; reflexivity. Qed.

(** ** C39 *)
Lemma sort_by_levels_ok g : wf g -> match sort_by_levels g with
  | None => False
  | Some None => exists v, clos_trans nat (fun u v => In v (outE g u)) v v
  | Some (Some L) => exists lv mx, L = bucket_levels g lv mx /\
      (forall v, In v (verts g) -> lv v = 1 + zmax lv (outE g v))%Z /\
      (forall v, In v (verts g) -> 0 <= lv v <= mx)%Z /\ (0 <= mx)%Z /\
      (verts g <> [] -> exists v, In v (verts g) /\ lv v = mx)
  end.
Proof.
  intros W. unfold sort_by_levels. pose proof (topological_sort_ok g W) as H.
  destruct (topological_sort g) as [[l|]|]; auto. destruct H as [P HB].
  destruct (levels_ok g W l P HB) as (lv & mx & E & H1 & H2 & H3 & H4). rewrite E.
  exists lv, mx. auto.
Qed.
Lemma level_edge g lv u v : wf g -> (forall v, In v (verts g) -> lv v = 1 + zmax lv (outE g v))%Z ->
  In v (outE g u) -> (lv v < lv u)%Z.
Proof.
  intros W H Hv. rewrite (H u) by apply (wf_incl g W u v Hv).
  destruct (fold_zmax lv (outE g u) (-1)%Z) as (_ & X & _). specialize (X v Hv). unfold zmax. lia.
Qed.
(** every vertex is placed once, strictly after its predecessors *)
Theorem C39_levels g : built g ->
  exists r, sort_by_levels g = Some r /\
  match r with
  | Some L => Permutation (concat L) (verts g) /\
      forall i j u v, In u (nth i L []) -> In v (nth j L []) -> edge g u v -> i < j
  | None => cyclic g
  end.
Proof.
  intros HB. pose proof (built_wf g HB) as W. pose proof (sort_by_levels_ok g W) as H.
  destruct (sort_by_levels g) as [[L|]|]; [| |destruct H]; (eexists; split; [reflexivity|]).
  - destruct H as (lv & mx & -> & H1 & H2 & H3 & H4).
    destruct (bucket_levels_ok g lv mx H3 H2) as (_ & P & M). cbn zeta in *. split; auto.
    intros i j u v Hu Hv He. apply M in Hu as [_ Hu], Hv as [_ Hv]. apply edge_out in He; auto.
    pose proof (level_edge g lv u v W H1 He). lia.
  - destruct H as (v & Hv). exists v. revert Hv. apply ct_iff. intros. apply edge_out; auto.
Qed.
(** the level counted from the last one is the length of the longest walk leaving the vertex,
    so the number of levels is as small as possible *)
Theorem C39_level_is_longest_walk g L i v : built g -> sort_by_levels g = Some (Some L) ->
  In v (nth i L []) ->
  (exists l, is_walk g l /\ hd 0 l = v /\ length l + i = length L) /\
  (forall l, is_walk g l -> hd 0 l = v -> length l + i <= length L).
Proof.
  intros HB HS Hv. pose proof (built_wf g HB) as W. pose proof (sort_by_levels_ok g W) as H. rewrite HS in H.
  destruct H as (lv & mx & -> & H1 & H2 & H3 & H4).
  destruct (bucket_levels_ok g lv mx H3 H2) as (LL & P & M). cbn zeta in *. rewrite LL.
  apply M in Hv as [Vv Hi]. pose proof (H2 v Vv) as B. split.
  - assert (X : forall k v, In v (verts g) -> lv v = Z.of_nat k -> exists l, Sorted (edge g) (v :: l) /\ length l = k).
    { induction k as [|k IH]; intros u Hu El.
      - exists []. split; repeat constructor.
      - rewrite H1 in El by auto. destruct (fold_zmax lv (outE g u) (-1)%Z) as (_ & _ & [Z|(s & Hs & Z)]); unfold zmax in El; [lia|].
        destruct (IH s) as (l & Sl & Ll).
        + apply (wf_incl g W u s Hs).
        + lia.
        + exists (s :: l). split; [|simpl; lia]. constructor; auto. constructor. apply edge_out; auto. }
    destruct (X (Z.to_nat (lv v)) v Vv ltac:(lia)) as (l & Sl & Ll). exists (v :: l).
    split; [split; [discriminate|auto]|]. split; auto. simpl. lia.
  - assert (X : forall l v, In v (verts g) -> Sorted (edge g) (v :: l) -> (Z.of_nat (length l) <= lv v)%Z).
    { induction l as [|a l IH]; intros u Hu Sl; [specialize (H2 u Hu); simpl; lia|].
      inversion Sl as [|? ? S1 S2]; subst. inversion S2 as [|? ? He]; subst. apply edge_out in He; auto.
      pose proof (level_edge g lv u a W H1 He). specialize (IH a (proj2 (wf_incl g W u a He)) S1). simpl length. lia. }
    intros l [Hne Sl] Hh. destruct l as [|a l]; [congruence|]. cbn [hd] in Hh. subst a.
    specialize (X l v Vv Sl). simpl. lia.
Qed.
(** The comment in the source describes the level as the longest path from an input; the code counts
    from the outputs, which differs: vertex 3 has no predecessor but is not in the first level. *)
Theorem C39_level_from_inputs_refuted : exists g L v, built g /\ sort_by_levels g = Some (Some L) /\
  vertex g v /\ (forall u, ~ edge g u v) /\ ~ In v (nth 0 L []).
Proof.
  exists (make [0;1;2;3] [(0,1);(1,2);(3,2)]), [[0];[1;3];[2]], 3. split; [apply make_built|]. split; [reflexivity|].
  split; [vm_compute; tauto|]. split; [|vm_compute; intuition lia].
  intros u Hu. apply edge_out in Hu; [|apply built_wf, make_built].
  apply (wf_sym _ (built_wf _ (make_built _ _))) in Hu. exact Hu.
Qed.
Print Assumptions C39_levels.
Print Assumptions C39_level_is_longest_walk.
Print Assumptions C39_level_from_inputs_refuted.
Example C39_nonvacuous : built (make [0;1;2;3;4] [(0,1);(1,2);(0,3);(3,2);(2,4)]) /\
  sort_by_levels (make [0;1;2;3;4] [(0,1);(1,2);(0,3);(3,2);(2,4)]) = Some (Some [[0];[1;3];[2];[4]]).
Proof. split; [apply make_built|reflexivity]. Qed.

(** ** C52: the approximate critical path *)
Theorem C52_critical_path g : built g ->
  (cyclic g -> approximate_critical_path g = Some None) /\
  (~ cyclic g -> exists p, approximate_critical_path g = Some (Some p) /\
     NoDup p /\ (forall v, In v p -> vertex g v) /\
     (forall u v, edge g u v -> In u p -> In v p -> occurs_before p u v) /\
     (3 <= length (verts g) ->
        (forall u, ~ edge g (last p 0) u) /\ p <> [] /\
        forall v, vertex g v -> (exists u, edge g u v) -> (exists u, edge g v u) -> In v p)).
Proof.
  intros HB. pose proof (built_wf g HB) as W. destruct (C38_topological_sort g HB) as (r & E & H).
  pose proof (proj2 (C38_fails_iff_cyclic g HB)) as HC.
  split; [intros Hc; unfold approximate_critical_path; rewrite (HC Hc); auto|].
  intros Hac. unfold approximate_critical_path. rewrite E. destruct r as [r|]; [|tauto]. destruct H as [P HF].
  assert (ND : NoDup r) by (eapply Permutation_NoDup; [apply Permutation_sym; eauto|apply sorted_nodup, (wf_verts g W)]).
  assert (PI : forall v, In v r <-> vertex g v).
  { intros v. split; apply Permutation_in; auto. apply Permutation_sym; auto. }
  assert (LR : length r = length (verts g)) by (apply Permutation_length; auto).
  destruct (Nat.ltb_spec (length r) 3) as [Hlt|Hge].
  - exists r. split; auto. split; auto. split; [intros v; apply PI|]. split; [intros u v He _ _; auto|]. lia.
  - destruct r as [|x r]; [simpl in Hge; lia|].
    destruct (exists_last (l := r)) as (m & y & ->); [intros ->; simpl in Hge; lia|].
    assert (Ly : last (x :: m ++ [y]) 0 = y).
    { change (x :: m ++ [y]) with ((x :: m) ++ [y]). apply last_last. }
    rewrite Ly. cbn [hd tl]. rewrite removelast_last.
    assert (PY : pos y (x :: m ++ [y]) = S (length m)).
    { change (x :: m ++ [y]) with ((x :: m) ++ y :: []). rewrite pos_split; auto.
      change (x :: m ++ [y]) with ((x :: m) ++ y :: []) in ND. apply NoDup_remove_2 in ND. rewrite app_nil_r in ND. auto. }
    assert (PX : pos x (x :: m ++ [y]) = 0) by (simpl; rewrite Nat.eqb_refl; auto).
    assert (PB : forall v, In v (x :: m ++ [y]) -> pos v (x :: m ++ [y]) <= S (length m)).
    { intros v Hv. apply in_split in Hv as (a & b & Eab). rewrite Eab in ND |- *. rewrite pos_split.
      - assert (length (x :: m ++ [y]) = length (a ++ v :: b)) by (rewrite Eab; auto).
        simpl in H. rewrite !app_length in H. simpl in H. lia.
      - apply NoDup_remove_2 in ND. rewrite in_app_iff in ND. tauto. }
    assert (Xsrc : forall u, ~ edge g u x).
    { intros u Hu. apply HF in Hu. apply before_pos in Hu; auto. lia. }
    assert (Ysnk : forall u, ~ edge g y u).
    { intros u Hu. pose proof (HF _ _ Hu) as B. apply before_pos in B; auto.
      assert (In u (x :: m ++ [y])).
      { apply PI. apply edge_out in Hu; auto. apply (wf_incl g W y u Hu). }
      apply PB in H. lia. }
    assert (SRC : forall v, In v (sources g) <-> vertex g v /\ forall u, ~ edge g u v).
    { intros v. unfold sources. rewrite filter_In, Nat.eqb_eq. unfold vertex. split; intros [A B]; split; auto.
      - intros u Hu. apply edge_out in Hu; auto. apply (wf_sym g W) in Hu. apply length_zero_iff_nil in B. rewrite B in Hu. auto.
      - apply length_zero_iff_nil. destruct (inE g v) as [|u l] eqn:F; auto. destruct (B u).
        apply edge_out; auto. apply (wf_sym g W). rewrite F. left; auto. }
    assert (SNK : forall v, In v (sinks g) <-> vertex g v /\ forall u, ~ edge g v u).
    { intros v. unfold sinks. rewrite filter_In, Nat.eqb_eq. unfold vertex. split; intros [A B]; split; auto.
      - intros u Hu. apply edge_out in Hu; auto. apply length_zero_iff_nil in B. rewrite B in Hu. auto.
      - apply length_zero_iff_nil. destruct (outE g v) as [|u l] eqn:F; auto. destruct (B u).
        apply edge_out; auto. rewrite F. left; auto. }
    replace (set_count x (sources g)) with true
      by (symmetry; apply set_count_In, SRC; split; auto; apply PI; left; auto).
    replace (set_count y (sinks g)) with true
      by (symmetry; apply set_count_In, SNK; split; auto; apply PI; right; apply in_app_iff; right; left; auto).
    cbn [negb]. eexists. split; [reflexivity|].
    set (F := fun v => negb (set_count v (sources g)) && negb (set_count v (sinks g))).
    assert (SUB : forall l, (forall u v, occurs_before l u v -> F u = true -> F v = true -> occurs_before (filter F l) u v)).
    { intros l u v (a & b & c & ->) Fu Fv. exists (filter F a), (filter F b), (filter F c).
      rewrite filter_app. cbn [filter]. rewrite Fu, filter_app. cbn [filter]. rewrite Fv. auto. }
    assert (NDm : NoDup (m ++ [y])) by (inversion ND; auto).
    split; [|split; [|split]].
    + apply NoDup_remove_1 in NDm as NDm'. rewrite app_nil_r in NDm'. apply NoDup_remove_2 in NDm. rewrite app_nil_r in NDm.
      eapply Permutation_NoDup; [apply Permutation_cons_append|]. constructor; [|apply NoDup_filter; auto].
      rewrite filter_In. tauto.
    + intros v Hv. apply PI. right. apply in_app_iff in Hv as [Hv|[<-|[]]]; apply in_app_iff; [left|right; left; auto].
      apply filter_In in Hv. tauto.
    + intros u v He Hu Hv. apply in_app_iff in Hu as [Hu|[<-|[]]]; [|destruct (Ysnk v He)].
      apply in_app_iff in Hv as [Hv|[<-|[]]].
      * apply filter_In in Hu as [Hu Fu], Hv as [Hv Fv].
        assert (OBm : occurs_before m u v).
        { pose proof (HF u v He) as B. apply before_pos in B; auto.
          apply in_split in Hu as (a & b & Eab). rewrite Eab in *.
          assert (Hv' := Hv). apply in_app_iff in Hv' as [Hv'|[Hv'|Hv']].
          - exfalso. apply in_split in Hv' as (c & d & ->).
            assert (E1 : x :: ((c ++ v :: d) ++ u :: b) ++ [y] = (x :: c) ++ v :: (d ++ u :: b ++ [y])).
            { cbn [app]. repeat (rewrite <- app_assoc; cbn [app]). auto. }
            assert (E2 : x :: ((c ++ v :: d) ++ u :: b) ++ [y] = (x :: c ++ v :: d) ++ u :: (b ++ [y])).
            { cbn [app]. repeat (rewrite <- app_assoc; cbn [app]). auto. }
            rewrite E1 in B at 2. rewrite E2 in B. rewrite !pos_split in B.
            + cbn [length app] in B. rewrite app_length in B. simpl in B. lia.
            + rewrite E1 in ND. apply NoDup_remove_2 in ND. rewrite in_app_iff in ND. tauto.
            + rewrite E2 in ND. apply NoDup_remove_2 in ND. rewrite in_app_iff in ND. tauto.
          - subst v. lia.
          - apply in_split in Hv' as (c & d & ->). exists a, c, d. auto. }
        destruct (SUB m u v OBm Fu Fv) as (a & b & c & Eab). rewrite Eab. exists a, b, (c ++ [y]).
        rewrite <- app_assoc. cbn [app]. rewrite <- app_assoc. auto.
      * apply in_split in Hu as (a & b & ->). exists a, b, []. rewrite <- app_assoc. auto.
    + intros _. rewrite last_last. split; auto. split; [destruct (filter F m); discriminate|].
      intros v Vv (u & Hu) (u' & Hu'). apply in_app_iff.
      assert (Fv : F v = true).
      { unfold F. apply andb_true_iff. rewrite !negb_true_iff, !set_count_false, SRC, SNK. split; intros [_ X]; [apply (X u Hu)|apply (X u' Hu')]. }
      apply PI in Vv as [<-|Vv]; [destruct (Xsrc u Hu)|]. apply in_app_iff in Vv as [Vv|Vv]; auto.
      left. apply filter_In. auto.
Qed.
Print Assumptions C52_critical_path.
Example C52_nonvacuous : built (make [0;1;2;3;4] [(0,1);(1,2);(0,3);(3,2);(2,4)]) /\
  approximate_critical_path (make [0;1;2;3;4] [(0,1);(1,2);(0,3);(3,2);(2,4)]) = Some (Some [3;1;2;4]).
Proof. split; [apply make_built|reflexivity]. Qed.

(** ** C40 *)
(** The search itself decides reachability: failure exactly when no walk exists. *)
Theorem C40_fails_iff_unreachable g start end_ : built g ->
  (Z.of_nat (length (verts g)) < 2 ^ 64 - 2)%Z -> vertex g start -> vertex g end_ ->
  (reachable g start end_ -> forall fuel dflt, shortest_path fuel dflt g (unit_weight g) start end_ <> Some None) /\
  (~ reachable g start end_ -> forall fuel dflt, shortest_path fuel dflt g (unit_weight g) start end_ = Some None).
Proof.
  intros HB Hs Vs Ve. pose proof (built_wf g HB) as W.
  destruct (search_ok g W ltac:(unfold umax; lia) start end_ Vs Ve) as (s & E & D).
  assert (R : reachable g start end_ <-> clos_refl_trans nat (fun u v => In v (outE g u)) start end_).
  { apply rt_iff. intros. apply edge_out; auto. }
  unfold shortest_path. rewrite E. destruct (Z.eqb_spec (dist s end_) umax) as [Eu|Nu].
  - split; [|auto]. intros H. apply D in Eu. tauto.
  - split.
    + intros _ fuel dflt. destruct (rebuild _ _ _ _ _); discriminate.
    + intros H. exfalso. apply Nu, D. tauto.
Qed.
(** When no vertex has two successors the result is a shortest path. *)
Theorem C40_shortest_path_partial g start end_ fuel dflt : built g ->
  (Z.of_nat (length (verts g)) < 2 ^ 64 - 2)%Z -> vertex g start -> vertex g end_ ->
  (forall u v v', edge g u v -> edge g u v' -> v = v') ->
  reachable g start end_ -> length (verts g) <= fuel ->
  exists p, shortest_path fuel dflt g (unit_weight g) start end_ = Some (Some p) /\
    walk_between g start end_ p /\ forall w, walk_between g start end_ w -> length p <= length w.
Proof.
  intros HB Hs Vs Ve HU HR Hf. pose proof (built_wf g HB) as W.
  assert (ED : forall u v, edge g u v <-> In v (outE g u)) by (intros; apply edge_out; auto).
  destruct (chain_path g W ltac:(unfold umax; lia) start end_ Vs) with (dflt := dflt) (f := fuel) as (p & E & H1 & H2 & H3 & H4); auto.
  - intros u. pose proof (sorted_nodup _ (wf_out g W u)) as ND.
    destruct (outE g u) as [|a [|b l]] eqn:F; simpl; try lia. exfalso.
    assert (a = b) by (apply (HU u); apply ED; rewrite F; simpl; auto). subst. inversion ND; subst. apply H1. left; auto.
  - revert HR. apply rt_iff. intros. symmetry. apply ED.
  - exists p. split; auto. split.
    + split; auto. split; [|eapply sorted_iff; [|exact H3]; intros; symmetry; apply ED].
      intros ->. unfold shortest_path in E. destruct (search_from _ _ _ _); [|discriminate].
      destruct (_ =? _)%Z; [discriminate|]. destruct fuel; cbn [rebuild] in E.
      * destruct (start =? end_); discriminate.
      * destruct (start =? end_); [discriminate|]. destruct (rebuild _ _ _ _ _); discriminate.
    + intros w [[Nw Sw] [A B]]. apply H4; auto. eapply sorted_iff; [|exact Sw]. auto.
Qed.
(** In general the list returned need not be a path: linkback is keyed by the source of the last
    relaxed edge, and a missing entry reads as the default vertex 0 ... *)
Theorem C40_not_a_path_refuted : exists g start end_ p, built g /\ vertex g start /\ vertex g end_ /\
  (forall fuel, 3 <= fuel -> shortest_path fuel 0 g (unit_weight g) start end_ = Some (Some p)) /\
  reachable g start end_ /\ ~ walk_between g start end_ p.
Proof.
  exists (make [0;1;2;3] [(1,0);(1,2);(0,3)]), 1, 3, [1;2;0;3]. split; [apply make_built|].
  split; [vm_compute; tauto|]. split; [vm_compute; tauto|]. split; [|split].
  - intros [|[|[|fuel]]] H; try lia. vm_compute. destruct fuel; reflexivity.
  - eapply rt_trans; apply rt_step; [instantiate (1 := 0); reflexivity|reflexivity].
  - intros [[_ S] _]. inversion S as [|? ? S1 _]; subst. inversion S1 as [|? ? _ S2]; subst. inversion S2 as [|? ? He]; subst. discriminate He.
Qed.
(** ... it can be a path that is not shortest ... *)
Theorem C40_not_shortest_refuted : exists g start end_ p w, built g /\ vertex g start /\ vertex g end_ /\
  (forall fuel, 3 <= fuel -> shortest_path fuel 0 g (unit_weight g) start end_ = Some (Some p)) /\
  walk_between g start end_ w /\ length w < length p.
Proof.
  exists (make [0;1;2;3] [(1,0);(1,2);(2,0);(0,3)]), 1, 3, [1;2;0;3], [1;0;3]. split; [apply make_built|].
  split; [vm_compute; tauto|]. split; [vm_compute; tauto|]. split; [|split].
  - intros [|[|[|fuel]]] H; try lia. vm_compute. destruct fuel; reflexivity.
  - split; [split; [discriminate|]|split; reflexivity]. repeat constructor.
  - simpl. lia.
Qed.
(** ... or the reconstruction loop never ends. *)
Theorem C40_nontermination_refuted : exists g start end_, built g /\ vertex g start /\ vertex g end_ /\
  reachable g start end_ /\ forall fuel, shortest_path fuel 0 g (unit_weight g) start end_ = None.
Proof.
  exists (make [0;1;2;3] [(0,1);(0,2);(1,3)]), 0, 3. split; [apply make_built|].
  split; [vm_compute; tauto|]. split; [vm_compute; tauto|]. split.
  - eapply rt_trans; apply rt_step; [instantiate (1 := 1); reflexivity|reflexivity].
  - intros fuel. unfold shortest_path.
    set (s := search_from _ _ _ _). vm_compute in s. subst s. cbn iota.
    set (lk := link _).
    assert (X : forall f, rebuild f 0 lk 3 0 = None /\ rebuild f 0 lk 3 2 = None).
    { induction f as [|f [A B]]; [split; reflexivity|]. split; cbn [rebuild].
      - change (0 =? 3) with false. cbn iota. change (lk 0) with (Some 2). cbn iota. rewrite B. auto.
      - change (2 =? 3) with false. cbn iota. change (lk 2) with (@None nat). cbn iota. rewrite A. auto. }
    rewrite (proj1 (X fuel)). reflexivity.
Qed.
Print Assumptions C40_fails_iff_unreachable.
Print Assumptions C40_shortest_path_partial.
Print Assumptions C40_not_a_path_refuted.
Print Assumptions C40_not_shortest_refuted.
Print Assumptions C40_nontermination_refuted.
Example C40_nonvacuous : let g := make [0;1;2;3;4] [(4,2);(2,3);(3,1);(1,4)] in
  built g /\ shortest_path 5 0 g (unit_weight g) 4 1 = Some (Some [4;2;3;1]) /\
  shortest_path 5 0 g (unit_weight g) 4 0 = Some None.
Proof. split; [apply make_built|]. split; reflexivity. Qed.

(** ** C41 *)
Inductive ubuilt : ugraph -> Prop :=
| ubuilt_empty : ubuilt empty_ugraph
| ubuilt_vertex v g : ubuilt g -> ubuilt (u_add_vertex v g)
| ubuilt_edge s t g : ubuilt g -> ubuilt (snd (u_add_edge s t g)).
Definition adjacent (g : ugraph) (u v : nat) : Prop := In v (incident g u).
Definition degree (g : ugraph) (v : nat) : nat := length (incident g v).
Lemma ubuilt_uwf g : ubuilt g -> uwf g.
Proof. induction 1; [apply uwf_empty|apply uwf_add_vertex|apply uwf_add_edge]; auto. Qed.
Theorem C41_edges g s t u v : ubuilt g ->
  (adjacent (snd (u_add_edge s t g)) u v <->
   adjacent g u v \/ (In s (uverts g) /\ In t (uverts g) /\ ((u = s /\ v = t) \/ (u = t /\ v = s)))).
Proof.
  intros HB. pose proof (ubuilt_uwf g HB) as W. pose proof (uwf_add_edge s t g W) as W'.
  unfold adjacent. rewrite !incident_eq by auto. destruct (u_add_edge_In s t g) as [[-> N]|(Hs & Ht & _ & E)].
  - tauto.
  - rewrite E. tauto.
Qed.
(** all vertices (and nothing else) are coloured; adjacent vertices differ; the colour of a vertex is
    at most its degree, so at most maximum degree + 1 colours are used *)
Theorem C41_coloring g : ubuilt g -> exists cs, color g = Some cs /\
  (forall v, In v (uverts g) <-> cs v <> None) /\
  (forall u v, adjacent g u v -> u <> v -> cs u <> cs v) /\
  (forall v c, cs v = Some c -> c <= degree g v).
Proof.
  intros HB. pose proof (ubuilt_uwf g HB) as W. destruct (color_ok g W) as (cs & E & A & B & C).
  exists cs. split; auto. split; [|split].
  - intros v. split.
    + intros Hv. destruct (A v Hv) as (c & -> & _). discriminate.
    + intros H. destruct (in_dec Nat.eq_dec v (uverts g)); auto. rewrite B in H; tauto.
  - intros u v Ha. apply C. unfold adjacent in Ha. rewrite incident_eq in Ha; auto.
  - intros v c Hc. unfold degree. rewrite incident_eq by auto.
    destruct (in_dec Nat.eq_dec v (uverts g)) as [i|n]; [|rewrite (B v n) in Hc; discriminate].
    destruct (A v i) as (c' & Ec & L). rewrite Ec in Hc. injection Hc as <-. auto.
Qed.
Print Assumptions C41_edges.
Print Assumptions C41_coloring.
Definition umake (vs : list nat) (es : list (nat * nat)) : ugraph :=
  fold_left (fun g e => snd (u_add_edge (fst e) (snd e) g)) es
    (fold_left (fun g v => u_add_vertex v g) vs empty_ugraph).
Lemma umake_built vs es : ubuilt (umake vs es).
Proof.
  unfold umake.
  assert (H : ubuilt (fold_left (fun g v => u_add_vertex v g) vs empty_ugraph)).
  { generalize empty_ugraph, ubuilt_empty. induction vs; intros; simpl; auto. apply IHvs. constructor. auto. }
  revert H. generalize (fold_left (fun g v => u_add_vertex v g) vs empty_ugraph).
  induction es; intros; simpl; auto. apply IHes. constructor. auto.
Qed.
Example C41_nonvacuous : ubuilt (umake [0;1;2;3;4] [(0,1);(1,2);(2,3);(3,4);(4,0)]) /\
  option_map (fun f => map f [0;1;2;3;4]) (color (umake [0;1;2;3;4] [(0,1);(1,2);(2,3);(3,4);(4,0)])) =
  Some [Some 0; Some 1; Some 0; Some 1; Some 2].
Proof. split; [apply umake_built|reflexivity]. Qed.

(** ** C59: contraction of an edge *)
(** The target disappears and its edges become edges of the source, without a
    self loop from the contracted edge. *)
Theorem C59_contract g s t : built g -> edge g s t ->
  let g' := snd (contract_edge s t g) in
  fst (contract_edge s t g) = true /\ (forall v, vertex g' v <-> vertex g v /\ v <> t) /\
  forall u v, edge g' u v <-> u <> t /\ v <> t /\ (edge g u v \/ (u = s /\ v <> s /\ edge g t v) \/ (v = s /\ u <> s /\ edge g u t)).
Proof.
  intros HB He. pose proof (built_wf g HB) as W. assert (He' := He). apply edge_out in He'; auto.
  destruct (contract_ok s t g W He') as (W' & V' & O'). cbn zeta. split; [unfold contract_edge; unfold edge in He; rewrite He; reflexivity|].
  split; [exact V'|]. intros u v. rewrite !edge_out by auto. apply O'.
Qed.
Theorem C59_absent g s t : built g -> ~ edge g s t -> contract_edge s t g = (false, g).
Proof. intros HB H. apply contract_none; [apply built_wf; auto|]. rewrite <- edge_out; auto. apply built_wf; auto. Qed.
Print Assumptions C59_contract.
Print Assumptions C59_absent.
Example C59_nonvacuous : let g := make [0;1;2;3] [(0,1);(1,2);(3,1);(1,0)] in
  built g /\ edge g 0 1 /\ verts (snd (contract_edge 0 1 g)) = [0;2;3] /\
  map (outE (snd (contract_edge 0 1 g))) [0;2;3] = [[2];[];[0]].
Proof. split; [apply make_built|]. repeat split; reflexivity. Qed.

(** ** C58: strongly connected components *)
Definition mutually_reachable (g : graph) (u v : nat) : Prop := reachable g u v /\ reachable g v u.
(** Every vertex lies in exactly one of the sets, and each set consists of all
    vertices mutually reachable with any of its members. *)
Theorem C58_components g : built g ->
  exists sccs, strongly_connected_components g = Some sccs /\
  Permutation (concat sccs) (verts g) /\
  (forall C, In C sccs -> C <> [] /\ StronglySorted lt C) /\
  (forall C u v, In C sccs -> In u C -> (In v C <-> mutually_reachable g u v)).
Proof.
  intros HB. pose proof (built_wf g HB) as W. destruct (tarjan_ok g W) as (sccs & E & Hc & Nd & Hv). exists sccs. split; auto.
  split; [apply NoDup_Permutation; auto; apply sorted_nodup, (wf_verts g W)|]. split; [intros C HC; destruct (Hc C HC) as (A & B & _); auto|].
  intros C u v HC Hu. destruct (Hc C HC) as (_ & _ & H). rewrite (H u Hu v). unfold mutually_reachable, reachable.
  rewrite !(rt_iff (edge g) (fun x y => In y (outE g x))) by (intros; apply edge_out; auto). reflexivity.
Qed.
Print Assumptions C58_components.
Example C58_nonvacuous : let g := make [0;1;2;3;4;5] [(0,1);(1,2);(2,0);(2,3);(3,4);(4,3);(4,5)] in
  built g /\ strongly_connected_components g = Some [[5];[3;4];[0;1;2]].
Proof. split; [apply make_built|reflexivity]. Qed.

(** ** C42: condensation *)
(** For graphs without self loops: the result is an acyclic graph whose
    vertices stand for the classes of mutually reachable vertices, and one
    vertex reaches another exactly when their representatives do. *)
Theorem C42_condense_partial g : built g -> (forall v, ~ edge g v v) ->
  exists g' rep, condense g = Some g' /\ built g' /\ ~ cyclic g' /\
  (forall v, vertex g' v <-> vertex g v /\ rep v = v) /\
  (forall v, vertex g v -> vertex g' (rep v)) /\
  (forall u v, vertex g u -> vertex g v -> (rep u = rep v <-> mutually_reachable g u v)) /\
  (forall u v, vertex g u -> vertex g v -> (reachable g u v <-> reachable g' (rep u) (rep v))) /\
  (forall x y, edge g' x y <-> x <> y /\ exists u v, rep u = x /\ rep v = y /\ edge g u v).
Proof.
  intros HB HL. pose proof (built_wf g HB) as W.
  destruct (condense_ok g W) as (g' & rep & F & W' & A & B & C & D & Ee & G); [intros v Hv; apply (HL v), edge_out; auto|].
  assert (I : forall h, wf h -> forall u v, edge h u v <-> In v (outE h u)) by (intros; apply edge_out; auto).
  exists g', rep. split; auto. split; [eapply (condense_pres built); eauto; intros; constructor; auto|].
  split; [intros (v & Hv); apply (G v); apply (ct_iff _ _ (I g' W')); exact Hv|]. split; [exact A|]. split; [exact B|].
  split; [|split].
  - intros u v Hu Hv. rewrite (C u v Hu Hv). unfold mutually_reachable, reachable, mutual. rewrite !(rt_iff _ _ (I g W)). reflexivity.
  - intros u v Hu Hv. unfold reachable. rewrite (rt_iff _ _ (I g W)), (rt_iff _ _ (I g' W')). apply D; auto.
  - intros x y. rewrite (I g' W'), Ee. split; intros (Hn & u & v & P & Q & S); (split; [exact Hn|]; exists u, v; split; [exact P|]; split; [exact Q|]; apply (I g W); exact S).
Qed.
Print Assumptions C42_condense_partial.
Example C42_nonvacuous : let g := make [0;1;2;3;4;5] [(0,1);(1,2);(2,0);(2,3);(3,4);(4,3);(4,5)] in
  built g /\ (forall v, ~ edge g v v) /\
  option_map (fun g' => (verts g', map (outE g') (verts g'))) (condense g) = Some ([2;3;5], [[3];[5];[]]).
Proof.
  split; [apply make_built|]. split; [|reflexivity]. intros v Hv. apply edge_out in Hv; [|apply built_wf, make_built].
  do 6 (destruct v as [|v]; [vm_compute in Hv; intuition discriminate|]). exact Hv.
Qed.
(** With self loops the result can stay cyclic, *)
Theorem C42_self_loop_refuted : exists g g', built g /\ condense g = Some g' /\ cyclic g'.
Proof. exists (make [0] [(0,0)]). eexists. split; [apply make_built|]. split; [reflexivity|]. exists 0. apply t_step. reflexivity. Qed.
(** and connections are lost: here 2 -> 0 <-> 1 -> 3 with a loop at 0, and 2
    and 3 survive without any edge between them. *)
Theorem C42_lost_path_refuted : exists g g' u v, built g /\ condense g = Some g' /\
  vertex g' u /\ vertex g' v /\ reachable g u v /\ ~ reachable g' u v.
Proof.
  exists (make [0;1;2;3] [(0,0);(0,1);(1,0);(2,0);(1,3)]). eexists. exists 2, 3. split; [apply make_built|]. split; [reflexivity|].
  split; [cbn; tauto|]. split; [cbn; tauto|]. split.
  - apply rt_trans with 0; [apply rt_step; reflexivity|]. apply rt_trans with 1; apply rt_step; reflexivity.
  - intros H. apply clos_rt_rt1n in H. inversion H as [|y ? S _]; subst. unfold edge, has_edge in S. destruct (negb _ || negb _); [discriminate|]. vm_compute in S. discriminate.
Qed.
Print Assumptions C42_self_loop_refuted.
Print Assumptions C42_lost_path_refuted.
