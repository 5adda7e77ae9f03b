(** Proofs about the graph model: path search and colouring. *)
From Coq Require Import ZArith List Bool Arith Lia Sorted Permutation Relations.
From Verif Require Import Words ModArith_Proofs Graph_Model Graph_Proofs.
Import ListNotations.
Open Scope nat_scope.

Lemma list_sum_filter_split (f : nat -> nat) (p : nat -> bool) l x : NoDup l -> In x l -> p x = true ->
  list_sum (map f (filter p l)) = f x + list_sum (map f (filter (fun y => p y && negb (y =? x)) l)).
Proof.
  induction l as [|a l IH]; intros ND Hin Hp; [destruct Hin|]. apply NoDup_cons_iff in ND as [Hn ND].
  cbn [filter]. destruct Hin as [->|Hin].
  - rewrite Hp, Nat.eqb_refl. cbn [negb andb map list_sum fold_right]. f_equal. f_equal. f_equal.
    apply filter_ext_in. intros y Hy. destruct (Nat.eqb_spec y x); [subst; tauto|]. cbn [negb]. rewrite andb_true_r. auto.
  - specialize (IH ND Hin Hp). destruct (Nat.eqb_spec a x); [subst; tauto|].
    cbn [negb]. rewrite andb_true_r. destruct (p a); cbn [map]; auto.
    change (f a + list_sum (map f (filter p l)) = f x + (f a + list_sum (map f (filter (fun y => p y && negb (y =? x)) l)))). lia.
Qed.

(** ** walks *)
Section Walks.
Variable R : nat -> nat -> Prop.
Lemma reach_walk u v : clos_refl_trans nat R u v -> exists l, Sorted R (u :: l) /\ last (u :: l) 0 = v.
Proof.
  intros H. apply clos_rt_rt1n in H. induction H as [x|x y z H1 H2 (l & S & L)].
  - exists []. split; auto.
  - exists (y :: l). split; auto.
Qed.
Lemma walk_reach l : forall u, Sorted R (u :: l) -> clos_refl_trans nat R u (last (u :: l) 0).
Proof.
  induction l as [|a l IH]; intros u S; [apply rt_refl|].
  inversion S as [|? ? S1 S2]; subst. inversion S2; subst.
  eapply rt_trans; [apply rt_step; eassumption|]. apply (IH a). auto.
Qed.
Lemma sorted_cut (l1 l2 l3 : list nat) x : Sorted R (l1 ++ x :: l2 ++ x :: l3) -> Sorted R (l1 ++ x :: l3).
Proof.
  induction l1 as [|a l1 IH]; cbn [app]; intros S.
  - clear - S. change (x :: l2 ++ x :: l3) with ((x :: l2) ++ x :: l3) in S.
    induction (x :: l2) as [|b l IH]; cbn [app] in S; auto. inversion S; auto.
  - inversion S as [|? ? S1 S2]; subst. constructor; auto. destruct l1; cbn [app] in *; inversion S2; constructor; auto.
Qed.
Lemma walk_nodup n : forall u l, length l <= n -> Sorted R (u :: l) ->
  exists l', Sorted R (u :: l') /\ last (u :: l') 0 = last (u :: l) 0 /\ NoDup (u :: l').
Proof.
  induction n as [|n IH]; intros u l Hl S.
  - destruct l; [|simpl in Hl; lia]. exists []. repeat constructor; auto.
  - destruct (ListDec.NoDup_dec Nat.eq_dec (u :: l)) as [ND|ND]; [exists l; auto|].
    apply not_nodup in ND as (l1 & x & l2 & l3 & E). rewrite E in S. pose proof (sorted_cut _ _ _ _ S) as S'.
    assert (LL : last (l1 ++ x :: l3) 0 = last (u :: l) 0).
    { rewrite E. clear. induction l1 as [|a l1 IH]; cbn [app].
      - change (x :: l2 ++ x :: l3) with ((x :: l2) ++ x :: l3).
        induction (x :: l2) as [|b l IHl]; auto. cbn [app]. rewrite IHl.
        destruct (l ++ x :: l3) eqn:F; [destruct l; discriminate|]. auto.
      - destruct (l1 ++ x :: l3) eqn:F1; [destruct l1; discriminate|].
        destruct (l1 ++ x :: l2 ++ x :: l3) eqn:F2; [destruct l1; discriminate|].
        change (last (n :: l) 0 = last (n0 :: l0) 0). auto. }
    assert (HH : exists l', l1 ++ x :: l3 = u :: l' /\ length l' < length l).
    { assert (length (u :: l) = length (l1 ++ x :: l2 ++ x :: l3)) by (rewrite E; auto).
      rewrite !app_length in H. cbn [length] in H. rewrite app_length in H. cbn [length] in H.
      destruct l1 as [|a l1]; cbn [app] in *; injection E as -> E; eexists; (split; [reflexivity|]).
      - simpl in H. lia.
      - rewrite app_length. simpl in *. lia. }
    destruct HH as (l' & E' & Hlt). rewrite E' in *.
    destruct (IH u l') as (l'' & A & B & C); [lia|auto|]. exists l''. rewrite B. auto.
Qed.
Lemma walk_members l : forall c, Sorted R (c :: l) -> forall x, In x l -> exists u, R u x.
Proof.
  induction l as [|d l IH]; intros c S x Hx; [destruct Hx|]. inversion S as [|? ? S1 S2]; subst; inversion S2; subst.
  destruct Hx as [<-|Hx]; eauto.
Qed.
End Walks.

(** ** breadth-first search with unit weights *)
Section Bfs.
Variable g : graph.
Hypothesis W : wf g.
Hypothesis Hsize : (Z.of_nat (length (verts g)) < umax - 1)%Z.
Let E u v := In v (outE g u).
Variables (start end_ : nat).
Hypothesis Hstart : In start (verts g).
Hypothesis Hend : In end_ (verts g).

Lemma unit_out u v : In v (outE g u) -> unit_weight g u v = 1%Z.
Proof. intros H. unfold unit_weight. apply has_edge_In in H; auto. rewrite H. auto. Qed.

Lemma relax_fold curr l : forall s, (forall n, In n l -> In n (outE g curr)) -> (0 <= dist s curr < umax - 1)%Z ->
  let s' := fold_left (relax (unit_weight g) curr) l s in
  (forall v, dist s' v = if set_count v l && (dist s curr + 1 <? dist s v)%Z then dist s curr + 1 else dist s v)%Z /\
  (forall v, v <> curr -> link s' v = link s v).
Proof.
  induction l as [|n l IH]; intros s HL HD; cbn [fold_left].
  - cbn zeta. split; auto.
  - assert (Wn : unit_weight g curr n = 1%Z) by (apply unit_out, HL; left; auto).
    assert (Wr : wrap 64 (dist s curr + unit_weight g curr n) = (dist s curr + 1)%Z).
    { rewrite Wn. unfold umax in *. change (2 ^ 64)%Z with 18446744073709551616%Z in *.
      apply wrap_small. change (2 ^ 64)%Z with 18446744073709551616%Z. lia. }
    set (s1 := relax (unit_weight g) curr s n).
    assert (D1 : forall v, dist s1 v = (if (v =? n)%nat && (dist s curr + 1 <? dist s v) then dist s curr + 1 else dist s v)%Z).
    { intros v. unfold s1, relax. rewrite Wr. rewrite Z.gtb_ltb.
      destruct (Z.ltb_spec (dist s curr + 1) (dist s n)) as [L|L].
      - cbn [dist]. unfold upd. destruct (Nat.eqb_spec v n) as [->|Hv]; cbn [andb]; auto.
        destruct (Z.ltb_spec (dist s curr + 1) (dist s n)); auto; lia.
      - assert (X : (if (v =? n) && (dist s curr + 1 <? dist s v)%Z then (dist s curr + 1)%Z else dist s v) = dist s v).
        { destruct (Nat.eqb_spec v n) as [->|Hv]; cbn [andb]; auto.
          destruct (Z.ltb_spec (dist s curr + 1) (dist s n)); auto; lia. }
        rewrite X. destruct (_ =? 0)%Z; auto. }
    assert (L1 : forall v, v <> curr -> link s1 v = link s v).
    { intros v Hv. unfold s1, relax. destruct (_ >? _)%Z; cbn [link]; [apply upd_other; auto|].
      destruct (_ =? 0)%Z; cbn [link]; auto. apply upd_other; auto. }
    assert (C1 : dist s1 curr = dist s curr).
    { rewrite D1. destruct (curr =? n); cbn [andb]; auto. destruct (Z.ltb_spec (dist s curr + 1) (dist s curr)); auto. lia. }
    destruct (IH s1) as [A B]; [intros; apply HL; right; auto|rewrite C1; auto|]. split.
    + intros v. rewrite A, C1, D1, set_count_cons.
      destruct (v =? n); cbn [andb orb]; auto.
      destruct (Z.ltb_spec (dist s curr + 1) (dist s v)) as [L|L]; cbn [andb].
      * destruct (Z.ltb_spec (dist s curr + 1) (dist s curr + 1)); [lia|]. rewrite andb_false_r. auto.
      * destruct (Z.ltb_spec (dist s curr + 1) (dist s v)); [lia|]. rewrite andb_false_r. auto.
    + intros v Hv. rewrite B by auto. auto.
Qed.

Record binv (q visited : list nat) (s : search) : Prop := {
  bi_nodup : NoDup visited;
  bi_vis : incl visited (verts g);
  bi_q : incl q (verts g);
  bi_fin : forall u, In u (verts g) -> (dist s u <> umax <-> In u (q ++ visited));
  bi_bnd : forall u, In u (q ++ visited) -> (0 <= dist s u <= Z.of_nat (length visited))%Z;
  bi_reach : forall u, In u (q ++ visited) -> clos_refl_trans nat E start u;
  bi_closed : forall u v, In u visited -> E u v -> In v (q ++ visited);
  bi_start : In start (q ++ visited);
  bi_end : ~ In end_ visited }.

Definition measure (q visited : list nat) : nat :=
  length q + list_sum (map (fun v => length (outE g v)) (filter (fun v => negb (set_count v visited)) (verts g))).

Lemma bfs_ok fuel : forall q visited s, binv q visited s -> measure q visited <= fuel ->
  exists s', bfs fuel g (unit_weight g) end_ q visited s = Some s' /\
    (dist s' end_ = umax <-> ~ clos_refl_trans nat E start end_).
Proof.
  assert (UM : umax = 18446744073709551615%Z) by reflexivity.
  induction fuel as [|f IH]; intros q visited s HI HM; (destruct q as [|c q]; cbn [bfs]).
  1,3: exists s; split; auto; destruct HI as [_ _ _ B4 _ _ B7 B8 B9]; cbn [app] in *; split;
    [ intros Hd Hr; apply B9;
      assert (X : forall u, clos_refl_trans nat E start u -> In u visited) by
        (intros u Hu; apply clos_rt_rtn1 in Hu; induction Hu; auto; eapply B7; eauto);
      auto
    | intros Hr; destruct (Z.eq_dec (dist s end_) umax); auto; exfalso; apply B9, B4; auto ].
  - exfalso. unfold measure in HM. simpl in HM. lia.
  - destruct HI as [B1 B2 B3 B4 B5 B6 B7 B8 B9].
    assert (Cv : In c (verts g)) by (apply B3; left; auto).
    assert (Cd : (0 <= dist s c <= Z.of_nat (length visited))%Z) by (apply B5; left; auto).
    pose proof (NoDup_incl_length B1 B2) as LV.
    destruct (Nat.eqb_spec c end_) as [->|Hc].
    + eexists. split; [reflexivity|]. cbn [dist]. rewrite upd_same, UM. split; [intros X; discriminate X|].
      intros H. destruct H. apply B6. left; auto.
    + destruct (set_count c visited) eqn:SC.
      * apply set_count_In in SC. apply IH.
        { assert (EQ : forall u, In u (q ++ visited) <-> In u ((c :: q) ++ visited)).
          { intros u. cbn [app In]. rewrite in_app_iff. intuition (subst; auto). }
          split; auto.
          - intros u Hu. apply B3. right; auto.
          - intros u Hu. rewrite EQ. auto.
          - intros u Hu. apply B5, EQ. auto.
          - intros u Hu. apply B6, EQ. auto.
          - intros u v Hu Hv. apply EQ. eauto.
          - apply EQ. auto. }
        { unfold measure in *. simpl in HM. lia. }
      * apply set_count_false in SC.
        destruct (relax_fold c (outE g c) s (fun n H => H) ltac:(lia)) as [RD _]. cbn zeta in RD.
        set (s' := fold_left _ _ s) in *. apply IH.
        { assert (EQ : forall u, In u ((q ++ outE g c) ++ c :: visited) <-> In u ((c :: q) ++ visited) \/ In u (outE g c)).
          { intros u. cbn [app In]. rewrite !in_app_iff. cbn [In]. tauto. }
          assert (DF : forall u, In u (verts g) -> (dist s' u <> umax <-> dist s u <> umax \/ In u (outE g c))).
          { intros u Hu. rewrite RD. destruct (set_count u (outE g c)) eqn:F; cbn [andb].
            - apply set_count_In in F. destruct (Z.ltb_spec (dist s c + 1) (dist s u)); [intuition lia|].
              split; [auto|]. intros _. lia.
            - apply set_count_false in F. tauto. }
          split; auto.
          - constructor; auto.
          - intros u [<-|Hu]; auto.
          - intros u Hu. apply in_app_iff in Hu as [Hu|Hu]; [apply B3; right; auto|]. apply (wf_incl g W c u Hu).
          - intros u Hu. rewrite DF, EQ, B4 by auto. tauto.
          - intros u Hu. apply EQ in Hu. cbn [length]. rewrite RD.
            destruct (set_count u (outE g c)) eqn:F; cbn [andb].
            + destruct (Z.ltb_spec (dist s c + 1) (dist s u)); [lia|].
              split; [|lia]. destruct (Z.lt_ge_cases (dist s u) 0); [|lia]. exfalso.
              apply set_count_In in F.
              assert (In u (verts g)) by apply (wf_incl g W c u F).
              assert (dist s u <> umax) by lia. apply B4 in H2; auto. apply B5 in H2. lia.
            + apply set_count_false in F. destruct Hu as [Hu|Hu]; [|tauto]. apply B5 in Hu. lia.
          - intros u Hu. apply EQ in Hu as [Hu|Hu]; auto.
            eapply rt_trans; [apply B6; left; reflexivity|]. apply rt_step. auto.
          - intros u v [<-|Hu] Hv; apply EQ; [auto|]. left. eauto.
          - apply EQ. auto.
          - intros [?|?]; auto. }
        { unfold measure in *. rewrite app_length. simpl length in HM.
          rewrite (list_sum_filter_split _ _ (verts g) c) in HM; auto.
          - assert (FE : forall l, filter (fun v => negb (set_count v (c :: visited))) l =
              filter (fun y => negb (set_count y visited) && negb (y =? c)) l).
            { intros l. apply filter_ext. intros a. rewrite set_count_cons. destruct (a =? c), (set_count a visited); auto. }
            rewrite FE. lia.
          - apply sorted_nodup, (wf_verts g W).
          - apply negb_true_iff, set_count_false. auto. }
Qed.
Lemma search_ok : exists s, search_from g (unit_weight g) start end_ = Some s /\
    (dist s end_ = umax <-> ~ clos_refl_trans nat E start end_).
Proof.
  assert (UM : umax = 18446744073709551615%Z) by reflexivity.
  unfold search_from. apply bfs_ok.
  - split; cbn [app dist]; auto.
    + constructor.
    + intros x [].
    + intros x [<-|[]]; auto.
    + intros u Hu. unfold upd. cbn [In]. destruct (Nat.eqb_spec u start) as [->|Hn]; [rewrite UM; intuition congruence|].
      intuition congruence.
    + intros u [<-|[]]. rewrite upd_same. simpl. lia.
    + intros u [<-|[]]. apply rt_refl.
    + intros u v [].
    + left; auto.
  - unfold measure. cbn [length]. replace (filter _ (verts g)) with (verts g); [lia|].
    clear. induction (verts g) as [|a l IH]; auto. unfold set_count in *. cbn [filter existsb negb] in *. rewrite <- IH at 1. auto.
Qed.

(** *** graphs in which no vertex has two successors *)
Hypothesis Hchain : forall u, length (outE g u) <= 1.
Lemma chain_out u v : E u v -> outE g u = [v].
Proof.
  intros H. specialize (Hchain u). unfold E in H. destruct (outE g u) as [|a [|b l]]; cbn [In length] in *; [tauto| |lia].
  destruct H as [->|[]]; auto.
Qed.
Lemma bfs_chain l : forall fuel c visited s, Sorted E (c :: l) -> last (c :: l) 0 = end_ -> NoDup (c :: l) ->
  (forall u, In u (c :: l) -> ~ In u visited) -> (forall u, In u l -> dist s u = umax) ->
  (0 <= dist s c)%Z -> (dist s c + Z.of_nat (length l) < umax - 1)%Z -> length l < fuel ->
  exists s', bfs fuel g (unit_weight g) end_ [c] visited s = Some s' /\
    dist s' end_ = 0%Z /\
    (forall v, ~ In v (c :: l) -> link s' v = link s v) /\
    (forall f dflt, length l <= f -> rebuild f dflt (link s') end_ c = Some (c :: l)).
Proof.
  induction l as [|d l IH]; intros fuel c visited s HS HL ND HV HD H0 HB HF; (destruct fuel as [|fuel]; [simpl in HF; lia|]); cbn [bfs].
  - cbn [last] in HL. subst end_. rewrite Nat.eqb_refl. eexists. split; [reflexivity|]. cbn [dist link].
    rewrite upd_same. split; auto. split; auto. intros f dflt _. destruct f; cbn [rebuild]; rewrite Nat.eqb_refl; auto.
  - apply NoDup_cons_iff in ND as [Hn ND]. inversion HS as [|? ? S1 S2]; subst. inversion S2 as [|? ? HE]; subst.
    assert (HL' : last (d :: l) 0 = last (c :: d :: l) 0) by auto.
    assert (Hc : c <> last (c :: d :: l) 0).
    { intros Hc. apply Hn. rewrite Hc at 1. rewrite <- HL'. clear. revert d. induction l as [|a l IH]; intros d; [left; auto|].
      right. apply (IH a). }
    destruct (Nat.eqb_spec c (last (c :: d :: l) 0)); [congruence|].
    replace (set_count c visited) with false by (symmetry; apply set_count_false, HV; left; auto).
    rewrite (chain_out c d HE). cbn [app].
    assert (Lp : (1 <= Z.of_nat (length (d :: l)))%Z) by (simpl length; lia).
    destruct (relax_fold c [d] s) as [RD RL]; [intros n0 [<-|[]]; auto|lia|]. cbn zeta in *.
    cbn [fold_left] in *. set (s1 := relax _ _ s d) in *.
    assert (Ld : link s1 c = Some d).
    { unfold s1, relax. rewrite (unit_out c d HE). rewrite wrap_small.
      - rewrite (HD d) by (left; auto). destruct (Z.gtb_spec umax (dist s c + 1)); [|lia]. cbn [link]. apply upd_same.
      - unfold umax in *. change (2 ^ 64)%Z with 18446744073709551616%Z in *. lia. }
    assert (Dd : dist s1 d = (dist s c + 1)%Z).
    { rewrite RD, set_count_cons, Nat.eqb_refl. cbn [orb andb]. rewrite (HD d) by (left; auto).
      destruct (Z.ltb_spec (dist s c + 1) umax); auto. lia. }
    destruct (IH fuel d (c :: visited) s1) as (s' & HB' & D' & L' & R'); auto.
    + intros u Hu [<-|Hin]; [auto|]. apply (HV u); [right; auto|auto].
    + intros u Hu. rewrite RD. apply NoDup_cons_iff in ND as [Hnd _].
      replace (set_count u [d]) with false; [cbn [andb]; apply HD; right; auto|].
      symmetry. apply set_count_false. intros [->|[]]. auto.
    + rewrite Dd. lia.
    + rewrite Dd. simpl length in HB. rewrite Nat2Z.inj_succ in HB. lia.
    + simpl in HF. lia.
    + exists s'. split; auto. split; auto. split.
      * intros v Hv. rewrite L'; [|intros Hin; apply Hv; right; auto]. apply RL. intros ->. apply Hv. left; auto.
      * intros f dflt Hf. destruct f as [|f]; [simpl in Hf; lia|]. cbn [rebuild].
        destruct (Nat.eqb_spec c (last (c :: d :: l) 0)); [congruence|].
        rewrite L' by auto. rewrite Ld. rewrite R' by (simpl in Hf; lia). auto.
Qed.
Lemma chain_minimal l : forall c w, Sorted E (c :: l) -> last (c :: l) 0 = end_ -> NoDup (c :: l) ->
  Sorted E (c :: w) -> last (c :: w) 0 = end_ -> length l <= length w.
Proof.
  induction l as [|d l IH]; intros c w HS HL ND HSw HLw; [simpl; lia|].
  apply NoDup_cons_iff in ND as [Hn ND]. inversion HS as [|? ? S1 S2]; subst. inversion S2 as [|? ? HE]; subst.
  destruct w as [|e w].
  - exfalso. cbn [last] in HLw. apply Hn. rewrite HLw. clear. revert d. induction l as [|a l IH]; intros d; [left; auto|].
    right. apply (IH a).
  - inversion HSw as [|? ? T1 T2]; subst. inversion T2 as [|? ? HE']; subst.
    assert (e = d). { pose proof (chain_out _ _ HE). pose proof (chain_out _ _ HE'). congruence. }
    subst e. simpl. apply le_n_S. eapply (IH d w); eauto.
Qed.
Lemma chain_path dflt f : clos_refl_trans nat E start end_ -> length (verts g) <= f ->
  exists p, shortest_path f dflt g (unit_weight g) start end_ = Some (Some p) /\
    hd 0 p = start /\ last p 0 = end_ /\ Sorted E p /\
    forall w, hd 0 w = start -> last w 0 = end_ -> w <> [] -> Sorted E w -> length p <= length w.
Proof.
  assert (UM : umax = 18446744073709551615%Z) by reflexivity.
  intros HR Hf. destruct (reach_walk E _ _ HR) as (l0 & S0 & L0).
  destruct (walk_nodup E (length l0) start l0 (le_n _) S0) as (l & Sl & Ll & ND). rewrite L0 in Ll.
  assert (IV : incl (start :: l) (verts g)).
  { intros x [<-|Hx]; auto. destruct (walk_members E l start Sl x Hx) as (u & Hu). apply (wf_incl g W u x Hu). }
  pose proof (NoDup_incl_length ND IV) as LV. simpl in LV.
  assert (Sum : length l <= list_sum (map (fun v => length (outE g v)) (verts g))).
  { apply Nat.le_trans with (length (flat_map (outE g) (verts g))).
    - apply NoDup_cons_iff in ND as [_ ND]. apply NoDup_incl_length; auto.
      intros x Hx. apply in_flat_map. destruct (walk_members E l start Sl x Hx) as (u & Hu). exists u.
      split; auto. apply (wf_incl g W u x Hu).
    - clear. induction (verts g); auto. simpl. rewrite app_length. lia. }
  unfold shortest_path, search_from.
  destruct (bfs_chain l (2 + list_sum (map (fun v => length (outE g v)) (verts g))) start []
     {| dist := upd (fun _ => umax) start 0%Z; link := fun _ => None |}) as (s & -> & D & _ & R); auto.
  - intros u Hu. cbn [dist]. apply upd_other. intros ->. apply NoDup_cons_iff in ND. tauto.
  - cbn [dist]. rewrite upd_same. lia.
  - cbn [dist]. rewrite upd_same. lia.
  - lia.
  - rewrite D. cbn [Z.eqb]. replace (0 =? umax)%Z with false by reflexivity.
    rewrite R by lia. exists (start :: l). split; auto. split; auto. split; auto. split; auto.
    intros w Hw Lw Nw Sw. destruct w as [|a w]; [congruence|]. cbn [hd] in Hw. subst a. simpl. apply le_n_S.
    eapply chain_minimal; eauto.
Qed.
End Bfs.
