(** Proofs about the graph model: greedy colouring. *)
From Coq Require Import ZArith List Bool Arith Lia Sorted Permutation.
From Verif Require Import Words Graph_Model Graph_Proofs Graph3_Proofs.
Import ListNotations.
Open Scope nat_scope.

Record uwf (g : ugraph) : Prop := {
  uw_verts : StronglySorted lt (uverts g);
  uw_edges : forall v, StronglySorted lt (uedges g v);
  uw_sym : forall u v, In v (uedges g u) <-> In u (uedges g v);
  uw_incl : forall u v, In v (uedges g u) -> In u (uverts g) }.
Lemma uwf_empty : uwf empty_ugraph.
Proof. split; simpl; try constructor; intros; simpl in *; tauto. Qed.
Lemma uwf_add_vertex v g : uwf g -> uwf (u_add_vertex v g).
Proof.
  intros [A B C D]. split; simpl; auto using set_insert_sorted.
  intros u w H. rewrite set_insert_In. right. eapply D; eauto.
Qed.
Lemma u_add_edge_In s t g : (snd (u_add_edge s t g) = g /\ ~ (In s (uverts g) /\ In t (uverts g))) \/
  (In s (uverts g) /\ In t (uverts g) /\ uverts (snd (u_add_edge s t g)) = uverts g /\
   forall u v, In v (uedges (snd (u_add_edge s t g)) u) <-> In v (uedges g u) \/ (u = s /\ v = t) \/ (u = t /\ v = s)).
Proof.
  unfold u_add_edge. destruct (negb _ || negb _) eqn:H; [left; split; auto|right].
  { intros [A B]. apply set_count_In in A, B. rewrite A, B in H. discriminate. }
  apply orb_false_iff in H as [H1 H2]. apply negb_false_iff in H1, H2. apply set_count_In in H1, H2.
  split; auto. split; auto. split; auto. intros u v. cbn [snd uedges]. unfold upd.
  destruct (Nat.eqb_spec u t) as [->|Hu].
  - rewrite set_insert_In. destruct (Nat.eqb_spec t s) as [->|Hts]; rewrite ?set_insert_In; intuition congruence.
  - destruct (Nat.eqb_spec u s) as [->|Hs]; rewrite ?set_insert_In; intuition congruence.
Qed.
Lemma uwf_add_edge s t g : uwf g -> uwf (snd (u_add_edge s t g)).
Proof.
  intros U. destruct (u_add_edge_In s t g) as [[-> _]|(Hs & Ht & EV & EI)]; auto. destruct U as [A B C D].
  split.
  - rewrite EV. auto.
  - intros v. unfold u_add_edge. destruct (negb _ || negb _); auto. cbn [snd uedges]. unfold upd.
    destruct (v =? t); [apply set_insert_sorted|]; destruct (_ =? s); auto using set_insert_sorted.
  - intros u v. rewrite !EI, C. tauto.
  - intros u v. rewrite EI, EV. intros [H|[[-> ->]|[-> ->]]]; eauto.
Qed.
Lemma incident_eq g v : uwf g -> incident g v = uedges g v.
Proof.
  intros W. unfold incident. destruct (set_count v (uverts g)) eqn:E; auto.
  apply set_count_false in E. destruct (uedges g v) as [|x l] eqn:F; auto.
  destruct E. apply (uw_incl g W v x). rewrite F. simpl. auto.
Qed.

Lemma pop_max_perm l : forall best m r, pop_max best l = (m, r) -> Permutation (best :: l) (m :: r).
Proof.
  induction l as [|x l IH]; intros best m r H; cbn [pop_max] in H.
  - injection H as <- <-. auto.
  - destruct (vi_lt best x).
    + destruct (pop_max x l) as [m' r'] eqn:E. injection H as <- <-. apply IH in E.
      rewrite E. apply perm_swap.
    + destruct (pop_max best l) as [m' r'] eqn:E. injection H as <- <-. apply IH in E.
      rewrite perm_swap, E. apply perm_swap.
Qed.
Lemma smallest_unused_ok used : forall fuel c, let r := smallest_unused fuel c used in
  c <= r <= c + fuel /\ (forall i, c <= i < r -> In i used) /\ (r < c + fuel -> ~ In r used).
Proof.
  induction fuel as [|f IH]; intros c; cbn [smallest_unused]; cbn zeta.
  - split; [lia|]. split; intros; lia.
  - destruct (set_count c used) eqn:E.
    + destruct (IH (S c)) as (A & B & C). cbn zeta in *. apply set_count_In in E. split; [lia|]. split.
      * intros i Hi. destruct (Nat.eq_dec i c) as [->|]; auto. apply B. lia.
      * intros. apply C. lia.
    + apply set_count_false in E. split; [lia|]. split; [intros; lia|auto].
Qed.
Lemma smallest_unused_fresh used : let r := smallest_unused (S (length used)) 0 used in
  ~ In r used /\ r <= length used.
Proof.
  destruct (smallest_unused_ok used (S (length used)) 0) as (A & B & C). cbn zeta in *.
  set (r := smallest_unused _ _ _) in *.
  assert (r <= length used).
  { assert (I : incl (seq 0 r) used) by (intros x Hx; apply in_seq in Hx; apply B; lia).
    apply NoDup_incl_length in I; [|apply seq_NoDup]. rewrite seq_length in I. auto. }
  split; auto. apply C. lia.
Qed.

Section Color.
Variable g : ugraph.
Hypothesis W : uwf g.
Let N v := uedges g v.

Record cinv (st : cstate) : Prop := {
  ci_dom : forall v c, colors st v = Some c -> In v (uverts g) /\ c <= length (N v);
  ci_proper : forall u v a b, In v (N u) -> u <> v -> colors st u = Some a -> colors st v = Some b -> a <> b;
  ci_nsorted : forall v, StronglySorted lt (ncolors st v);
  ci_ncol : forall v c, In v (uverts g) -> colors st v = None ->
      (In c (ncolors st v) <-> exists u, In u (N v) /\ colors st u = Some c);
  ci_queue : forall v, In v (uverts g) -> colors st v = None ->
      In {| vi_vertex := v; vi_sat := fst (sats st v); vi_unc := snd (sats st v) |} (queue st);
  ci_qin : forall i, In i (queue st) -> In (vi_vertex i) (uverts g) }.

Lemma ncolors_bound st v : cinv st -> In v (uverts g) -> colors st v = None -> length (ncolors st v) <= length (N v).
Proof.
  intros [A B C D E F] Hv Hc.
  pose proof (NoDup_map_inv) as _.
  assert (I : incl (map Some (ncolors st v)) (map (colors st) (N v))).
  { intros x Hx. apply in_map_iff in Hx as (c & <- & Hx). apply D in Hx as (u & Hu & Eu); auto.
    apply in_map_iff. exists u. auto. }
  apply NoDup_incl_length in I.
  - rewrite !map_length in I. auto.
  - apply FinFun.Injective_map_NoDup; [intros ? ? X; congruence|]. apply sorted_nodup; auto.
Qed.

(** the loop over the neighbours *)
Lemma neighbors_fold c T : forall st, NoDup T -> incl T (uverts g) ->
  let st' := fold_left (update_neighbors g c) T st in
  (forall v, colors st' v = colors st v) /\
  (forall v, ncolors st' v = if set_count v T && uncolored (colors st) v then set_insert c (ncolors st v) else ncolors st v) /\
  (forall v, set_count v T && uncolored (colors st) v = false -> sats st' v = sats st v) /\
  (forall i, In i (queue st) -> In i (queue st')) /\
  (forall v, set_count v T && uncolored (colors st) v = true ->
     In {| vi_vertex := v; vi_sat := fst (sats st' v); vi_unc := snd (sats st' v) |} (queue st')) /\
  (forall i, In i (queue st') -> In i (queue st) \/ In (vi_vertex i) T) /\
  length (queue st') <= length (queue st) + length T.
Proof.
  induction T as [|n T IH]; intros st ND HI; cbn [fold_left]; cbn zeta.
  - split; [auto|]. split; [auto|]. split; [auto|]. split; [auto|]. split; [intros v H; discriminate H|]. split; [auto|]. simpl. lia.
  - apply NoDup_cons_iff in ND as [Hn ND].
    set (st1 := update_neighbors g c st n).
    destruct (IH st1 ND (fun x H => HI x (or_intror H))) as (A & B & C & D & E & F & G). cbn zeta in *.
    assert (C1 : forall v, colors st1 v = colors st v).
    { intros v. unfold st1, update_neighbors. destruct (uncolored _ _); auto. }
    assert (U1 : forall v, uncolored (colors st1) v = uncolored (colors st) v).
    { intros v. unfold uncolored. rewrite C1. auto. }
    assert (N1 : forall v, ncolors st1 v = if (v =? n) && uncolored (colors st) v then set_insert c (ncolors st v) else ncolors st v).
    { intros v. unfold st1, update_neighbors. destruct (Nat.eqb_spec v n) as [->|Hv]; cbn [andb].
      - destruct (uncolored _ n); auto. cbn [update_saturation ncolors]. apply upd_same.
      - destruct (uncolored _ n); auto. cbn [update_saturation ncolors]. apply upd_other. auto. }
    assert (SCn : set_count n T = false) by (apply set_count_false; auto).
    split; [|split; [|split; [|split; [|split; [|split]]]]].
    + intros v. rewrite A. auto.
    + intros v. rewrite B, U1, N1, set_count_cons. destruct (Nat.eqb_spec v n) as [->|Hv]; cbn [orb andb]; auto.
      rewrite SCn. cbn [andb]. auto.
    + intros v. rewrite set_count_cons. intros H.
      assert (Hv : set_count v T && uncolored (colors st1) v = false).
      { rewrite U1. destruct (v =? n), (set_count v T), (uncolored (colors st) v); auto. }
      rewrite (C v Hv). unfold st1, update_neighbors. destruct (uncolored (colors st) n) eqn:Un; auto.
      cbn [update_saturation sats]. apply upd_other. intros ->. rewrite Nat.eqb_refl, Un in H. discriminate.
    + intros i Hi. apply D. unfold st1, update_neighbors. destruct (uncolored _ n); auto.
      cbn [update_saturation queue]. right; auto.
    + intros v. rewrite set_count_cons. destruct (Nat.eqb_spec v n) as [->|Hv]; cbn [orb]; intros H.
      * assert (Hv : set_count n T && uncolored (colors st1) n = false) by (rewrite SCn; auto).
        rewrite (C n Hv). apply D. cbn [andb] in H. unfold st1, update_neighbors. rewrite H.
        cbn [update_saturation queue sats]. rewrite upd_same. cbn [fst snd]. left; auto.
      * apply E. rewrite U1. auto.
    + intros i Hi. apply F in Hi as [Hi|Hi]; [|right; right; auto].
      unfold st1, update_neighbors in Hi. destruct (uncolored _ n); auto. cbn [update_saturation queue] in Hi.
      destruct Hi as [<-|Hi]; [right; left; auto|auto].
    + assert (length (queue st1) <= S (length (queue st))).
      { unfold st1, update_neighbors. destruct (uncolored _ n); [cbn [update_saturation queue length]; lia|lia]. }
      simpl. lia.
Qed.

Lemma cinv_init : cinv (fold_left (update_saturation g) (uverts g)
   {| colors := fun _ => None; ncolors := fun _ => []; sats := fun _ => (0, 0); queue := [] |}) /\
   length (queue (fold_left (update_saturation g) (uverts g)
   {| colors := fun _ => None; ncolors := fun _ => []; sats := fun _ => (0, 0); queue := [] |})) = length (uverts g) /\
   (forall v, colors (fold_left (update_saturation g) (uverts g)
   {| colors := fun _ => None; ncolors := fun _ => []; sats := fun _ => (0, 0); queue := [] |}) v = None).
Proof.
  assert (X : forall T st, NoDup T -> let st' := fold_left (update_saturation g) T st in
    (forall v, colors st' v = colors st v) /\ (forall v, ncolors st' v = ncolors st v) /\
    (forall v, ~ In v T -> sats st' v = sats st v) /\ (forall i, In i (queue st) -> In i (queue st')) /\
    (forall v, In v T -> In {| vi_vertex := v; vi_sat := fst (sats st' v); vi_unc := snd (sats st' v) |} (queue st')) /\
    (forall i, In i (queue st') -> In i (queue st) \/ In (vi_vertex i) T) /\ length (queue st') = length (queue st) + length T).
  { induction T as [|n T IH]; intros st ND; cbn [fold_left]; cbn zeta.
    - split; [auto|]. split; [auto|]. split; [auto|]. split; [auto|]. split; [intros v []|]. split; auto.
    - apply NoDup_cons_iff in ND as [Hn ND].
      destruct (IH (update_saturation g st n) ND) as (A & B & C & D & E & F & G). cbn zeta in *.
      cbn [update_saturation colors ncolors sats queue] in *.
      split; [auto|]. split; [auto|]. split; [|split; [|split; [|split]]].
      + intros v Hv. rewrite C by (intros H; apply Hv; right; auto). apply upd_other. intros ->. apply Hv; left; auto.
      + intros i Hi. apply D. right; auto.
      + intros v [<-|Hv]; auto. apply D. left. rewrite C by auto. rewrite upd_same. auto.
      + intros i Hi. apply F in Hi as [[<-|Hi]|Hi]; auto; right; [left|right]; auto.
      + rewrite G. simpl. lia. }
  destruct (X (uverts g) {| colors := fun _ => None; ncolors := fun _ => []; sats := fun _ => (0, 0); queue := [] |}
     (sorted_nodup _ (uw_verts g W))) as (A & B & C & D & E & F & G). cbn zeta in *. cbn [colors ncolors sats queue] in *.
  split; [|split; auto]. split.
  - intros v c H. rewrite A in H. discriminate.
  - intros u v a b _ _ H. rewrite A in H. discriminate.
  - intros v. rewrite B. constructor.
  - intros v c _ _. rewrite B. cbn [In]. split; [tauto|]. intros (u & _ & H). rewrite A in H. discriminate.
  - intros v Hv _. auto.
  - intros i Hi. apply F in Hi as [[]|Hi]. auto.
Qed.

Definition cmeasure (st : cstate) : nat :=
  length (queue st) + list_sum (map (fun v => length (N v)) (filter (uncolored (colors st)) (uverts g))).

Lemma color_loop_ok fuel : forall st, cinv st -> cmeasure st < fuel ->
  exists cs, color_loop fuel g st = Some cs /\
    (forall v, In v (uverts g) -> exists c, cs v = Some c /\ c <= length (N v)) /\
    (forall v, ~ In v (uverts g) -> cs v = None) /\
    (forall u v, In v (N u) -> u <> v -> cs u <> cs v).
Proof.
  induction fuel as [|f IH]; intros st HI HM; [lia|]. cbn [color_loop].
  destruct (queue st) as [|x r] eqn:EQ.
  - exists (colors st). split; auto. destruct HI as [A B C D E F].
    assert (T : forall v, In v (uverts g) -> exists c, colors st v = Some c /\ c <= length (N v)).
    { intros v Hv. destruct (colors st v) as [c|] eqn:Ec.
      - exists c. split; auto. apply (A v c Ec).
      - specialize (E v Hv Ec). rewrite EQ in E. destruct E. }
    split; auto. split.
    + intros v Hv. destruct (colors st v) eqn:Ec; auto. apply A in Ec. tauto.
    + intros u v Hin Hne.
      assert (Hu : In u (uverts g)) by (eapply (uw_incl g W); eauto).
      assert (Hv : In v (uverts g)) by (apply (uw_sym g W) in Hin; eapply (uw_incl g W); eauto).
      destruct (T u Hu) as (a & Ea & _), (T v Hv) as (b & Eb & _). rewrite Ea, Eb. intros X. injection X as X.
      eapply B; eauto.
  - destruct (pop_max x r) as [cur q] eqn:EP. apply pop_max_perm in EP.
    set (v := vi_vertex cur). cbn zeta. cbn [colors ncolors sats queue].
    assert (QI : forall i, In i (queue st) <-> i = cur \/ In i q).
    { intros i. rewrite EQ. split; intros H.
      - apply (Permutation_in _ EP) in H. destruct H; auto.
      - apply (Permutation_in _ (Permutation_sym EP)). destruct H as [->|H]; [left|right]; auto. }
    assert (QL : length (queue st) = S (length q)) by (rewrite EQ; apply Permutation_length in EP; auto).
    destruct (negb (uncolored (colors st) v) || negb (vi_sat cur =? fst (sats st v)) || negb (vi_unc cur =? snd (sats st v))) eqn:EC.
    + apply IH.
      * destruct HI as [A B C D E F]. split; cbn [colors ncolors sats queue]; auto.
        -- intros u Hu Hc. specialize (E u Hu Hc). apply QI in E as [E|E]; auto. exfalso.
           subst v. rewrite <- E in EC. cbn [vi_vertex vi_sat vi_unc] in EC. rewrite !Nat.eqb_refl in EC.
           unfold uncolored in EC. rewrite Hc in EC. discriminate.
        -- intros i Hi. apply F, QI. auto.
      * unfold cmeasure in *. cbn [queue colors] in *. lia.
    + apply orb_false_iff in EC as [EC E3]. apply orb_false_iff in EC as [E1 E2].
      apply negb_false_iff in E1. assert (Ev : colors st v = None).
      { unfold uncolored in E1. destruct (colors st v); [discriminate|auto]. }
      assert (Vv : In v (uverts g)) by (apply (ci_qin _ HI), QI; auto).
      rewrite incident_eq by auto. fold (N v).
      destruct (smallest_unused_fresh (ncolors st v)) as [Fr Bd]. cbn zeta in *.
      set (c := smallest_unused (S (length (ncolors st v))) 0 (ncolors st v)) in *.
      pose proof (ncolors_bound st v HI Vv Ev) as NB.
      set (st1 := {| colors := upd (colors st) v (Some c); ncolors := ncolors st; sats := sats st; queue := q |}).
      assert (NI : incl (N v) (uverts g)).
      { intros u Hu. apply (uw_sym g W) in Hu. eapply (uw_incl g W); eauto. }
      destruct (neighbors_fold c (N v) st1 (sorted_nodup _ (uw_edges g W v)) NI) as (A' & B' & C' & D' & E' & F' & G').
      cbn zeta in *. set (st' := fold_left _ _ st1) in *. unfold st1 in A', B', C', D', E', F', G'. cbn [colors ncolors sats queue] in *.
      destruct HI as [A B C D E F].
      assert (UO : forall u, u <> v -> uncolored (upd (colors st) v (Some c)) u = uncolored (colors st) u).
      { intros u Hu. unfold uncolored. rewrite upd_other; auto. }
      apply IH.
      * split.
        -- intros u a H. rewrite A' in H. unfold upd in H. destruct (Nat.eqb_spec u v) as [->|Hu]; auto.
           injection H as <-. split; auto. lia.
        -- intros u w a b Hin Hne H1 H2. rewrite A' in H1, H2. unfold upd in H1, H2.
           destruct (Nat.eqb_spec u v) as [->|Hu], (Nat.eqb_spec w v) as [->|Hw]; try congruence.
           ++ injection H1 as <-. intros <-. apply Fr. apply D; auto. exists w. auto.
           ++ injection H2 as <-. intros ->. apply Fr. apply D; auto. exists u. split; auto. apply (uw_sym g W). auto.
           ++ eapply B; eauto.
        -- intros u. rewrite B'. destruct (_ && _); auto using set_insert_sorted.
        -- intros u a Hu Hc. rewrite A' in Hc. unfold upd in Hc. destruct (Nat.eqb_spec u v) as [->|Huv]; [discriminate|].
           rewrite B', UO by auto. replace (uncolored (colors st) u) with true by (unfold uncolored; rewrite Hc; auto).
           rewrite andb_true_r.
           assert (SY : In v (N u) <-> In u (N v)) by apply (uw_sym g W).
           destruct (set_count u (N v)) eqn:SC.
           ++ apply set_count_In in SC. rewrite set_insert_In, D by auto. split.
              ** intros [->|(w & Hw & Ew)].
                 --- exists v. split; [tauto|]. rewrite A', upd_same. auto.
                 --- exists w. split; auto. rewrite A', upd_other; auto. intros ->. congruence.
              ** intros (w & Hw & Ew). rewrite A' in Ew. unfold upd in Ew. destruct (Nat.eqb_spec w v) as [->|Hwv].
                 --- injection Ew as <-. auto.
                 --- right. exists w. auto.
           ++ apply set_count_false in SC. rewrite D by auto. split; intros (w & Hw & Ew); exists w; (split; [auto|]).
              ** rewrite A', upd_other; auto. intros ->. tauto.
              ** rewrite A' in Ew. rewrite upd_other in Ew; auto. intros ->. tauto.
        -- intros u Hu Hc. rewrite A' in Hc. unfold upd in Hc. destruct (Nat.eqb_spec u v) as [->|Huv]; [discriminate|].
           destruct (set_count u (N v) && uncolored (upd (colors st) v (Some c)) u) eqn:SC; [auto|].
           rewrite (C' u SC). apply D'. specialize (E u Hu Hc). apply QI in E as [E|E]; auto.
           exfalso. apply Huv. unfold v. rewrite <- E. auto.
        -- intros i Hi. apply F' in Hi as [Hi|Hi]; auto. apply F, QI. auto.
      * unfold cmeasure in *.
        rewrite (list_sum_filter_split _ _ (uverts g) v) in HM; auto; [|apply sorted_nodup, (uw_verts g W)].
        assert (FE : filter (uncolored (colors st')) (uverts g) =
                     filter (fun y => uncolored (colors st) y && negb (y =? v)) (uverts g)).
        { apply filter_ext. intros y. unfold uncolored. rewrite A'. unfold upd. destruct (y =? v); auto.
          - rewrite andb_false_r. auto.
          - rewrite andb_true_r. auto. }
        rewrite FE. lia.
Qed.
Lemma color_ok : exists cs, color g = Some cs /\
    (forall v, In v (uverts g) -> exists c, cs v = Some c /\ c <= length (N v)) /\
    (forall v, ~ In v (uverts g) -> cs v = None) /\
    (forall u v, In v (N u) -> u <> v -> cs u <> cs v).
Proof.
  unfold color. destruct cinv_init as (I & L & C). apply color_loop_ok; auto.
  unfold cmeasure. rewrite L. apply le_n_S. apply Nat.add_le_mono_l.
  replace (filter _ (uverts g)) with (uverts g); auto.
  rewrite (filter_ext _ (fun _ => true)).
  - clear. induction (uverts g); auto. simpl. congruence.
  - intros a. unfold uncolored. rewrite C. auto.
Qed.
End Color.
