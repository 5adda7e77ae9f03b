(** The initial map of storages, and the whole Lattigo pass. *)
From Coq Require Import List Bool Arith Lia Permutation.
From Verif Require Import InPlace_Model InPlace_Spec InPlace_Proofs InPlaceLattigo_Proofs.
Import ListNotations.

Section Init.
  Variable b0 : block.
  Hypothesis nodup : NoDup (map res (code b0)).
  Hypothesis scoped : forall pre i rest j f args dst, code b0 = pre ++ i :: rest -> In j (pre ++ [i]) ->
    def j = IInPlace f args dst -> dst <> res i.

  Record iinv (pre : list instr) (m : smap) : Prop := {
    I1 : NoDup (map fst m);
    I2 : forall e e' v, In e m -> In e' m -> In v (cls e) -> In v (cls e') -> e = e';
    I3 : forall e, In e m -> cls e = filter (fun v => mem_nat v (cls e)) (map res pre);
    I4 : forall e i, In e m -> In i pre -> In (res i) (snd e) ->
         exists f args dst, def i = IInPlace f args dst /\ In dst (cls e);
    I5 : forall e i, In e m -> In i pre -> res i = fst e -> exists k f args, def i = INew k f args;
    I6 : forall e i f args dst, In e m -> In i pre -> def i = IInPlace f args dst -> In dst (cls e) -> In (res i) (cls e);
    I7 : forall i k f args, In i pre -> def i = INew k f args -> exists e, In e m /\ fst e = res i;
    I8 : forall e v, In e m -> In v (cls e) -> made_here b0 v
  }.
  Lemma iinv_in pre m e v : iinv pre m -> In e m -> In v (cls e) -> In v (map res pre).
  Proof. intros I He Hv. rewrite (I3 _ _ I e He) in Hv. apply filter_In in Hv. tauto. Qed.

  Lemma iinv_step pre i rest m : code b0 = pre ++ i :: rest -> iinv pre m -> iinv (pre ++ [i]) (init_instr m i).
  Proof.
    intros C0 I.
    assert (FR : ~ In (res i) (map res pre)).
    { pose proof nodup as N. rewrite C0, map_app in N. cbn [map] in N. apply NoDup_remove_2 in N.
      intros X. apply N. apply in_or_app; auto. }
    assert (HI : In i (code b0)) by (rewrite C0; apply in_or_app; right; left; auto).
    assert (NM : forall e, In e m -> ~ In (res i) (cls e)).
    { intros e He X. apply FR. eapply iinv_in; eauto. }
    assert (SK : forall c, ~ In (res i) c -> filter (fun v => mem_nat v c) (map res (pre ++ [i])) = filter (fun v => mem_nat v c) (map res pre)).
    { intros c H. rewrite map_app, filter_app. cbn [map filter]. rewrite (proj2 (mem_nat_false _ _) H). apply app_nil_r. }
    assert (SAME : (forall k f args, def i <> INew k f args) -> (forall f args dst e, def i = IInPlace f args dst -> In e m -> ~ In dst (cls e)) -> iinv (pre ++ [i]) m).
    { intros H1 H2. constructor.
      - apply (I1 _ _ I).
      - apply (I2 _ _ I).
      - intros e He. rewrite SK by auto. apply (I3 _ _ I); auto.
      - intros e j He Hj Hr. apply in_app_or in Hj. destruct Hj as [Hj|[<-|[]]]; [apply (I4 _ _ I); auto|].
        exfalso. apply (NM e He). right; auto.
      - intros e j He Hj Hr. apply in_app_or in Hj. destruct Hj as [Hj|[<-|[]]]; [apply (I5 _ _ I e); auto|].
        exfalso. apply (NM e He). left; auto.
      - intros e j f args dst He Hj Dj Hd. apply in_app_or in Hj. destruct Hj as [Hj|[<-|[]]]; [eapply (I6 _ _ I); eauto|].
        exfalso. apply (H2 _ _ _ e Dj He Hd).
      - intros j k f args Hj Dj. apply in_app_or in Hj. destruct Hj as [Hj|[<-|[]]]; [eapply (I7 _ _ I); eauto|].
        exfalso. apply (H1 _ _ _ Dj).
      - apply (I8 _ _ I). }
    unfold init_instr. destruct (def i) as [k f args|f args dst| | | | | | | |] eqn:Di; try (apply SAME; congruence).
    - unfold add_storage.
      assert (NK : ~ In (res i) (map fst m)).
      { intros X. apply in_map_iff in X. destruct X as (e & E & He). apply (NM e He). left; auto. }
      rewrite update_absent by auto. constructor.
      + rewrite map_app. cbn. apply (Permutation_NoDup (Permutation_cons_append (map fst m) (res i))). constructor; auto using (I1 _ _ I).
      + intros e e' v He He' Hv Hv'. apply in_app_or in He, He'.
        destruct He as [He|[<-|[]]], He' as [He'|[<-|[]]]; auto.
        * eapply (I2 _ _ I); eauto.
        * destruct Hv' as [<-|[]]. exfalso. apply (NM e He); auto.
        * destruct Hv as [<-|[]]. exfalso. apply (NM e' He'); auto.
      + intros e He. apply in_app_or in He. destruct He as [He|[<-|[]]].
        * rewrite SK by auto. apply (I3 _ _ I); auto.
        * rewrite map_app, filter_app. cbn [cls fst snd map]. rewrite filter_nil.
          -- cbn. rewrite Nat.eqb_refl. auto.
          -- intros v Hv. apply mem_nat_false. intros [<-|[]]; auto.
      + intros e j He Hj Hr. apply in_app_or in He. destruct He as [He|[<-|[]]]; [|destruct Hr].
        apply in_app_or in Hj. destruct Hj as [Hj|[<-|[]]]; [apply (I4 _ _ I); auto|].
        exfalso. apply (NM e He). right; auto.
      + intros e j He Hj Hr. apply in_app_or in He. apply in_app_or in Hj. destruct Hj as [Hj|[<-|[]]]; [|eauto].
        destruct He as [He|[<-|[]]]; [apply (I5 _ _ I e); auto|]. exfalso. apply FR. cbn in Hr. rewrite <- Hr. apply in_map; auto.
      + intros e j f' args' dst' He Hj Dj Hd. apply in_app_or in He. destruct He as [He|[<-|[]]].
        * pose proof Hj as Hj'. apply in_app_or in Hj. destruct Hj as [Hj|[<-|[]]]; [eapply (I6 _ _ I); eauto|congruence].
        * destruct Hd as [Hd|[]]. exfalso. eapply (scoped pre i rest j); eauto.
      + intros j k' f' args' Hj Dj. apply in_app_or in Hj. destruct Hj as [Hj|[<-|[]]].
        * destruct (I7 _ _ I j k' f' args' Hj Dj) as (e & He & E). exists e. split; auto. apply in_or_app; auto.
        * exists (res i, []). split; auto. apply in_or_app; right; left; auto.
      + intros e v He Hv. apply in_app_or in He. destruct He as [He|[<-|[]]]; [eapply (I8 _ _ I); eauto|].
        destruct Hv as [<-|[]]. exists i. rewrite Di. auto.
    - unfold storage_of. destruct (find (fun e => mem_nat dst (fst e :: snd e)) m) as [[s vs]|] eqn:F; cbn [option_map].
      2:{ apply SAME; [congruence|]. intros f' args' dst' e Q He Hd. injection Q as -> -> ->.
          pose proof (find_none _ _ F e He) as X. cbn beta in X. apply mem_nat_false in X. apply X. exact Hd. }
      apply find_some in F. destruct F as [He0 Hd0]. apply mem_nat_spec in Hd0. cbn [fst snd] in *.
      unfold add_referring.
      assert (SP : forall e, In e (update m s (fun vs0 => vs0 ++ [res i])) <-> (e = (s, vs ++ [res i]) \/ (In e m /\ fst e <> s))).
      { intros e. apply (update_in m s (fun vs0 => vs0 ++ [res i]) vs e); auto. apply (I1 _ _ I). }
      assert (CM : forall v, In v (cls (s, vs ++ [res i])) <-> In v (cls (s, vs)) \/ v = res i).
      { intros v. unfold cls. cbn. rewrite in_app_iff. cbn. intuition congruence. }
      constructor.
      + rewrite (update_keys m s _ vs); auto using (I1 _ _ I).
      + intros e e' v He He' Hv Hv'. apply SP in He. apply SP in He'.
        assert (X : forall x, In x m -> fst x <> s -> In v (cls x) -> In v (cls (s, vs ++ [res i])) -> False).
        { intros x Hx N1 V1 V2. apply CM in V2. destruct V2 as [V2| ->].
          - apply N1. rewrite (I2 _ _ I x (s, vs) v); auto.
          - apply (NM x Hx); auto. }
        destruct He as [->|[H1 H2]], He' as [->|[H1' H2']]; auto.
        * exfalso. eapply (X e'); eauto.
        * exfalso. eapply (X e); eauto.
        * eapply (I2 _ _ I); eauto.
      + intros e He. apply SP in He. destruct He as [->|[He _]].
        * rewrite map_app, filter_app. cbn [map filter].
          rewrite (proj2 (mem_nat_spec (res i) _)) by (apply CM; auto).
          rewrite (filter_ext_in' _ (fun v => mem_nat v (cls (s, vs))) (map res pre)).
          2:{ intros v Hv. apply eq_true_iff_eq. rewrite !mem_nat_spec, CM. split; auto. intros [?| ->]; auto. tauto. }
          rewrite <- (I3 _ _ I (s, vs) He0). reflexivity.
        * rewrite SK by auto. apply (I3 _ _ I); auto.
      + intros e j He Hj Hr. apply SP in He. apply in_app_or in Hj. destruct He as [->|[He _]].
        * cbn in Hr. apply in_app_or in Hr. destruct Hj as [Hj|[<-|[]]].
          -- destruct Hr as [Hr|[Hr|[]]].
             ++ destruct (I4 _ _ I (s, vs) j He0 Hj Hr) as (f' & args' & dst' & ? & ?). exists f', args', dst'. split; auto. apply CM; auto.
             ++ exfalso. apply FR. rewrite Hr. apply in_map; auto.
          -- exists f, args, dst. split; auto. apply CM. left. exact Hd0.
        * destruct Hj as [Hj|[<-|[]]]; [apply (I4 _ _ I); auto|]. exfalso. apply (NM e He). right; auto.
      + intros e j He Hj Hr. apply SP in He. apply in_app_or in Hj. destruct He as [->|[He _]].
        * cbn in Hr. destruct Hj as [Hj|[<-|[]]]; [apply (I5 _ _ I (s, vs)); auto|]. exfalso. apply (NM (s, vs) He0). left; auto.
        * destruct Hj as [Hj|[<-|[]]]; [apply (I5 _ _ I e); auto|]. exfalso. apply (NM e He). left; auto.
      + intros e j f' args' dst' He Hj Dj Hd. apply SP in He.
        assert (NS : dst' <> res i) by (eapply (scoped pre i rest j); eauto).
        apply in_app_or in Hj. destruct He as [->|[He Hs]].
        * apply CM. apply CM in Hd. destruct Hd as [Hd|]; [|congruence]. destruct Hj as [Hj|[<-|[]]]; auto.
          left. eapply (I6 _ _ I); eauto.
        * destruct Hj as [Hj|[<-|[]]]; [eapply (I6 _ _ I); eauto|]. exfalso. apply Hs.
          rewrite Di in Dj. injection Dj as -> -> ->. rewrite (I2 _ _ I e (s, vs) dst'); auto.
      + intros j k' f' args' Hj Dj. apply in_app_or in Hj. destruct Hj as [Hj|[<-|[]]]; [|congruence].
        destruct (I7 _ _ I j k' f' args' Hj Dj) as (e & He & E). destruct (Nat.eq_dec (fst e) s) as [X|X].
        * exists (s, vs ++ [res i]). split; [apply SP; auto|]. cbn. congruence.
        * exists e. split; auto. apply SP; auto.
      + intros e v He Hv. apply SP in He. destruct He as [->|[He _]]; [|eapply (I8 _ _ I); eauto].
        apply CM in Hv. destruct Hv as [Hv| ->]; [apply (I8 _ _ I (s, vs)); auto|]. exists i. rewrite Di. auto.
  Qed.

  Lemma iinv_fold rest : forall pre m, code b0 = pre ++ rest -> iinv pre m -> iinv (code b0) (fold_left init_instr rest m).
  Proof.
    induction rest as [|i rest IH]; intros pre m C0 I; cbn.
    - rewrite app_nil_r in C0. rewrite C0. auto.
    - apply (IH (pre ++ [i])); [rewrite <- app_assoc; auto|]. eapply iinv_step; eauto.
  Qed.
  Lemma static_init : static b0 (code b0) (init_map b0).
  Proof.
    assert (I : iinv (code b0) (init_map b0)).
    { unfold init_map. apply (iinv_fold (code b0) []); auto. constructor; cbn; try tauto. constructor. }
    destruct I. constructor; auto.
  Qed.
End Init.

Section Whole.
  Variable D : Type.
  Variable ev : nat -> list D -> D.
  Variable strict : bool.

  Lemma steps_frame is (s s' : state D) v : ~ In v (map res is) -> steps D ev strict is s = Some s' -> env s' v = env s v.
  Proof.
    revert s; induction is as [|i is IH]; intros s N H; cbn in *; [injection H as <-; auto|].
    destruct (step D ev strict i s) as [s1|] eqn:E; cbn [bind] in H; [|discriminate].
    rewrite (IH s1) by auto. eapply env_frame; eauto.
  Qed.
  Lemma scoped_run b0 (s0 s' : state D) : ssa b0 s0 -> steps D ev strict (code b0) s0 = Some s' ->
    forall pre i rest j f args dst, code b0 = pre ++ i :: rest -> In j (pre ++ [i]) ->
    def j = IInPlace f args dst -> dst <> res i.
  Proof.
    intros [N A] S pre i rest j f args dst C0 Hj Dj ->.
    apply in_split in Hj. destruct Hj as (p1 & p2 & Hs).
    assert (C1 : code b0 = p1 ++ j :: (p2 ++ rest)).
    { rewrite C0. change (i :: rest) with ([i] ++ rest). rewrite app_assoc, Hs, <- app_assoc. reflexivity. }
    assert (HI : In i (j :: p2 ++ rest)).
    { assert (In i (j :: p2)).
      { clear - Hs. revert p2 Hs. intros p2 Hs. destruct (@exists_last _ (j :: p2)) as (q & x & E); [discriminate|].
        rewrite E in Hs. rewrite app_assoc in Hs. apply app_inj_tail in Hs. destruct Hs as [_ ->]. rewrite E.
        apply in_or_app; right; left; auto. }
      destruct H; [left; auto|right; apply in_or_app; auto]. }
    rewrite C1 in S. rewrite steps_app in S.
    destruct (steps D ev strict p1 s0) as [s1|] eqn:S1; cbn [bind] in S; [|discriminate].
    assert (E : env s1 (res i) = None).
    { rewrite (steps_frame p1 s0 s1); auto.
      - apply A. rewrite C1. apply in_or_app; right; auto.
      - intros X. rewrite C1, map_app in N. apply (NoDup_disjoint _ _ _ N X). apply in_map; auto. }
    cbn [steps] in S. destruct (step D ev strict j s1) as [s2|] eqn:Sj; cbn [bind] in S; [|discriminate].
    unfold step in Sj. rewrite Dj in Sj. destruct (all (read D s1) args); cbn [bind] in Sj; [|discriminate].
    unfold ptr in Sj. rewrite E in Sj. discriminate.
  Qed.

  Lemma lattigo_whole b0 (s0 : state D) o : good_state s0 -> ssa b0 s0 -> levels_right b0 -> lattigo_fragment b0 ->
    run D ev strict b0 s0 = Some o ->
    run D ev strict (lattigo_inplace b0) s0 = Some o /\ Forall2 inplace_of (code b0) (code (lattigo_inplace b0)).
  Proof.
    intros G SA LV FR H. unfold run in *. destruct (steps D ev strict (code b0) s0) as [s'|] eqn:S; cbn [bind] in H; [|discriminate].
    destruct (walk_sim D ev strict b0 s0 SA LV FR (code b0) [] [] (init_map b0) s0 s0 (fun l => l)) with (s' := s')
      as (t' & phi' & A & B & C); auto.
    - apply rel_start; auto.
    - apply static_init; [apply SA|]. eapply scoped_run; eauto.
    - intros e _ [].
    - intros j Hj. apply SA; auto.
    - unfold lattigo_inplace. cbn [code rets]. rewrite A. cbn [bind]. rewrite (rel_observe _ _ _ _ _ _ B). auto.
  Qed.
End Whole.
