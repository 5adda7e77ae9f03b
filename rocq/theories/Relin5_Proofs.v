(** An optimal solution has no more relinearizations than any legal placement (mixed degrees allowed). *)
From Coq Require Import List Bool Arith Lia QArith Lqa.
From Verif Require Import Relin_Model Relin_Spec Relin_Proofs RelinStrip_Proofs Relin2_Proofs Relin3_Proofs Relin4_Proofs.
Import ListNotations.
Local Open Scope nat_scope.

(** the values that a program relinearizes, as values of the stripped program *)
Fixpoint sources (s : nat -> nat) (c : code) : list nat :=
  match c with
  | End => []
  | Do KRelin _ [(a, _)] [r] c => s a :: sources (upd s r (s a)) c
  | Do _ _ _ _ c => sources s c
  | For _ _ _ _ _ _ c => sources s c
  end.
Lemma sources_length c : forall s av, flat c -> wf av c -> length (sources s c) = count_relin c.
Proof.
  induction c as [|k f args res c IHc|]; intros s av FL W; [auto|..|destruct FL]. cbn [flat wf] in *. destruct W as (_ & _ & _ & W4 & W5).
  destruct k; try (cbn; eapply IHc; eauto). destruct W4 as [L1 L2]. destruct args as [|[a fl] [|]]; try discriminate. destruct res as [|r [|]]; try discriminate.
  cbn. f_equal. eapply IHc; eauto.
Qed.

Section Fewest.
  Variable D : Type.
  Variable ev : nat -> list D -> list D.
  Variable sec sec1 sec2 : nat -> bool.
  Variable n : nat.
  Variable L : list nat.
  Notation exec1 := (exec D ev sec1 true true).
  Notation exec2 := (exec D ev sec2 true true).
  Notation val := (val D).
  Definition mem (r : nat) : bool := existsb (Nat.eqb r) L.
  Lemma mem_in r : mem r = true <-> In r L.
  Proof. unfold mem. rewrite existsb_exists. split; [intros (y & H & E); apply Nat.eqb_eq in E; congruence|intros H; exists r; split; auto; apply Nat.eqb_refl]. Qed.

  (** the second value is the same with a smaller degree *)
  Definition less (y y' : val) : Prop :=
    fst y = fst y' /\ match snd y, snd y' with Some d, Some d' => 1 <= d' <= d | None, None => True | _, _ => False end.
  Definition enc (y : val) : bool := match snd y with Some _ => true | None => false end.
  Definition below (av : list nat) (s : nat -> nat) (e eQ : nat -> option val) : Prop :=
    forall v, In v av -> exists y y', e v = Some y /\ eQ (s v) = Some y' /\ less y y' /\ enc y' = sec v.
  Definition linear1 (avQ : list nat) (eQ : nat -> option val) : Prop :=
    forall u, In u avQ -> mem u = true -> exists y, eQ u = Some y /\ match snd y with Some d => d = 1 | None => True end.

  Lemma below_lookups av s e eQ vs ys : below av s e eQ -> incl vs av -> lookups e vs = Some ys ->
    exists ys', lookups eQ (map s vs) = Some ys' /\ Forall2 less ys ys' /\ existsb enc ys' = existsb sec vs.
  Proof.
    intros B. revert ys. induction vs as [|v vs IH]; intros ys I LK.
    - cbn in LK. injection LK as <-. exists []. auto.
    - apply lookups_cons in LK. destruct LK as (y & zs & E & LK & ->). destruct (IH zs) as (zs' & E' & F & EN); auto; [intros u Hu; apply I; right; auto|].
      destruct (B v (I v (or_introl eq_refl))) as (y1 & y' & E1 & E2 & LE & ES). rewrite E in E1. injection E1 as <-.
      exists (y' :: zs'). cbn. rewrite E2, E'. cbn. rewrite ES, EN. auto.
  Qed.
  Lemma less_fst ys ys' : Forall2 less ys ys' -> map fst ys = map fst ys'.
  Proof. induction 1 as [|y y' ys ys' [E _] F IH]; cbn; auto. rewrite E, IH. auto. Qed.
  Lemma less_degrees ys ys' : Forall2 less ys ys' -> Forall2 (fun d d' => 1 <= d' <= d) (degrees D ys) (degrees D ys').
  Proof.
    induction 1 as [|y y' ys ys' [_ E] F IH]; cbn; [constructor|]. fold (degrees D ys) (degrees D ys').
    destruct (snd y), (snd y'); try tauto; cbn; try constructor; auto.
  Qed.
  Lemma less_plain fls : forall ys ys', Forall2 less ys ys' -> uses_plaintext D fls ys = uses_plaintext D fls ys'.
  Proof.
    unfold uses_plaintext. induction fls as [|fl fls IH]; intros ys ys' F; auto. inversion F; subst; auto. cbn. rewrite (IH l l') by auto. f_equal.
    destruct H as [_ E]. destruct (snd x), (snd y); auto; tauto.
  Qed.
  Lemma less_one ds ds' : Forall2 (fun d d' => 1 <= d' <= d) ds ds' -> all_one ds = true -> all_one ds' = true.
  Proof.
    unfold all_one. induction 1 as [|d d' ds ds' [A B] F IH]; cbn [forallb]; auto. intros H. apply andb_prop in H. destruct H as [H1 H2].
    apply Nat.eqb_eq in H1. subst d. assert (d' = 1) by lia. subst. rewrite IH; auto.
  Qed.
  Lemma list_sum_cons a l : list_sum (a :: l) = a + list_sum l.
  Proof. reflexivity. Qed.
  Lemma less_sum ds ds' : Forall2 (fun d d' => 1 <= d' <= d) ds ds' -> list_sum ds' <= list_sum ds.
  Proof. induction 1; [auto|]. rewrite !list_sum_cons. lia. Qed.
  Lemma less_max ds ds' : Forall2 (fun d d' => 1 <= d' <= d) ds ds' -> list_max ds' <= list_max ds.
  Proof. induction 1; [auto|]. rewrite !list_max_cons. lia. Qed.
  Lemma less_rd k ds ds' : Forall2 (fun d d' => 1 <= d' <= d) ds ds' ->
    match result_degree k ds, result_degree k ds' with Some d, Some d' => 1 <= d' <= d | None, None => True | _, _ => False end.
  Proof.
    intros F. pose proof (less_sum _ _ F) as S1. pose proof (less_max _ _ F) as M1.
    destruct F as [|d d' ds ds' [A B] F]; [cbn; auto|]. unfold result_degree. rewrite list_sum_cons, list_max_cons in *.
    destruct k; try lia.
  Qed.
  Lemma less_allowed k fls ys ys' : Forall2 less ys ys' -> allowed D true true k fls ys = true -> allowed D true true k fls ys' = true.
  Proof.
    intros F. pose proof (less_degrees _ _ F) as FD. unfold allowed, legal. cbn [negb orb]. rewrite (less_plain fls _ _ F), !andb_true_r. intros H. apply andb_prop in H. destruct H as [H1 H2].
    pose proof (less_rd k _ _ FD) as RD. apply andb_true_intro. split.
    - destruct k; auto; try (eapply less_one; eauto; fail); destruct (uses_plaintext D fls ys'); auto; cbn in *; eapply less_one; eauto.
    - destruct (result_degree k (degrees D ys)), (result_degree k (degrees D ys')); auto; try tauto. apply Nat.leb_le in H2. apply Nat.leb_le. lia.
  Qed.

  Lemma enc_rd k ys : existsb enc ys = match result_degree k (degrees D ys) with Some _ => true | None => false end.
  Proof.
    transitivity (match degrees D ys with [] => false | _ => true end); [|destruct (degrees D ys); auto].
    induction ys as [|y ys IH]; auto. cbn. fold (degrees D ys). unfold enc at 1. destruct (snd y); auto.
  Qed.

  Lemma sim c : forall s av avQ e e' eQ, flat c -> single c -> wf av c -> secretness sec c -> inv sec av avQ s ->
    top (fst (strip s c)) < n -> (forall v, In v avQ -> v < n) -> incl (sources s c) L ->
    below av s e eQ -> linear1 avQ eQ -> exec1 c e = Some e' ->
    exists eQ', exec2 (insert sec mem n (fst (strip s c))) eQ = Some eQ' /\ below (defs c ++ av) (snd (strip s c)) e' eQ'.
  Proof.
    induction c as [|k f args res c IHc|]; intros s av avQ e e' eQ FL SG W SC I TN AN IL B L1 X; [..|destruct FL].
    - cbn in *. injection X as <-. eauto.
    - cbn [flat single wf secretness] in *. destruct W as (W1 & W2 & W3 & W4 & W5). destruct SC as [SR SC]. destruct SG as [SG1 SG].
      cbn [exec] in X. destruct (lookups e (map fst args)) as [ys|] eqn:LK; cbn [bind] in X; [|discriminate].
      destruct (allowed D true true k (map snd args) ys) eqn:AL; [|discriminate].
      match type of X with bind ?a _ = _ => destruct a as [e1|] eqn:A; cbn [bind] in X; [|discriminate] end.
      destruct (below_lookups _ _ _ _ _ _ B W1 LK) as (ys' & LK' & LE & EN).
      destruct (Bool.bool_dec (match k with KRelin => true | _ => false end) true) as [K|K].
      + destruct k; try discriminate. destruct W4 as [Z1 Z2]. destruct args as [|[a fl] [|]]; try discriminate. destruct res as [|r [|]]; try discriminate.
        rewrite strip_relin in *. cbn [sources] in IL. cbn [defs]. rewrite <- app_assoc. cbn [app].
        assert (Ha : In a av) by (apply W1; left; auto). assert (Hr : ~ In r av) by (apply W3; left; auto).
        assert (Sr : sec r = sec a) by (rewrite (SR r) by (left; auto); cbn; apply orb_false_r).
        apply (IHc (upd s r (s a)) (r :: av) avQ e1 e' eQ); auto.
        * apply inv_relin; auto.
        * intros v Hv. apply IL. right; auto.
        * apply lookups_cons in LK. destruct LK as (y & ys0 & Ey & LK0 & ->). cbn in LK0. injection LK0 as <-. cbn in A. injection A as <-.
          intros v Hv. unfold upd. destruct (Nat.eqb_spec v r) as [->|NE].
          -- destruct (B a Ha) as (y1 & y' & E1 & E2 & [LF LD] & ES). cbn [fst] in Ey. rewrite Ey in E1. injection E1 as <-.
             destruct (L1 (s a)) as (y2 & E3 & D1); [apply (i_in _ _ _ _ I); auto|apply mem_in, IL; left; auto|]. rewrite E2 in E3. injection E3 as <-.
             exists (fst y, result_degree KRelin (degrees D [y])), y'. split; auto. split; auto. split; [split; auto|congruence]. cbn.
             unfold degrees. cbn. destruct (snd y), (snd y'); cbn; auto. lia.
          -- destruct Hv as [Hv|Hv]; [congruence|]. auto.
      + assert (NK : k <> KRelin) by (intros ->; auto). rewrite strip_not_relin in * by auto. cbn [fst snd] in *.
        cbn [top] in TN.
        assert (RN : forall r, In r res -> r < n).
        { intros r Hr. assert (LL : In r (map fst (subst s args) ++ res)) by (apply in_or_app; auto). apply list_max_ge in LL. lia. }
        assert (IL' : incl (sources s c) L) by (destruct k; auto; congruence).
        pose proof (less_allowed _ _ _ _ LE AL) as AL'. pose proof (less_rd k _ _ (less_degrees _ _ LE)) as RD.
        assert (MS : map snd (subst s args) = map snd args) by (unfold subst; rewrite map_map; auto).
        assert (EVS : (match k with KRelin => map fst ys | _ => ev f (map fst ys) end) = ev f (map fst ys')) by (rewrite (less_fst _ _ LE); destruct k; auto; congruence).
        assert (EVS' : (match k with KRelin => map fst ys' | _ => ev f (map fst ys') end) = ev f (map fst ys')) by (destruct k; auto; congruence).
        rewrite EVS in A. clear EVS.
        pose proof (assign_length _ _ _ _ A) as AL2. rewrite map_length in AL2.
        destruct (assign_spec _ _ _ _ W2 A) as [S1 S2]. apply F2_map_r in S1.
        assert (SRV : forall r, In r res -> sec r = match result_degree k (degrees D ys') with Some _ => true | None => false end).
        { intros r Hr. rewrite (SR r Hr), <- enc_rd, EN. apply existsb_fst. }
        (* the environment after the operation *)
        assert (GO : exists eQ1, exec2 (insert sec mem n (Do k f (subst s args) res (fst (strip s c)))) eQ = exec2 (insert sec mem n (fst (strip s c))) eQ1 /\
                  below (res ++ av) s e1 eQ1 /\ linear1 (res ++ avQ) eQ1).
        { cbn [insert]. destruct (all_secret sec res && mem (hd 0 res)) eqn:AI; cbn [exec]; rewrite MS, subst_fst;
            match goal with |- context [bind ?a _] => replace a with (Some ys') by (symmetry; exact LK') end; cbn [bind]; rewrite AL'; rewrite EVS'; clear EVS'.
          - destruct (assign_some (map (Nat.add n) res) (map (fun z => (z, result_degree k (degrees D ys'))) (ev f (map fst ys'))) eQ) as (eQ0 & A0); [rewrite !map_length; auto|].
            match goal with |- context [bind ?a _] => replace a with (Some eQ0) by (symmetry; exact A0) end. cbn [bind].
            destruct (assign_shift _ _ _ _ _ _ W2 A0) as [T1 T2].
            destruct (exec_relins D ev true n sec2 (insert sec mem n (fst (strip s c))) res _ eQ0 T1 RN W2) as (eQ1 & E & R1 & R2). exists eQ1. split; auto.
            apply F2_map_r in R1. split.
            + intros v Hv. destruct (in_dec Nat.eq_dec v res) as [IR|NR].
              * destruct (F2_in_l _ _ _ _ (F2_and _ _ _ _ S1 R1) IR) as (z & _ & Z1 & Z2). rewrite (i_id _ _ _ _ I) by auto.
                exists (z, result_degree k (degrees D ys)), (z, result_degree KRelin (degrees D [(z, result_degree k (degrees D ys'))])).
                split; [exact Z1|]. split; [exact Z2|].
                rewrite (SRV v IR). unfold less, enc. cbn [fst snd]. unfold degrees at 2 4. cbn [flat_map snd].
                destruct (result_degree k (degrees D ys)), (result_degree k (degrees D ys')); cbn; auto. repeat split; lia.
              * apply in_app_or in Hv. destruct Hv as [Hv|Hv]; [tauto|]. destruct (B v Hv) as (y & y' & E1 & E2 & LL). exists y, y'.
                assert (IQ : In (s v) avQ) by (apply (i_in _ _ _ _ I); auto).
                rewrite S2 by auto. rewrite R2, T2; auto.
                -- apply not_shift; auto.
                -- intros H. apply (W3 _ H). apply (i_sub _ _ _ _ I). auto.
            + intros u Hu MU. destruct (in_dec Nat.eq_dec u res) as [IR|NR].
              * destruct (F2_in_l _ _ _ _ R1 IR) as (z & _ & Z2). eexists. split; [exact Z2|]. unfold degrees at 1. cbn [flat_map snd].
                destruct (result_degree k (degrees D ys')); cbn; auto.
              * apply in_app_or in Hu. destruct Hu as [Hu|Hu]; [tauto|]. destruct (L1 u Hu MU) as (y & E1 & E2). exists y. rewrite R2, T2; auto. apply not_shift; auto.
          - destruct (assign_some res (map (fun z => (z, result_degree k (degrees D ys'))) (ev f (map fst ys'))) eQ) as (eQ1 & A0); [rewrite !map_length; auto|].
            match goal with |- context [bind ?a _] => replace a with (Some eQ1) by (symmetry; exact A0) end. cbn [bind].
            destruct (assign_spec _ _ _ _ W2 A0) as [T1 T2]. apply F2_map_r in T1. exists eQ1. split; auto. split.
            + intros v Hv. destruct (in_dec Nat.eq_dec v res) as [IR|NR].
              * destruct (F2_in_l _ _ _ _ (F2_and _ _ _ _ S1 T1) IR) as (z & _ & Z1 & Z2). rewrite (i_id _ _ _ _ I) by auto.
                exists (z, result_degree k (degrees D ys)), (z, result_degree k (degrees D ys')). split; [exact Z1|]. split; [exact Z2|]. split; [split; auto|]. rewrite (SRV v IR). auto.
              * apply in_app_or in Hv. destruct Hv as [Hv|Hv]; [tauto|]. destruct (B v Hv) as (y & y' & E1 & E2 & LL). exists y, y'.
                assert (IQ : In (s v) avQ) by (apply (i_in _ _ _ _ I); auto).
                rewrite S2 by auto. rewrite T2; auto. intros H. apply (W3 _ H). apply (i_sub _ _ _ _ I). auto.
            + intros u Hu MU. destruct (in_dec Nat.eq_dec u res) as [IR|NR].
              * destruct (F2_in_l _ _ _ _ T1 IR) as (z & _ & Z2). eexists. split; [exact Z2|]. cbn [snd].
                destruct res as [|r [|]]; [destruct IR| |cbn in SG1; lia]. destruct IR as [<-|[]]. cbn in AI. rewrite MU, andb_true_r in AI.
                rewrite andb_true_r in AI.
                rewrite (SRV r) in AI by (left; auto). destruct (result_degree k (degrees D ys')); [discriminate|auto].
              * apply in_app_or in Hu. destruct Hu as [Hu|Hu]; [tauto|]. destruct (L1 u Hu MU) as (y & E1 & E2). exists y. rewrite T2; auto. }
        destruct GO as (eQ1 & E & B1 & L1'). rewrite E. cbn [defs]. rewrite <- app_assoc.
        apply (IHc s (res ++ av) (res ++ avQ) e1 e' eQ1); auto.
        * apply inv_defs; auto.
        * lia.
        * intros v Hv. apply in_app_or in Hv. destruct Hv; auto.
Qed.
End Fewest.

Lemma count_relins n res c : count_relin (relins n res c) = length res + count_relin c.
Proof. induction res; cbn; auto. Qed.
Lemma count_insert sec is n c : norelin c -> single c -> count_relin (insert sec is n c) = cost sec is c.
Proof.
  induction c as [|k f args res c IHc|t inits bargs body IHb ys res c IHc]; intros NR SG; [auto|..]; cbn [norelin single cost insert] in *.
  - destruct NR as [NK NR]. destruct SG as [S1 SG]. destruct (all_secret sec res && is (hd 0 res)) eqn:E.
    + assert (L1 : length res = 1) by (destruct res as [|r [|]]; [discriminate|auto|cbn in S1; lia]).
      destruct k; try congruence; cbn; rewrite count_relins, IHc, L1; auto.
    + destruct k; try congruence; cbn; rewrite IHc; auto.
  - destruct NR as [NB NR]. destruct SG as (S1 & SB & SG). destruct (all_secret sec res && is (hd 0 res)) eqn:E; cbn [count_relin].
    + assert (L1 : length res = 1) by (destruct res as [|r [|]]; [discriminate|auto|cbn in S1; lia]).
      rewrite count_relins, IHb, IHc, L1; auto. lia.
    + rewrite IHb, IHc; auto.
Qed.
Lemma defs_nodup c : forall av, wf av c -> NoDup (defs c).
Proof.
  assert (AP : forall (l l' : list nat), NoDup l -> NoDup l' -> (forall v, In v l' -> ~ In v l) -> NoDup (l ++ l')).
  { induction l as [|a l IH]; intros l' N N' H; cbn; auto. inversion N; subst. constructor.
    - rewrite in_app_iff. intros [C|C]; auto. apply (H a C). left; auto.
    - apply IH; auto. intros v Hv C. apply (H v Hv). right; auto. }
  induction c as [|k f args res c IHc|t inits bargs body IHb ys res c IHc]; intros av W; [constructor|..]; cbn [wf defs] in *.
  - destruct W as (W1 & W2 & W3 & W4 & W5). apply AP; eauto. intros v Hv. eapply wf_defs; eauto. apply in_or_app; auto.
  - destruct W as (W1 & W2 & W3 & W4 & W5 & W6 & W7 & W8 & W9 & W10 & W11). apply AP; eauto. intros v Hv. eapply wf_defs; eauto. apply in_or_app; auto.
Qed.
Lemma cost_filter sec is c : flat c -> cost sec is c <= length (filter is (defs c)).
Proof.
  induction c as [|k f args res c IHc|]; intros FL; [auto|..|destruct FL]. cbn [flat cost defs] in *. rewrite filter_app, app_length. specialize (IHc FL).
  destruct (all_secret sec res && is (hd 0 res)) eqn:E; [|lia]. apply andb_prop in E. destruct E as [E1 E2].
  destruct res as [|r res]; [discriminate|]. cbn in E2. cbn [filter]. rewrite E2. cbn [length]. lia.
Qed.
Lemma cost_mem sec L c av : flat c -> wf av c -> cost sec (mem L) c <= length L.
Proof.
  intros FL W. etransitivity; [apply cost_filter; auto|]. apply NoDup_incl_length.
  - apply NoDup_filter. eapply defs_nodup; eauto.
  - intros v Hv. apply filter_In in Hv. apply mem_in. tauto.
Qed.

(** any legal program gives a legal placement that is no more expensive *)
Theorem legal_placement D ev sec dim p xs ys :
  wf_prog p -> flat (pcode p) -> single (pcode p) -> secretness sec (pcode p) ->
  good_args sec (fun _ => 1) (pargs p) xs -> args_dim sec dim (fun _ => 1) (pargs p) ->
  run D ev sec true true p xs = Some ys ->
  exists x, feasible sec true dim x (strip_prog p) /\ cost sec (ins x) (pcode (strip_prog p)) <= count_relin (pcode p).
Proof.
  intros W FL SG SC G AD R. destruct (strip_prog_ok _ _ W SC) as (WQ & SQ & NR). pose proof W as (N & W1 & O).
  set (L := sources (fun v => v) (pcode p)).
  assert (RUN : exists zs, run D ev sec true true (insert_prog sec (mem L) (strip_prog p)) xs = Some zs).
  { assert (AN : forall v, In v (pargs p) -> v < fresh (strip_prog p)).
    { intros v Hv. apply fresh_io, in_or_app. rewrite strip_prog_eq. auto. }
    assert (TN : top (fst (strip (fun v => v) (pcode p))) < fresh (strip_prog p)).
    { pose proof (fresh_top (strip_prog p)) as Z. rewrite strip_prog_eq in Z at 1. exact Z. }
    unfold run, insert_prog in *. cbn [pargs pcode outs] in *. revert AN TN. generalize (fresh (strip_prog p)) as n. intros n AN TN.
    match type of R with bind ?a _ = _ => destruct a as [e|] eqn:A; cbn [bind] in R; [|discriminate] end.
    match type of R with bind ?a _ = _ => destruct a as [e'|] eqn:X; cbn [bind] in R; [|discriminate] end.
    match type of R with bind ?a _ = _ => destruct a as [zs|] eqn:LK; cbn [bind] in R; [|discriminate] end.
    cbn [negb orb] in *. destruct (forallb (returnable D) zs) eqn:RET; [|discriminate].
    rewrite strip_prog_eq. cbn [pargs pcode outs].
    match goal with |- exists _, bind ?a _ = _ => replace a with (Some e) by (symmetry; exact A) end. cbn [bind].
    destruct (assign_spec _ _ _ _ N A) as [S1 S2]. pose proof (F2_and _ _ _ _ S1 G) as SG1.
    assert (E0 : forall a, In a (pargs p) -> exists y, e a = Some y /\ snd y = if sec a then Some 1 else None).
    { intros a Ha. destruct (F2_in_l _ _ _ _ SG1 Ha) as (y & _ & Z1 & Z2). eauto. }
    destruct (sim D ev sec sec sec n L (pcode p) (fun v => v) (pargs p) (pargs p) e e' e) as (eQ & XQ & BQ); auto.
    - apply inv_id.
    - apply incl_refl.
    - intros v Hv. destruct (E0 v Hv) as (y & E1 & E2). exists y, y. split; auto. split; auto. unfold less, enc. rewrite E2. destruct (sec v); auto.
    - intros u Hu _. destruct (E0 u Hu) as (y & E1 & E2). exists y. split; auto. rewrite E2. destruct (sec u); auto.
    - match goal with |- exists _, bind ?a _ = _ => replace a with (Some eQ) by (symmetry; exact XQ) end. cbn [bind].
      destruct (below_lookups _ _ _ _ _ _ _ _ BQ O LK) as (zs' & LK' & LE & _).
      match goal with |- exists _, bind ?a _ = _ => replace a with (Some zs') by (symmetry; exact LK') end. cbn [bind].
      assert (RET' : forallb (returnable D) zs' = true).
      { clear - RET LE. induction LE as [|y y' ys ys' [_ E] F IH]; cbn; auto. cbn in RET. apply andb_prop in RET. destruct RET as [R1 R2].
        rewrite IH; auto. unfold returnable in *. destruct (snd y), (snd y'); auto; try tauto. apply Nat.eqb_eq in R1. subst. rewrite andb_true_r. apply Nat.eqb_eq. lia. }
      rewrite RET'. eauto. }
  destruct RUN as (zs & RUN). destruct WQ as (NQ & WQ & OQ).
  assert (PA : pargs (strip_prog p) = pargs p) by (rewrite strip_prog_eq; auto).
  assert (PC : pcode (strip_prog p) = fst (strip (fun v => v) (pcode p))) by (rewrite strip_prog_eq; auto).
  destruct (insert_complete D ev sec true sec dim (mem L) (strip_prog p) (fun _ => 1) xs zs) as (x & IX & FX); auto.
  - split; auto.
  - rewrite PC. apply flat_strip; auto.
  - rewrite PA. auto.
  - rewrite PA. auto.
  - exists x. split; auto. rewrite IX. unfold L. rewrite <- (sources_length (pcode p) (fun v => v) (pargs p)) by auto.
    eapply cost_mem; eauto. rewrite PC. apply flat_strip; auto.
Qed.

Theorem optimize_fewest D ev sec dim x p p' xs ys :
  wf_prog p' -> flat (pcode p') -> single (pcode p') -> secretness sec (pcode p') ->
  good_args sec (fun _ => 1) (pargs p') xs -> args_dim sec dim (fun _ => 1) (pargs p') ->
  run D ev sec true true p' xs = Some ys -> strip_prog p' = strip_prog p ->
  (forall x', feasible sec true dim x' (strip_prog p) -> cost sec (ins x) (pcode (strip_prog p)) <= cost sec (ins x') (pcode (strip_prog p))) ->
  count_relin (pcode (optimize sec x p)) <= count_relin (pcode p').
Proof.
  intros W FL SG SC G AD R SP OPT. destruct (legal_placement _ _ _ _ _ _ _ W FL SG SC G AD R) as (x' & F & C).
  destruct (strip_prog_ok _ _ W SC) as (_ & _ & NR). rewrite SP in *. specialize (OPT x' F).
  unfold optimize, insert_prog. cbn [pcode]. rewrite count_insert; [lia|auto|].
  rewrite <- SP, strip_prog_eq. cbn [pcode]. apply single_strip; auto.
Qed.
