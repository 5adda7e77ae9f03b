(** The dimension analysis: soundness, exactness for straight-line programs, bounds for the iteration. *)
From Coq Require Import List Bool Arith Lia.
From Verif Require Import Relin_Model Relin_Spec Relin_Proofs RelinStrip_Proofs Relin2_Proofs Relin3_Proofs Relin4_Proofs.
Import ListNotations.
Local Open Scope nat_scope.

(** * Joins *)
Definition leo (a b : option nat) : Prop := match a, b with None, _ => True | Some x, Some y => x <= y | Some _, None => False end.
Lemma leo_refl a : leo a a. Proof. destruct a; cbn; auto. Qed.
Lemma leo_trans a b c : leo a b -> leo b c -> leo a c.
Proof. destruct a, b, c; cbn; try tauto. lia. Qed.
Lemma leo_join_l a b : leo a (join a b). Proof. destruct a, b; cbn; auto. lia. Qed.
Lemma leo_join_r a b : leo b (join a b). Proof. destruct a, b; cbn; auto. lia. Qed.
Lemma join_lub a b c : leo a c -> leo b c -> leo (join a b) c.
Proof. destruct a, b, c; cbn; auto; lia. Qed.
Lemma join_eq a b : leo b a -> join a b = a.
Proof. destruct a, b; cbn; try tauto; auto. intros. f_equal. lia. Qed.

Lemma fold_join_spec d l : forall st u, NoDup l -> fold_left (join_into d) l st u = if in_dec Nat.eq_dec u l then join (st u) d else st u.
Proof.
  induction l as [|v l IH]; intros st u N; cbn [fold_left]; auto. inversion N; subst. rewrite IH by auto. unfold join_into.
  destruct (in_dec Nat.eq_dec u l) as [I|NI], (in_dec Nat.eq_dec u (v :: l)) as [I'|NI'], (Nat.eqb_spec u v); subst; auto; try tauto;
    try (exfalso; apply NI'; cbn; auto; fail). destruct I' as [<-|]; tauto.
Qed.
Lemma fold_join_up d l : forall st u, leo (st u) (fold_left (join_into d) l st u).
Proof.
  induction l as [|v l IH]; intros st u; cbn; [apply leo_refl|]. eapply leo_trans; [|apply IH]. unfold join_into.
  destruct (u =? v); [apply leo_join_l|apply leo_refl].
Qed.
Lemma fold_join_in d l : forall st u, In u l -> leo d (fold_left (join_into d) l st u).
Proof.
  induction l as [|v l IH]; intros st u; cbn; [tauto|]. intros [<-|I]; [|auto]. eapply leo_trans; [|apply fold_join_up].
  unfold join_into. rewrite Nat.eqb_refl. apply leo_join_r.
Qed.
Definition leo_st (st st' : dims) : Prop := forall u, leo (st u) (st' u).
Lemma fold_join_le d l st' : (forall u, In u l -> leo d (st' u)) -> forall st, leo_st st st' -> leo_st (fold_left (join_into d) l st) st'.
Proof.
  induction l as [|v l IH]; intros H st L; cbn; auto. apply IH; [intros; apply H; right; auto|]. intros u. unfold join_into.
  destruct (Nat.eqb_spec u v); [|apply L]. apply join_lub; [apply L|]. subst. apply H. left; auto.
Qed.

Section Dim.
  Variable sec : nat -> bool.
  Notation relin_secret := (relin_secret sec).

  Lemma dim_loop_mono mul st st' vs : leo_st st st' -> forall acc acc', acc <= acc' -> leo (dim_loop mul st vs acc) (dim_loop mul st' vs acc').
  Proof.
    intros L. induction vs as [|v vs IH]; intros acc acc' LE; cbn; auto. specialize (L v). destruct (st v) as [d|]; cbn; auto.
    destruct (st' v) as [d'|]; [|destruct L]. cbn in L. apply IH. destruct mul; lia.
  Qed.
  Lemma visit_op_mono st st' k args : leo_st st st' -> leo (visit_op sec st k args) (visit_op sec st' k args).
  Proof.
    intros L. pose proof (dim_loop_mono true st st' (secret_operands sec args) L 0 0 (le_n _)) as M.
    pose proof (dim_loop_mono false st st' (secret_operands sec args) L 2 2 (le_n _)) as M'.
    unfold visit_op. destruct k; auto; try apply leo_refl. destruct (dim_loop true st _ 0), (dim_loop true st' _ 0); cbn in *; auto. destruct (_ =? 2); lia.
  Qed.
  Lemma visit_up st u v : leo (st v) (visit sec st u v).
  Proof.
    destruct u as [k args res|a b]; cbn [visit].
    - destruct k; apply fold_join_up.
    - unfold join_into. destruct (v =? b); [apply leo_join_l|apply leo_refl].
  Qed.
  (** every run of the solver stays below every stable state above the start *)
  Lemma visit_below c st' : stable sec c st' -> forall u st, In u (updates c) -> leo_st st st' -> leo_st (visit sec st u) st'.
  Proof.
    intros S u st Hu L. specialize (S u Hu). destruct u as [k args res|a b]; cbn [visit] in *.
    - assert (RES : forall r, In r (match k with KRelin => res | _ => filter sec res end) -> leo (visit_op sec st' k args) (st' r)).
      { intros r Hr. rewrite <- S. destruct k; apply fold_join_in; auto. }
      pose proof (visit_op_mono st st' k args L) as M.
      destruct k; apply fold_join_le; auto; intros r Hr; eapply leo_trans; eauto.
    - intros v. unfold join_into. destruct (Nat.eqb_spec v b); [|apply L]. subst. specialize (S b). unfold join_into in S. rewrite Nat.eqb_refl in S.
      apply join_lub; [apply L|]. eapply leo_trans; [apply L|]. rewrite <- S. apply leo_join_r.
  Qed.
  Theorem run_below c st st' us : stable sec c st' -> leo_st st st' -> incl us (updates c) -> leo_st (fold_left (visit sec) us st) st'.
  Proof.
    intros S. revert st. induction us as [|u us IH]; intros st L I; cbn; auto. apply IH; [|intros w Hw; apply I; right; auto].
    eapply visit_below; eauto. apply I. left; auto.
  Qed.

  (** * Soundness *)
  Variable D : Type.
  Variable ev : nat -> list D -> list D.
  Variable mixed : bool.
  Notation exec := (exec D ev sec mixed false).
  Notation val := (val D).

  Section Sound.
    Variable st : dims.
    Notation initialized := (initialized sec st).
    Definition bnd (v : nat) (y : val) : Prop :=
      match snd y with Some d => sec v = true /\ exists m, st v = Some m /\ 1 <= d /\ S d <= m | None => sec v = false end.
    Definition bounded (av : list nat) (e : nat -> option val) : Prop := forall v, In v av -> exists y, e v = Some y /\ bnd v y.

    Lemma bounded_lookups av e vs ys : bounded av e -> incl vs av -> lookups e vs = Some ys -> Forall2 bnd vs ys.
    Proof.
      intros B. revert ys. induction vs as [|v vs IH]; intros ys I L; [cbn in L; injection L as <-; auto|].
      apply lookups_cons in L. destruct L as (y & zs & E & L & ->). destruct (B v (I v (or_introl eq_refl))) as (y' & E' & O).
      rewrite E in E'. injection E' as <-. constructor; auto. apply IH; auto. intros u Hu; apply I; right; auto.
    Qed.
    Lemma bounded_assign av e vs ys e' : bounded av e -> NoDup vs -> assign vs ys e = Some e' -> Forall2 bnd vs ys -> bounded (vs ++ av) e'.
    Proof.
      intros B N A F v Hv. destruct (assign_spec _ _ _ _ N A) as [S1 S2]. destruct (in_dec Nat.eq_dec v vs) as [I|NI].
      - destruct (F2_in_l _ _ _ _ (F2_and _ _ _ _ S1 F) I) as (y & _ & Z1 & Z2). eauto.
      - apply in_app_or in Hv. destruct Hv as [Hv|Hv]; [tauto|]. destruct (B v Hv) as (y & E & O). exists y. rewrite S2; auto.
    Qed.
    (** the analysis of the operands *)
    Lemma loop_sum vs ys : Forall2 bnd vs ys -> forall acc, exists m, dim_loop true st (filter sec vs) acc = Some m /\
      acc + list_sum (degrees D ys) + length (filter sec vs) <= m /\ length (degrees D ys) = length (filter sec vs).
    Proof.
      induction 1 as [|v y vs ys O F IH]; intros acc; [exists acc; cbn; repeat split; lia|]. cbn [filter]. change (degrees D (y :: ys)) with (match snd y with Some d => [d] | None => [] end ++ degrees D ys).
      unfold bnd in O. destruct (snd y) as [d|].
      - destruct O as (-> & m & E & _ & LE). cbn [dim_loop]. rewrite E. destruct (IH (acc + m)) as (m' & E' & LE' & LL). exists m'. split; auto.
        rewrite list_sum_app, app_length. cbn [length]. change (list_sum [d]) with (d + 0). lia.
      - rewrite O. apply IH.
    Qed.
    Lemma loop_max vs ys : Forall2 bnd vs ys -> forall acc, exists m, dim_loop false st (filter sec vs) acc = Some m /\ acc <= m /\
      Forall (fun d => S d <= m) (degrees D ys).
    Proof.
      induction 1 as [|v y vs ys O F IH]; intros acc; [exists acc; cbn; auto|]. cbn [filter]. unfold degrees in *. cbn [flat_map].
      unfold bnd in O. destruct (snd y) as [d|].
      - destruct O as (-> & m & E & _ & LE). cbn [dim_loop]. rewrite E. destruct (IH (Nat.max acc m)) as (m' & E' & LE' & LL). exists m'. split; auto.
        split; [lia|]. apply Forall_app. split; auto. constructor; auto. lia.
      - rewrite O. apply IH.
    Qed.
    Lemma degrees_ge vs ys : Forall2 bnd vs ys -> Forall (fun d => 1 <= d) (degrees D ys).
    Proof.
      induction 1 as [|v y vs ys O F IH]; cbn; auto. apply Forall_app. split; auto. unfold bnd in O. destruct (snd y); constructor; auto.
      destruct O as (_ & m & _ & ? & _). auto.
    Qed.
    Lemma bnd_rd k vs ys : Forall2 bnd vs ys -> existsb sec vs = match result_degree k (degrees D ys) with Some _ => true | None => false end.
    Proof.
      intros F. transitivity (match degrees D ys with [] => false | _ => true end); [|destruct (degrees D ys); auto].
      induction F as [|v y vs ys O F IH]; auto. cbn. unfold bnd in O. fold (degrees D ys). destruct (snd y); [destruct O as [-> _]; auto|rewrite O; auto].
    Qed.
    Lemma visit_op_bound k args (ys : list val) d :
      match k with KMul => length args = 2 | _ => True end ->
      Forall2 bnd (map fst args) ys -> result_degree k (degrees D ys) = Some d ->
      1 <= d /\ exists m, visit_op sec st k args = Some m /\ S d <= m.
    Proof.
      intros SH F RD. pose proof (degrees_ge _ _ F) as GE. unfold visit_op, secret_operands. unfold result_degree in RD.
      assert (ED : d = match k with KRelin => 1 | KMul => list_sum (degrees D ys) | _ => list_max (degrees D ys) end /\ degrees D ys <> [])
        by (destruct (degrees D ys); [discriminate|split; [congruence|discriminate]]).
      destruct ED as [-> NE]. clear RD.
      assert (MAX : 1 <= list_max (degrees D ys) /\ exists m, dim_loop false st (filter sec (map fst args)) 2 = Some m /\ S (list_max (degrees D ys)) <= m).
      { split; [apply list_max_pos; auto|]. destruct (loop_max _ _ F 2) as (m & E & L & FA). exists m. split; auto.
        rewrite Forall_forall in FA. apply FA. apply list_max_in; auto. }
      destruct k; auto.
      - split; [apply list_sum_ge; auto|]. destruct (loop_sum _ _ F 0) as (m & E & L & LL). rewrite E. cbn [option_map]. eexists. split; eauto.
        assert (LN : length (filter sec (map fst args)) <= 2).
        { rewrite <- SH, <- (map_length fst args). clear. induction (map fst args) as [|a l IH]; cbn; auto. destruct (sec a); cbn; lia. }
        assert (L1 : 1 <= length (degrees D ys)) by (destruct (degrees D ys); [congruence|cbn; lia]).
        destruct (Nat.eqb_spec (length (filter sec (map fst args))) 2); lia.
      - split; [lia|]. exists 2. auto.
    Qed.

    Lemma flow_bound a b (w : val) : bnd a w -> (sec a = true -> sec b = true) -> leo (st a) (st b) ->
      (sec b = true -> exists m, st b = Some m /\ 2 <= m) -> bnd b (encrypt D (sec b) w).
    Proof.
      intros O SI L INI. unfold bnd, encrypt in *. destruct (snd w) as [d|] eqn:E.
      - destruct O as (Sa & m & Ea & D1 & LE). rewrite (SI Sa). rewrite E. split; auto. rewrite Ea in L. destruct (st b) as [m'|]; [|destruct L]. cbn in L. exists m'. repeat split; auto. lia.
      - destruct (sec b) eqn:Sb; cbn; [|rewrite E; auto]. split; auto. destruct INI as (m & Em & L2); auto. exists m. auto.
    Qed.
    Lemma flows_bound names : forall bs (ws : list val), Forall2 bnd names ws -> length bs = length names ->
      (forall a b, In (a, b) (combine names bs) -> (sec a = true -> sec b = true) /\ leo (st a) (st b)) ->
      initialized bs -> Forall2 bnd bs (encrypts D sec bs ws).
    Proof.
      induction names as [|a names IH]; intros bs ws F LN H INI; inversion F; subst; destruct bs as [|b bs]; try discriminate; [constructor|].
      unfold encrypts. cbn [combine map fst snd]. constructor.
      - destruct (H a b) as [H1' H2']; [left; auto|]. eapply flow_bound; eauto. intros Sb. apply INI; auto. left; auto.
      - apply IH; auto. + intros a' b' I. apply H. right; auto. + intros v Hv. apply INI. right; auto.
    Qed.

    Lemma dim_sound c : forall av e e', wf av c -> secretness sec c -> (forall u, In u (updates c) -> forall v, visit sec st u v = st v) ->
      initialized (carried c) -> bounded av e -> exec c e = Some e' -> bounded (defs c ++ av) e'.
    Proof.
      induction c as [|k f args res c IHc|t inits bargs body IHb ys res c IHc]; intros av e e' W SC ST INI B X.
      - cbn in X. injection X as <-. auto.
      - cbn [wf secretness updates carried defs] in *. destruct W as (W1 & W2 & W3 & W4 & W5). destruct SC as [SR SC].
        cbn [Relin_Spec.exec] in X. destruct (lookups e (map fst args)) as [vs|] eqn:L; cbn [bind] in X; [|discriminate].
        unfold allowed in X. cbn [negb orb] in X.
        match type of X with bind ?a _ = _ => destruct a as [e1|] eqn:A; cbn [bind] in X; [|discriminate] end.
        pose proof (bounded_lookups _ _ _ _ B W1 L) as O. rewrite <- app_assoc. apply (IHc _ e1); auto; [intros u Hu; apply ST; right; auto|].
        eapply bounded_assign; eauto. apply F2_map_r.
        assert (LN : length res = length (match k with KRelin => map fst vs | _ => ev f (map fst vs) end)) by (apply assign_length in A; rewrite map_length in A; auto).
        assert (SRV : forall r, In r res -> sec r = existsb sec (map fst args)) by (intros r Hr; rewrite (SR r Hr); apply existsb_fst).
        assert (OK : forall r z, In r res -> bnd r (z, result_degree k (degrees D vs))).
        { intros r z Hr. unfold bnd. cbn [snd]. rewrite (SRV r Hr), (bnd_rd k _ _ O). destruct (result_degree k (degrees D vs)) as [d|] eqn:RD; auto. split; auto.
          destruct (visit_op_bound k args vs d) as (D1 & m & VO & LE); auto; [destruct k; tauto|].
          assert (SRr : sec r = true) by (rewrite (SRV r Hr), (bnd_rd k _ _ O), RD; auto).
          assert (LL : leo (Some m) (st r)).
          { rewrite <- VO. rewrite <- (ST (UOp k args res) (or_introl eq_refl) r). cbn [visit].
            destruct k; try (apply fold_join_in; rewrite filter_In; auto). cbn [visit_op]. apply fold_join_in; auto. }
          destruct (st r) as [m'|]; [|destruct LL]. cbn in LL. exists m'. repeat split; auto. lia. }
        revert OK LN. generalize (match k with KRelin => map fst vs | _ => ev f (map fst vs) end). clear. induction res as [|r res IH]; intros [|z l] OK LN; try discriminate; constructor.
        + apply OK. left; auto.
        + apply IH; auto. intros; apply OK; right; auto.
      - cbn [wf secretness updates carried defs] in *. destruct W as (W1 & W2 & W3 & W4 & W5 & W6 & W7 & W8 & W9 & W10 & W11). destruct SC as (SF & SB & SC).
        cbn [Relin_Spec.exec] in X. destruct (lookups e inits) as [vs|] eqn:L; cbn [bind] in X; [|discriminate].
        pose proof (bounded_lookups _ _ _ _ B W1 L) as O.
        assert (FLOW : forall a b, In (a, b) (combine inits bargs ++ combine ys bargs ++ combine inits res ++ combine ys res) -> (sec a = true -> sec b = true) /\ leo (st a) (st b)).
        { intros a b H. split; [apply (SF a b H)|]. specialize (ST (UFlow a b)). rewrite <- ST with (v := b).
          - cbn [visit]. unfold join_into. rewrite Nat.eqb_refl. apply leo_join_r.
          - apply in_or_app. left. apply in_map_iff. exists (a, b). auto. }
        assert (ITER : forall t' zs, Nat.iter t' (fun o => bind o (fun ws => bind (assign bargs (encrypts D sec bargs ws) e) (fun e1 => bind (exec body e1) (fun e2 => lookups e2 ys)))) (Some vs) = Some zs ->
                  exists names, Forall2 bnd names zs /\ (names = inits \/ names = ys)).
        { clear X. induction t' as [|t' IHt]; intros zs P; [cbn in P; injection P as <-; eauto|]. rewrite iter_S in P.
          match type of P with bind ?o _ = _ => destruct o as [zs0|] eqn:E0; cbn [bind] in P; [|discriminate] end.
          destruct (IHt zs0 eq_refl) as (names & FN & NM).
          match type of P with bind ?o _ = _ => destruct o as [e1|] eqn:A1; cbn [bind] in P; [|discriminate] end.
          match type of P with bind ?o _ = _ => destruct o as [e2|] eqn:X2; cbn [bind] in P; [|discriminate] end.
          exists ys. split; auto. eapply bounded_lookups; [|exact W10|exact P].
          apply (IHb (bargs ++ av) e1); auto.
          - intros u Hu. apply ST. rewrite !in_app_iff. auto.
          - intros v Hv. apply INI. rewrite !in_app_iff. auto.
          - eapply bounded_assign; eauto. eapply flows_bound; eauto.
            + destruct NM as [->| ->]; congruence.
            + intros a b H. apply FLOW. rewrite !in_app_iff. destruct NM as [->| ->]; auto.
            + intros v Hv. apply INI. rewrite !in_app_iff. auto. }
        match type of X with bind ?o _ = _ => destruct o as [zs|] eqn:E0; cbn [bind] in X; [|discriminate] end.
        destruct (ITER t zs E0) as (names & FN & NM).
        match type of X with bind ?o _ = _ => destruct o as [e1|] eqn:A1; cbn [bind] in X; [|discriminate] end.
        rewrite <- app_assoc. apply (IHc _ e1); auto.
        + intros u Hu. apply ST. rewrite !in_app_iff. auto.
        + intros v Hv. apply INI. rewrite !in_app_iff. auto.
        + eapply bounded_assign; eauto. eapply flows_bound; eauto.
          * destruct NM as [->| ->]; congruence.
          * intros a b H. apply FLOW. rewrite !in_app_iff. destruct NM as [->| ->]; auto.
          * intros v Hv. apply INI. rewrite !in_app_iff. auto.
    Qed.
  End Sound.

  (** * Straight-line programs *)
  Definition okx (st : dims) (v : nat) (y : val) : Prop :=
    st v = option_map S (snd y) /\ match snd y with Some d => sec v = true /\ 1 <= d | None => sec v = false end.
  Definition exact (st : dims) (av : list nat) (e : nat -> option val) : Prop := forall v, In v av -> exists y, e v = Some y /\ okx st v y.

  Lemma okx_bnd st v y : okx st v y -> bnd st v y.
  Proof. intros [E O]. unfold bnd. destruct (snd y) as [d|]; auto. destruct O as [S1 D1]. split; auto. exists (S d). cbn in E. auto. Qed.
  Lemma exact_lookups st av e vs ys : exact st av e -> incl vs av -> lookups e vs = Some ys -> Forall2 (okx st) vs ys.
  Proof.
    intros B. revert ys. induction vs as [|v vs IH]; intros ys I L; [cbn in L; injection L as <-; auto|].
    apply lookups_cons in L. destruct L as (y & zs & E & L & ->). destruct (B v (I v (or_introl eq_refl))) as (y' & E' & O).
    rewrite E in E'. injection E' as <-. constructor; auto. apply IH; auto. intros u Hu; apply I; right; auto.
  Qed.
  Lemma exact_sum st vs ys : Forall2 (okx st) vs ys -> forall acc,
    dim_loop true st (filter sec vs) acc = Some (acc + list_sum (degrees D ys) + length (filter sec vs)).
  Proof.
    induction 1 as [|v y vs ys [E O] F IH]; intros acc; [cbn; f_equal; lia|]. cbn [filter].
    change (degrees D (y :: ys)) with (match snd y with Some d => [d] | None => [] end ++ degrees D ys). rewrite list_sum_app.
    destruct (snd y) as [d|].
    - destruct O as [-> _]. cbn [dim_loop]. rewrite E. cbn [option_map]. rewrite IH. f_equal. cbn [length]. change (list_sum [d]) with (d + 0). lia.
    - rewrite O, IH. f_equal.
  Qed.
  Lemma exact_max st vs ys : Forall2 (okx st) vs ys -> forall acc,
    dim_loop false st (filter sec vs) acc = Some (Nat.max acc (list_max (map S (degrees D ys)))).
  Proof.
    induction 1 as [|v y vs ys [E O] F IH]; intros acc; [cbn; f_equal; lia|]. cbn [filter].
    change (degrees D (y :: ys)) with (match snd y with Some d => [d] | None => [] end ++ degrees D ys).
    destruct (snd y) as [d|].
    - destruct O as [-> _]. cbn [dim_loop]. rewrite E. cbn [option_map]. rewrite IH. f_equal. cbn [app map]. rewrite list_max_cons. lia.
    - rewrite O, IH. f_equal.
  Qed.
  Lemma list_max_S l : l <> [] -> list_max (map S l) = S (list_max l).
  Proof.
    induction l as [|a l IH]; [congruence|]. intros _. cbn [map]. rewrite !list_max_cons. destruct l as [|b l]; [cbn; lia|]. rewrite IH by discriminate. lia.
  Qed.
  Lemma visit_op_exact st k args (ys : list val) d :
    match k with KMul => length args = 2 | _ => True end ->
    Forall2 (okx st) (map fst args) ys -> result_degree k (degrees D ys) = Some d -> visit_op sec st k args = Some (S d).
  Proof.
    intros SH F RD.
    assert (FB : Forall2 (bnd st) (map fst args) ys) by (eapply F2_impl; [|exact F]; intros; apply okx_bnd; auto).
    pose proof (degrees_ge st _ _ FB) as GE. pose proof (exact_sum st _ _ F 0) as SU. pose proof (exact_max st _ _ F 2) as MX.
    destruct (loop_sum st _ _ FB 0) as (_ & _ & _ & LL).
    unfold visit_op, secret_operands. unfold result_degree in RD.
    assert (ED : d = match k with KRelin => 1 | KMul => list_sum (degrees D ys) | _ => list_max (degrees D ys) end /\ degrees D ys <> [])
      by (destruct (degrees D ys); [discriminate|split; [congruence|discriminate]]).
    destruct ED as [-> NE]. clear RD.
    assert (MAX : dim_loop false st (filter sec (map fst args)) 2 = Some (S (list_max (degrees D ys)))).
    { rewrite MX. f_equal. rewrite list_max_S by auto. pose proof (list_max_pos _ GE NE). lia. }
    destruct k; auto. rewrite SU. cbn [option_map]. f_equal.
    assert (LN : length (filter sec (map fst args)) <= 2).
    { rewrite <- SH, <- (map_length fst args). clear. induction (map fst args) as [|a l IH]; cbn; auto. destruct (sec a); cbn; lia. }
    assert (L1 : 1 <= length (degrees D ys)) by (destruct (degrees D ys); [congruence|cbn; lia]).
    destruct (Nat.eqb_spec (length (filter sec (map fst args))) 2); lia.
  Qed.
  Lemma visit_op_ext st st' k args : (forall a, In a (map fst args) -> st a = st' a) -> visit_op sec st k args = visit_op sec st' k args.
  Proof.
    intros E. assert (L : forall mul acc, dim_loop mul st (secret_operands sec args) acc = dim_loop mul st' (secret_operands sec args) acc).
    { intros mul. unfold secret_operands. assert (E' : forall a, In a (filter sec (map fst args)) -> st a = st' a) by (intros a Ha; apply filter_In in Ha; apply E; tauto).
      revert E'. generalize (filter sec (map fst args)). induction l as [|a l IH]; intros E' acc; cbn; auto. rewrite <- E' by (left; auto). destruct (st a); auto. apply IH. intros; apply E'; right; auto. }
    unfold visit_op. rewrite !L. auto.
  Qed.

  Lemma dim_exact c : forall av e e' st, flat c -> wf av c -> secretness sec c -> relin_secret c -> exact st av e ->
    (forall v, ~ In v av -> st v = None) -> exec c e = Some e' ->
    let F := fold_left (visit sec) (updates c) st in
    exact F (defs c ++ av) e' /\ (forall v, ~ In v (defs c) -> F v = st v) /\ stable sec c F.
  Proof.
    induction c as [|k f args res c IHc|]; intros av e e' st FL W SC RS EX NN X; [..|destruct FL].
    - cbn in X. injection X as <-. cbn. split; auto. split; auto. intros u [].
    - cbn [flat wf secretness Relin_Spec.relin_secret updates defs fold_left] in *. destruct W as (W1 & W2 & W3 & W4 & W5). destruct SC as [SR SC]. destruct RS as [RS0 RS].
      cbn [Relin_Spec.exec] in X. destruct (lookups e (map fst args)) as [vs|] eqn:L; cbn [bind] in X; [|discriminate].
      unfold allowed in X. cbn [negb orb] in X.
      match type of X with bind ?a _ = _ => destruct a as [e1|] eqn:A; cbn [bind] in X; [|discriminate] end.
      pose proof (exact_lookups _ _ _ _ _ EX W1 L) as O.
      assert (FB : Forall2 (bnd st) (map fst args) vs) by (eapply F2_impl; [|exact O]; intros; apply okx_bnd; auto).
      assert (SRV : forall r, In r res -> sec r = match result_degree k (degrees D vs) with Some _ => true | None => false end).
      { intros r Hr. rewrite (SR r Hr), <- (bnd_rd st k _ _ FB). apply existsb_fst. }
      set (st1 := visit sec st (UOp k args res)).
      assert (SH : match k with KMul => length args = 2 | _ => True end) by (destruct k; tauto).
      assert (RES : forall st0, visit_op sec st0 k args = visit_op sec st k args -> forall v, visit sec st0 (UOp k args res) v =
                if in_dec Nat.eq_dec v res then join (st0 v) (option_map S (result_degree k (degrees D vs))) else st0 v).
      { intros st0 E0 v. destruct (result_degree k (degrees D vs)) as [d|] eqn:RD.
        - assert (FR : filter sec res = res).
          { clear - SRV. induction res as [|r res IH]; auto. cbn. rewrite SRV by (left; auto). f_equal. apply IH. intros; apply SRV; right; auto. }
          pose proof (visit_op_exact st k args vs d SH O RD) as VO. rewrite <- E0 in VO. cbn [visit option_map].
          destruct k; rewrite ?FR, ?VO; rewrite fold_join_spec by auto; auto. cbn in VO. injection VO as <-. auto.
        - assert (FR : filter sec res = []).
          { clear - SRV. induction res as [|r res IH]; auto. cbn. rewrite SRV by (left; auto). apply IH. intros; apply SRV; right; auto. }
          cbn [visit option_map]. assert (JN : (if in_dec Nat.eq_dec v res then join (st0 v) None else st0 v) = st0 v) by (destruct (in_dec Nat.eq_dec v res); auto; destruct (st0 v); auto). rewrite JN. destruct k; rewrite ?FR; auto.
          (* relinearization of a value that is not secret *)
          exfalso. specialize (RS0 eq_refl). destruct W4 as [LA _]. destruct args as [|[a fl] [|]]; try discriminate. cbn in RS0. rewrite andb_true_r in RS0.
          pose proof (bnd_rd st KRelin _ _ FB) as Z. rewrite RD in Z. cbn in Z. rewrite RS0 in Z. discriminate. }
      assert (ST1 : forall v, st1 v = if in_dec Nat.eq_dec v res then option_map S (result_degree k (degrees D vs)) else st v).
      { intros v. unfold st1. rewrite RES by auto. destruct (in_dec Nat.eq_dec v res) as [I|]; auto. rewrite NN by (apply W3; auto). cbn. auto. }
      assert (EX1 : exact st1 (res ++ av) e1).
      { destruct (assign_spec _ _ _ _ W2 A) as [S1 S2]. apply F2_map_r in S1. intros v Hv. unfold okx. rewrite ST1. destruct (in_dec Nat.eq_dec v res) as [I|NI].
        - destruct (F2_in_l _ _ _ _ S1 I) as (z & _ & Z). eexists. split; [exact Z|]. cbn [snd]. split; auto. rewrite (SRV v I).
          destruct (result_degree k (degrees D vs)) as [d|] eqn:RD; auto. split; auto. eapply (visit_op_bound st); eauto.
        - apply in_app_or in Hv. destruct Hv as [Hv|Hv]; [tauto|]. destruct (EX v Hv) as (y & E & O'). exists y. rewrite S2; auto. }
      destruct (IHc (res ++ av) e1 e' st1) as (R1 & R2 & R3); auto.
      { intros v NI. rewrite in_app_iff in NI. rewrite ST1. destruct (in_dec Nat.eq_dec v res); [tauto|]. apply NN. tauto. }
      split; [rewrite <- app_assoc; auto|]. split.
      + intros v NI. rewrite in_app_iff in NI. rewrite R2 by tauto. rewrite ST1. destruct (in_dec Nat.eq_dec v res); tauto.
      + set (F := fold_left (visit sec) (updates c) st1) in *. intros u [<-|Hu] v; [|apply R3; auto].
        assert (KEEP : forall w, In w (res ++ av) -> F w = st1 w) by (intros w Hw; apply R2; eapply wf_defs; eauto).
        rewrite RES.
        * destruct (in_dec Nat.eq_dec v res) as [I|]; auto. rewrite KEEP by (apply in_or_app; auto). rewrite ST1. destruct (in_dec Nat.eq_dec v res); [|tauto].
          apply join_eq, leo_refl.
        * apply visit_op_ext. intros a Ha. assert (Hv : In a av) by (apply W1; auto). rewrite KEEP by (apply in_or_app; auto). rewrite ST1.
          destruct (in_dec Nat.eq_dec a res) as [I|]; auto. destruct (W3 _ I Hv).
  Qed.
End Dim.

(** * Products that are only relinearized *)
Section Bounded.
  Variable sec : nat -> bool.
  Notation products := (products sec).
  Notation only_relin := (only_relin sec).
  Definition bound_st (ps : list nat) : dims := fun v => if sec v then Some (if in_dec Nat.eq_dec v ps then 3 else 2) else None.

  Lemma bound_loop ps mul vs : (forall a, In a vs -> ~ In a ps) -> forall acc, 2 <= acc \/ mul = true ->
    dim_loop mul (bound_st ps) (filter sec vs) acc = Some (if mul then acc + 2 * length (filter sec vs) else acc).
  Proof.
    induction vs as [|a vs IH]; intros H acc M; [cbn; destruct mul; f_equal; lia|]. cbn [filter]. destruct (sec a) eqn:Sa; [|apply IH; auto; intros; apply H; right; auto].
    cbn [dim_loop]. unfold bound_st at 1. rewrite Sa. destruct (in_dec Nat.eq_dec a ps) as [I|]; [destruct (H a (or_introl eq_refl) I)|].
    rewrite IH; [|intros; apply H; right; auto|destruct M; [left; destruct mul; lia|auto]]. destruct mul; f_equal; cbn [length]; try lia.
  Qed.
  Lemma bound_op ps k args : k <> KRelin -> (forall a, In a (map fst args) -> ~ In a ps) -> existsb sec (map fst args) = true -> length args = 2 \/ k <> KMul ->
    visit_op sec (bound_st ps) k args = Some (match k with KMul => if length (filter sec (map fst args)) =? 2 then 3 else 2 | _ => 2 end).
  Proof.
    intros NK H EX SH. unfold visit_op, secret_operands.
    assert (MX : dim_loop false (bound_st ps) (filter sec (map fst args)) 2 = Some 2) by (rewrite bound_loop; auto).
    destruct k; auto. rewrite bound_loop by auto. cbn [option_map]. f_equal. destruct SH as [SH|]; [|congruence].
    assert (LN : length (filter sec (map fst args)) <= 2).
    { rewrite <- SH, <- (map_length fst args). clear. induction (map fst args) as [|a l IH]; cbn; auto. destruct (sec a); cbn; lia. }
    assert (L1 : 1 <= length (filter sec (map fst args))).
    { destruct (filter sec (map fst args)) eqn:E; [apply filter_nil in E; congruence|cbn; lia]. }
    destruct (Nat.eqb_spec (length (filter sec (map fst args))) 2); lia.
  Qed.

  Lemma fold_join_same d l st : (forall u, In u l -> leo d (st u)) -> forall u, fold_left (join_into d) l st u = st u.
  Proof.
    revert st. induction l as [|v l IH]; intros st H u; cbn; auto.
    assert (E : forall w, join_into d st v w = st w).
    { intros w. unfold join_into. destruct (Nat.eqb_spec w v); auto. subst. apply join_eq. apply H. left; auto. }
    rewrite IH; auto. intros w Hw. rewrite E. apply H. right; auto.
  Qed.

  Lemma bound_stable ps c : forall av, wf av c -> secretness sec c -> Relin_Spec.relin_secret sec c -> only_relin ps c -> incl (products c) ps -> stable sec c (bound_st ps).
  Proof.
    induction c as [|k f args res c IHc|t inits bargs body IHb ys res c IHc]; intros av W SC RS OR PI u Hu; [destruct Hu|..];
      cbn [wf secretness Relin_Spec.relin_secret Relin_Spec.only_relin Relin_Spec.products updates] in *.
    - destruct W as (W1 & W2 & W3 & W4 & W5). destruct SC as [SR SC]. destruct RS as [RS0 RS]. destruct OR as (O1 & O2 & OR).
      destruct Hu as [<-|Hu]; [|eapply IHc; eauto; intros x Hx; apply PI, in_or_app; auto]. intros v. cbn [visit].
      assert (SRV : forall r, In r res -> sec r = existsb sec (map fst args)) by (intros r Hr; rewrite (SR r Hr); apply existsb_fst).
      assert (GEN : k <> KRelin -> fold_left (join_into (visit_op sec (bound_st ps) k args)) (filter sec res) (bound_st ps) v = bound_st ps v).
      { intros NK. apply fold_join_same. intros r Hr. apply filter_In in Hr. destruct Hr as [Hr Sr].
        rewrite bound_op; auto.
        - unfold bound_st. rewrite Sr. cbn. destruct (in_dec Nat.eq_dec r ps) as [I|NI]; destruct k; auto; destruct (Nat.eqb_spec (length (filter sec (map fst args))) 2); auto.
          exfalso. apply NI, PI. apply in_or_app. auto.
        - destruct k; auto; congruence.
        - rewrite <- (SRV r Hr). auto.
        - destruct k; [left; tauto|right; discriminate..]. }
      destruct k; try (apply GEN; discriminate). apply fold_join_same. intros r Hr. unfold bound_st.
      assert (Sr : sec r = true).
      { rewrite (SRV r Hr). specialize (RS0 eq_refl). destruct W4 as [LA _]. destruct args as [|[a fl] [|]]; try discriminate. cbn in *. rewrite andb_true_r in RS0. rewrite RS0. auto. }
      rewrite Sr. cbn. destruct (in_dec Nat.eq_dec r ps); auto.
    - destruct W as (W1 & W2 & W3 & W4 & W5 & W6 & W7 & W8 & W9 & W10 & W11). destruct SC as (SF & SB & SC). destruct RS as [RB RS]. destruct OR as (O1 & OB & OR).
      rewrite in_app_iff in Hu. destruct Hu as [Hu|Hu].
      + apply in_map_iff in Hu. destruct Hu as ([a b] & <- & Hab). intros v. cbn [visit fst snd]. unfold join_into. destruct (Nat.eqb_spec v b) as [->|]; auto.
        apply join_eq. unfold bound_st. destruct (sec a) eqn:Sa; [|cbn; auto]. rewrite (SF a b Hab Sa). cbn.
        assert (Ha : In a (inits ++ ys ++ bargs ++ res)).
        { rewrite !in_app_iff in *. destruct Hab as [H|[H|[H|H]]]; apply in_combine_l in H; auto. }
        destruct (in_dec Nat.eq_dec a ps) as [I|]; [destruct (O1 a Ha I)|]. destruct (in_dec Nat.eq_dec b ps); auto.
      + rewrite in_app_iff in Hu. destruct Hu as [Hu|Hu].
        * eapply IHb; eauto. intros x Hx; apply PI, in_or_app; auto.
        * eapply IHc; eauto. intros x Hx; apply PI, in_or_app; auto.
  Qed.
End Bounded.
