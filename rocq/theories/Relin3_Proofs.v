(** Every legal placement of relinearizations is a solution of the integer program (straight-line programs), and
    an optimal solution has the fewest relinearizations. *)
From Coq Require Import List Bool Arith Lia QArith Lqa.
From Verif Require Import Relin_Model Relin_Spec Relin_Proofs RelinStrip_Proofs Relin2_Proofs.
Import ListNotations.
Local Open Scope nat_scope.

Lemma assign_other {A} vs : forall (xs : list A) e e' v, assign vs xs e = Some e' -> ~ In v vs -> e' v = e v.
Proof.
  induction vs as [|u vs IH]; intros [|x xs] e e' v H NI; try discriminate; cbn in H.
  - injection H as <-. auto.
  - rewrite (IH _ _ _ _ H) by (intros C; apply NI; right; auto). destruct (Nat.eqb_spec v u); auto. subst. exfalso. apply NI. left; auto.
Qed.
Lemma wf_defs c : forall av, wf av c -> forall v, In v av -> ~ In v (defs c).
Proof.
  induction c as [|k f args res c IHc|t inits bargs body IHb ys res c IHc]; intros av W v Hv; [auto|..]; cbn [defs]; intros H;
    apply in_app_or in H; cbn [wf] in W.
  - destruct W as (_ & _ & W3 & _ & W5). destruct H as [H|H]; [|apply (W3 v H Hv)]. eapply IHc; eauto. apply in_or_app; auto.
  - destruct W as (_ & _ & _ & _ & _ & _ & _ & W8 & _ & _ & W11). destruct H as [H|H]; [|apply (W8 v H Hv)].
    eapply IHc; eauto. apply in_or_app; auto.
Qed.
Lemma defs_top c : forall v, In v (defs c) -> v <= top c.
Proof.
  induction c as [|k f args res c IHc|t inits bargs body IHb ys res c IHc]; intros v Hv; [destruct Hv|..]; cbn [defs top] in *;
    apply in_app_or in Hv; destruct Hv as [Hv|Hv].
  - specialize (IHc v Hv). lia.
  - assert (L : In v (map fst args ++ res)) by (apply in_or_app; auto). apply list_max_ge in L. lia.
  - specialize (IHc v Hv). lia.
  - assert (L : In v (inits ++ bargs ++ ys ++ res)) by (rewrite !in_app_iff; auto). apply list_max_ge in L. lia.
Qed.
Lemma defs_relins n res c v : In v (defs (relins n res c)) -> In v (defs c) \/ In v res.
Proof.
  induction res as [|r res IH]; cbn; auto. intros H. apply in_app_or in H. destruct H as [H|[<-|[]]]; auto.
  destruct (IH H); auto.
Qed.
Lemma defs_insert sec is n c : forall v, In v (defs (insert sec is n c)) -> In v (defs c) \/ exists u, In u (defs c) /\ v = n + u.
Proof.
  induction c as [|k f args res c IHc|t inits bargs body IHb ys res c IHc]; intros v Hv; [destruct Hv|..]; cbn [insert] in Hv;
  destruct (all_secret sec res && is (hd 0 res)); cbn [defs] in *; apply in_app_or in Hv; setoid_rewrite in_app_iff;
  repeat match goal with
  | H : _ \/ _ |- _ => destruct H
  | H : In _ (defs (relins _ _ _)) |- _ => apply defs_relins in H
  | H : In _ (defs (insert _ _ _ _)) |- _ => apply IHc in H
  | H : In _ (map _ _) |- _ => apply in_map_iff in H; destruct H as (u & <- & ?)
  | H : exists _, _ |- _ => destruct H as (u & ? & ->)
  end; eauto 6.
Qed.

  Lemma filter_nil (sec : nat -> bool) vs : filter sec vs = [] <-> existsb sec vs = false.
  Proof. induction vs as [|v vs IH]; cbn; [tauto|]. destruct (sec v); cbn; auto. split; discriminate. Qed.
  Lemma list_max_cons a l : list_max (a :: l) = Nat.max a (list_max l).
  Proof. reflexivity. Qed.
  Lemma list_sum_ge l : Forall (fun d => 1 <= d) l -> l <> [] -> 1 <= list_sum l.
  Proof. intros F NE. destruct F; [congruence|]. cbn. lia. Qed.
  Lemma list_max_pos l : Forall (fun d => 1 <= d) l -> l <> [] -> 1 <= list_max l.
  Proof. intros F NE. destruct F; [congruence|]. rewrite list_max_cons. lia. Qed.

Section Complete.
  Variable D : Type.
  Variable ev : nat -> list D -> list D.
  Variable sec : nat -> bool.
  Variable mixed : bool.
  Variable sec' : nat -> bool.
  Notation exec := (exec D ev sec' mixed true).
  Notation val := (val D).

  Lemma exec_keep c : forall e F v, exec c e = Some F -> ~ In v (defs c) -> F v = e v.
  Proof.
    induction c as [|k f args res c IHc|t inits bargs body IHb ys res c IHc]; intros e F v X NI.
    - cbn in X. injection X as <-. auto.
    - cbn [Relin_Spec.exec defs] in *. rewrite in_app_iff in NI. destruct (lookups e (map fst args)) as [vs|]; cbn [bind] in X; [|discriminate].
      destruct (allowed _ _ _ _ _ _); [|discriminate].
      match type of X with bind ?a _ = _ => destruct a as [e1|] eqn:A; cbn [bind] in X; [|discriminate] end.
      rewrite (IHc _ _ _ X) by tauto. eapply assign_other; eauto.
    - cbn [Relin_Spec.exec defs] in *. rewrite in_app_iff in NI. destruct (lookups e inits) as [vs|]; cbn [bind] in X; [|discriminate].
      match type of X with bind ?a _ = _ => destruct a as [zs|]; cbn [bind] in X; [|discriminate] end.
      match type of X with bind ?a _ = _ => destruct a as [e1|] eqn:A; cbn [bind] in X; [|discriminate] end.
      rewrite (IHc _ _ _ X) by tauto. eapply assign_other; eauto.
  Qed.

  Variable n : nat.
  Definition okc (v : nat) (y : val) : Prop :=
    match snd y with Some d => sec v = true /\ 1 <= d <= 2 | None => sec v = false end.
  Definition good (av : list nat) (e : nat -> option val) : Prop := forall v, In v av -> v < n /\ exists y, e v = Some y /\ okc v y.
  Definition dF (e : nat -> option val) (v : nat) : nat := match e v with Some (_, Some d) => d | _ => 1 end.
  Definition bF (e : nat -> option val) (v : nat) : nat := match e (n + v) with Some (_, Some d) => d | _ => dF e v end.
  Definition sol (e : nat -> option val) (is : nat -> bool) : solution := Solution (fun v => q (dF e v)) (fun v => q (bF e v)) is.

  Lemma good_lookups av e vs ys : good av e -> incl vs av -> lookups e vs = Some ys ->
    Forall2 okc vs ys /\ degrees D ys = map (dF e) (filter sec vs).
  Proof.
    intros G. revert ys. induction vs as [|v vs IH]; intros ys I L.
    - cbn in L. injection L as <-. cbn. auto.
    - apply lookups_cons in L. destruct L as (y & zs & E & L & ->). destruct (IH zs) as [A B]; auto; [intros u Hu; apply I; right; auto|].
      destruct (G v (I v (or_introl eq_refl))) as (_ & y' & E' & O). rewrite E in E'. injection E' as <-. split; [constructor; auto|].
      unfold degrees in *. cbn [flat_map filter]. rewrite B. unfold okc in O. unfold dF.
      destruct y as [z [d|]]; cbn [snd] in *.
      + destruct O as [-> _]. cbn. rewrite E. auto.
      + rewrite O. auto.
  Qed.
  Lemma uses_plain_eq args (ys : list val) : Forall2 okc (map fst args) ys ->
    uses_plaintext D (map snd args) ys = existsb (fun p => snd p && negb (sec (fst p))) args.
  Proof.
    revert ys. induction args as [|[a fl] args IH]; intros ys F; inversion F; subst; auto.
    cbn. unfold uses_plaintext in IH. rewrite IH by auto. f_equal. f_equal. unfold okc in H1. destruct (snd y) as [d|]; [destruct H1 as [-> _]|rewrite H1]; auto.
  Qed.
  Lemma q_plus a b : (q a + q b == q (a + b))%Q.
  Proof. unfold q. rewrite Nat2Z.inj_add, inject_Z_plus. reflexivity. Qed.

  Lemma op_complete (is : nat -> bool) (F : nat -> option val) k args res (ys : list val) :
    k <> KRelin -> match k with KMul => length args = 2 /\ length res = 1 | _ => True end ->
    (forall r, In r res -> sec r = existsb (fun p => sec (fst p)) args) ->
    Forall2 okc (map fst args) ys -> degrees D ys = map (dF F) (filter sec (map fst args)) ->
    Forall (fun d => 1 <= d) (degrees D ys) ->
    allowed D mixed true k (map snd args) ys = true ->
    (forall d, result_degree k (degrees D ys) = Some d ->
       Forall (fun r => bF F r = d /\ dF F r = if is (hd 0 res) then 1 else d) res) ->
    op_ok sec mixed (sol F is) k args res.
  Proof.
    intros NK SH SR OK DE POS AL RES. rewrite DE in *. set (vs := map fst args) in *. unfold allowed in AL. cbn [negb orb] in AL.
    rewrite DE in AL. unfold legal in AL. rewrite DE in AL. rewrite (uses_plain_eq args ys OK) in AL. apply andb_prop in AL. destruct AL as [AL B2].
    apply andb_prop in AL. destruct AL as [AL EQ].
    assert (SRV : forall r, In r res -> sec r = existsb sec vs) by (intros r Hr; rewrite (SR r Hr); apply existsb_fst). clear SR.
    destruct (filter sec vs) as [|a l] eqn:FS.
    - assert (NS : existsb sec vs = false) by (apply filter_nil; auto).
      assert (NA : all_secret sec res = true -> False).
      { unfold all_secret. destruct res as [|r res']; [discriminate|]. cbn. rewrite (SRV r) by (left; auto). rewrite NS. discriminate. }
      repeat split.
      + apply Forall_forall. intros r Hr. rewrite (SRV r Hr), NS. discriminate.
      + unfold equal_operands. fold vs. rewrite FS. auto.
      + intros _. apply Forall_forall. intros v Hv Sv. exfalso. assert (In v (filter sec vs)) by (apply filter_In; auto). rewrite FS in H. auto.
      + unfold before_ok. destruct k; try (intros A; destruct (NA A)); try congruence.
        destruct SH as [L1 L2]. destruct args as [|[a1 f1] [|[a2 f2] [|]]]; try discriminate. destruct res as [|o [|]]; try discriminate.
        intros So. rewrite (SRV o) in So by (left; auto). congruence.
      + intros A; destruct (NA A).
    - assert (NS : existsb sec vs = true).
      { destruct (existsb sec vs) eqn:E; auto. apply filter_nil in E. congruence. }
      assert (IN : forall v, In v vs -> sec v = true -> In v (a :: l)) by (intros v H1 H2; rewrite <- FS; apply filter_In; auto).
      set (d := match k with KRelin => 1 | KMul => list_sum (map (dF F) (a :: l)) | _ => list_max (map (dF F) (a :: l)) end).
      assert (RD : result_degree k (map (dF F) (a :: l)) = Some d) by reflexivity. rewrite RD in B2.
      specialize (RES d RD). apply Nat.leb_le in B2. rewrite Forall_forall in RES.
      assert (D1 : 1 <= d).
      { unfold d. destruct k; try congruence; try (apply list_max_pos; [auto|discriminate]). apply list_sum_ge; [auto|discriminate]. }
      repeat split.
      + apply Forall_forall. intros r Hr _. destruct (RES r Hr) as [Eb Ed]. unfold in_bounds. cbn [sol deg bef]. rewrite Eb, Ed.
        assert (Z : forall m, 1 <= m -> m <= 2 -> (0 <= q m /\ q m <= 2)%Q).
        { intros m M1 M2. split; [apply (q_le 0 m); lia|apply (q_le m 2); auto]. }
        split; apply Z; auto; destruct (is (hd 0 res)); auto.
      + unfold equal_operands. fold vs. rewrite FS. intros ->. cbn [map orb all_equal] in EQ. rewrite forallb_forall in EQ.
        apply Forall_forall. intros v Hv. cbn [sol deg]. apply q_eq. symmetry. apply Nat.eqb_eq. apply EQ. apply in_map. auto.
      + intros RL. apply Forall_forall. intros v Hv Sv. cbn [sol deg].
        assert (ONE : all_one (map (dF F) (a :: l)) = true).
        { unfold require_linear in RL. destruct k; auto; try congruence; cbn [negb orb] in AL; rewrite existsb_fst in RL; fold vs in RL; rewrite NS in RL; cbn [andb] in RL;
            rewrite RL in AL; cbn [negb orb] in AL; exact AL. }
        unfold all_one in ONE. rewrite forallb_forall in ONE. assert (dF F v = 1) as ->; [|reflexivity].
        symmetry. apply Nat.eqb_eq, ONE. apply in_map. apply IN; auto.
      + unfold before_ok. destruct k; try congruence.
        * destruct SH as [L1 L2]. destruct args as [|[a1 f1] [|[a2 f2] [|]]]; try discriminate. destruct res as [|o [|]]; try discriminate.
          intros So. destruct (RES o (or_introl eq_refl)) as [Eb _]. cbn [sol deg bef]. rewrite Eb. unfold d. clear - FS.
          cbn [vs map fst filter] in FS. subst vs. cbn [map fst filter] in FS. cbn [filter].
          destruct (sec a1), (sec a2); cbn [andb]; try discriminate; injection FS as <- <-; cbn [map list_sum fold_right].
          -- rewrite q_plus. apply q_eq. cbn. lia.
          -- apply q_eq. cbn. lia.
          -- apply q_eq. cbn. lia.
        * intros _. fold vs. rewrite FS. destruct mixed.
          -- apply Forall_forall. intros v Hv. apply Forall_forall. intros r Hr. destruct (RES r Hr) as [Eb _]. cbn [sol deg bef]. rewrite Eb. apply q_le.
             apply (list_max_ge (map (dF F) (a :: l))). apply in_map. auto.
          -- apply Forall_forall. intros r Hr. destruct (RES r Hr) as [Eb _]. cbn [sol deg bef]. rewrite Eb. apply q_eq. unfold d.
             cbn [map orb all_equal] in EQ. cbn [map]. rewrite list_max_cons. rewrite forallb_forall in EQ.
             assert (list_max (map (dF F) l) <= dF F a); [|lia]. apply list_max_le. apply Forall_forall. intros z Hz. apply EQ in Hz. apply Nat.eqb_eq in Hz. lia.
        * intros _. fold vs. rewrite FS. destruct mixed.
          -- apply Forall_forall. intros v Hv. apply Forall_forall. intros r Hr. destruct (RES r Hr) as [Eb _]. cbn [sol deg bef]. rewrite Eb. apply q_le.
             apply (list_max_ge (map (dF F) (a :: l))). apply in_map. auto.
          -- apply Forall_forall. intros r Hr. destruct (RES r Hr) as [Eb _]. cbn [sol deg bef]. rewrite Eb. apply q_eq. unfold d.
             cbn [map orb all_equal] in EQ. cbn [map]. rewrite list_max_cons. rewrite forallb_forall in EQ.
             assert (list_max (map (dF F) l) <= dF F a); [|lia]. apply list_max_le. apply Forall_forall. intros z Hz. apply EQ in Hz. apply Nat.eqb_eq in Hz. lia.
        * intros _. fold vs. rewrite FS. destruct mixed.
          -- apply Forall_forall. intros v Hv. apply Forall_forall. intros r Hr. destruct (RES r Hr) as [Eb _]. cbn [sol deg bef]. rewrite Eb. apply q_le.
             apply (list_max_ge (map (dF F) (a :: l))). apply in_map. auto.
          -- apply Forall_forall. intros r Hr. destruct (RES r Hr) as [Eb _]. cbn [sol deg bef]. rewrite Eb. apply q_eq. unfold d.
             cbn [map orb all_equal] in EQ. cbn [map]. rewrite list_max_cons. rewrite forallb_forall in EQ.
             assert (list_max (map (dF F) l) <= dF F a); [|lia]. apply list_max_le. apply Forall_forall. intros z Hz. apply EQ in Hz. apply Nat.eqb_eq in Hz. lia.
      + intros AS. cbn zeta. apply Forall_forall. intros r Hr. destruct (RES r Hr) as [Eb Ed]. cbn [sol deg bef ins]. rewrite Eb, Ed.
        assert (Z : (1 <= q d /\ q d <= 2)%Q) by (split; [apply (q_le 1 d)|apply (q_le d 2)]; auto).
        unfold aux, b2q. destruct (is (hd 0 res)); [change (q 1) with 1%Q|]; repeat split; lra.
  Qed.

  Lemma assign_shift res (ys : list val) ee ee1 : NoDup res -> assign (map (Nat.add n) res) ys ee = Some ee1 ->
    Forall2 (fun r y => ee1 (n + r) = Some y) res ys /\ (forall v, ~ In v (map (Nat.add n) res) -> ee1 v = ee v).
  Proof.
    intros N A.
    assert (N' : NoDup (map (Nat.add n) res)).
    { clear - N. induction N as [|z l NI N' IHN]; cbn; constructor; auto. rewrite in_map_iff. intros (u & E & I). assert (u = z) by lia. subst. auto. }
    destruct (assign_spec _ _ _ _ N' A) as [S1 S2]. split; auto.
    clear - S1. remember (map (Nat.add n) res) as l eqn:E. revert res E. induction S1; intros [|r res] E; try discriminate; constructor.
    - injection E as -> _. auto.
    - injection E as _ ->. auto.
  Qed.
  Lemma not_shift v res : v < n -> ~ In v (map (Nat.add n) res).
  Proof. intros L H. apply in_map_iff in H. destruct H as (u & <- & _). lia. Qed.

  Lemma degrees_pos (vs : list nat) (ys : list val) : Forall2 okc vs ys -> Forall (fun d => 1 <= d) (degrees D ys).
  Proof.
    induction 1 as [|v y vs ys O F IH]; cbn; auto. apply Forall_app. split; auto. unfold okc in O. destruct (snd y); constructor; auto. lia.
  Qed.
  Lemma rd_bounds k args (ys : list val) d : k <> KRelin -> Forall2 okc (map fst args) ys -> allowed D mixed true k (map snd args) ys = true ->
    result_degree k (degrees D ys) = Some d -> 1 <= d <= 2.
  Proof.
    intros NK O AL RD. unfold allowed in AL. rewrite RD in AL. cbn in AL. apply andb_prop in AL. destruct AL as [_ B]. apply Nat.leb_le in B. split; auto.
    pose proof (degrees_pos _ _ O) as P. unfold result_degree in RD. destruct (degrees D ys) as [|a l] eqn:E; [discriminate|]. injection RD as <-.
    destruct k; try congruence; try (apply (list_max_pos (a :: l)); [auto|discriminate]). apply (list_sum_ge (a :: l)); [auto|discriminate].
  Qed.
  Lemma rd_sec k vs (ys : list val) : Forall2 okc vs ys ->
    existsb sec vs = match result_degree k (degrees D ys) with Some _ => true | None => false end.
  Proof.
    intros F. transitivity (match degrees D ys with [] => false | _ => true end); [|destruct (degrees D ys); auto].
    induction F as [|v y vs ys O F IH]; auto. cbn. unfold okc in O. fold (degrees D ys). destruct (snd y); [destruct O as [-> _]; auto|rewrite O; auto].
  Qed.

  Variable is : nat -> bool.
  Variable dim : nat -> option nat.

  Lemma complete c : forall av e F, flat c -> norelin c -> wf av c -> secretness sec c -> top c < n ->
    good av e -> (forall v, v < n -> ~ In v av -> e (n + v) = None) ->
    exec (insert sec is n c) e = Some F -> code_ok sec mixed dim (sol F is) c /\ good (defs c ++ av) F.
  Proof.
    induction c as [|k f args res c IHc|t inits bargs body IHb ys res c IHc]; intros av e F FL NR W SC TN G NN X; [..|destruct FL].
    - cbn in X. injection X as <-. cbn. auto.
    - cbn [flat norelin wf secretness top] in *. destruct NR as [NK NR]. destruct W as (W1 & W2 & W3 & W4 & W5). destruct SC as [SR SC].
      assert (SRV : forall r, In r res -> sec r = existsb sec (map fst args)) by (intros r Hr; rewrite (SR r Hr); apply existsb_fst).
      assert (SH : match k with KMul => length args = 2 /\ length res = 1 | _ => True end) by (destruct k; auto).
      assert (RN : forall r, In r res -> r < n).
      { intros r Hr. assert (L : In r (map fst args ++ res)) by (apply in_or_app; auto). apply list_max_ge in L. lia. }
      assert (KEEP : forall e2 v, exec (insert sec is n c) e2 = Some F -> In v (res ++ av) -> v < n -> F v = e2 v).
      { intros e2 v X2 Hv Lv. apply (exec_keep _ _ _ _ X2). intros H. apply defs_insert in H. destruct H as [H|(u & _ & ->)]; [|lia].
        eapply wf_defs; eauto. }
      assert (KEEPN : forall e2 v, exec (insert sec is n c) e2 = Some F -> In v res -> F (n + v) = e2 (n + v)).
      { intros e2 v X2 Hv. apply (exec_keep _ _ _ _ X2). intros H. apply defs_insert in H. destruct H as [H|(u & Hu & E)].
        - apply defs_top in H. lia.
        - assert (u = v) by lia. subst u. eapply wf_defs; eauto. apply in_or_app; auto. }
      cbn [insert] in X.
      destruct (all_secret sec res && is (hd 0 res)) eqn:AI; cbn [Relin_Spec.exec] in X;
        (destruct (lookups e (map fst args)) as [vs|] eqn:L; cbn [bind] in X; [|discriminate]);
        (destruct (allowed D mixed true k (map snd args) vs) eqn:AL; [|discriminate]);
        (match type of X with bind ?a _ = _ => destruct a as [e1|] eqn:A; cbn [bind] in X; [|discriminate] end);
        destruct (good_lookups _ _ _ _ G W1 L) as [OK DE].
      + apply andb_prop in AI. destruct AI as [AS IS].
        destruct (assign_shift _ _ _ _ W2 A) as [S1 S2].
        destruct (exec_relins D ev mixed n sec' (insert sec is n c) res _ e1 S1 RN W2) as (e2 & E & R1 & R2).
        rewrite E in X. clear E.
        assert (RDS : exists d, result_degree k (degrees D vs) = Some d).
        { pose proof (rd_sec k _ _ OK) as Z. destruct res as [|r0 res']; [discriminate|]. rewrite <- (SRV r0 (or_introl eq_refl)) in Z.
          cbn in AS. apply andb_prop in AS. destruct AS as [AS _]. rewrite AS in Z. destruct (result_degree k (degrees D vs)); [eauto|discriminate]. }
        destruct RDS as (d & RD). rewrite RD in *. pose proof (rd_bounds _ _ _ _ NK OK AL RD) as BD.
        assert (SE : forall r, In r res -> sec r = true).
        { intros r Hr. rewrite (SRV r Hr), (rd_sec k _ _ OK), RD. auto. }
        assert (V1 : forall r, In r res -> exists z, e1 (n + r) = Some (z, Some d) /\ e2 r = Some (z, Some 1)).
        { intros r Hr. pose proof (F2_and _ _ _ _ S1 R1) as Z. apply F2_map_r in Z. destruct (F2_in_l _ _ _ _ Z Hr) as (z & _ & Z1 & Z2). exists z. auto. }
        assert (G2 : good (res ++ av) e2).
        { intros v Hv. destruct (in_dec Nat.eq_dec v res) as [I|NI].
          - split; auto. destruct (V1 v I) as (z & _ & Z). exists (z, Some 1). split; auto. unfold okc. cbn. split; [apply SE; auto|lia].
          - apply in_app_or in Hv. destruct Hv as [Hv|Hv]; [tauto|]. destruct (G v Hv) as (Lv & y & Ey & Oy). split; auto. exists y. split; auto.
            rewrite R2 by auto. rewrite S2; auto. apply not_shift; auto. }
        destruct (IHc (res ++ av) e2 F) as [CO GF]; auto; [lia|..].
        { intros v Lv NI. rewrite in_app_iff in NI. rewrite R2, S2.
          - apply NN; tauto.
          - intros H. apply in_map_iff in H. destruct H as (u & E & Hu). assert (u = v) by lia. subst. tauto.
          - intros H. apply RN in H. lia. }
        split; [|cbn [defs]; rewrite <- app_assoc; auto]. cbn [code_ok]. split; auto.
        apply op_complete with (ys := vs); auto.
        * rewrite DE. apply map_ext_in. intros a Ha. apply filter_In in Ha. destruct Ha as [Ha _]. unfold dF.
          assert (Hv : In a av) by (apply W1; auto). destruct (G a Hv) as (La & _).
          rewrite (KEEP e2 a X) by (auto; apply in_or_app; auto). rewrite R2, S2; auto.
          -- apply not_shift; auto.
          -- intros H. apply (W3 _ H Hv).
        * eapply degrees_pos; eauto.
        * intros d' RD'. assert (d' = d) by congruence. subst d'. apply Forall_forall. intros r Hr. destruct (V1 r Hr) as (z & Z1 & Z2).
          unfold bF, dF. rewrite (KEEPN e2 r X Hr), (KEEP e2 r X) by (auto; apply in_or_app; auto). rewrite R2 by (intros H; apply RN in H; lia).
          rewrite Z1, Z2, IS. auto.
      + destruct (assign_spec _ _ _ _ W2 A) as [S1 S2]. apply F2_map_r in S1.
        assert (G2 : good (res ++ av) e1).
        { intros v Hv. destruct (in_dec Nat.eq_dec v res) as [I|NI].
          - split; auto. destruct (F2_in_l _ _ _ _ S1 I) as (z & _ & Z). exists (z, result_degree k (degrees D vs)). split; auto. unfold okc. cbn.
            rewrite (SRV v I), (rd_sec k _ _ OK). destruct (result_degree k (degrees D vs)) eqn:RD; auto. split; auto. eapply rd_bounds; eauto.
          - apply in_app_or in Hv. destruct Hv as [Hv|Hv]; [tauto|]. destruct (G v Hv) as (Lv & y & Ey & Oy). split; auto. exists y. split; auto.
            rewrite S2; auto. }
        destruct (IHc (res ++ av) e1 F) as [CO GF]; auto; [lia|..].
        { intros v Lv NI. rewrite in_app_iff in NI. rewrite S2.
          - apply NN; tauto.
          - intros H. apply RN in H. lia. }
        split; [|cbn [defs]; rewrite <- app_assoc; auto]. cbn [code_ok]. split; auto.
        apply op_complete with (ys := vs); auto.
        * rewrite DE. apply map_ext_in. intros a Ha. apply filter_In in Ha. destruct Ha as [Ha _]. unfold dF.
          assert (Hv : In a av) by (apply W1; auto). destruct (G a Hv) as (La & _).
          rewrite (KEEP e1 a X) by (auto; apply in_or_app; auto). rewrite S2; auto.
          intros H. apply (W3 _ H Hv).
        * eapply degrees_pos; eauto.
        * intros d RD. rewrite RD in *. apply Forall_forall. intros r Hr. destruct (F2_in_l _ _ _ _ S1 Hr) as (z & _ & Z).
          assert (IS : is (hd 0 res) = false).
          { rewrite andb_false_iff in AI. destruct AI as [AI|AI]; auto. exfalso. unfold all_secret in AI. destruct res as [|r0 res']; [destruct Hr|].
            rewrite <- not_true_iff_false in AI. apply AI. apply forallb_forall. intros r' Hr'. rewrite (SRV r' Hr'), (rd_sec k _ _ OK), RD. auto. }
          unfold bF, dF. rewrite (KEEPN e1 r X Hr), (KEEP e1 r X) by (auto; apply in_or_app; auto). rewrite Z, IS.
          rewrite S2 by (intros H; apply RN in H; lia). rewrite NN by auto. auto.
  Qed.
End Complete.
