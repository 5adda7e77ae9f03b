(** Completeness for whole programs, existence of solutions, and optimality. *)
From Coq Require Import List Bool Arith Lia QArith Lqa.
From Verif Require Import Relin_Model Relin_Spec Relin_Proofs RelinStrip_Proofs Relin2_Proofs Relin3_Proofs.
Import ListNotations.
Local Open Scope nat_scope.

Lemma insert_complete D ev sec mixed sec' dim is p dg xs ys :
  wf_prog p -> flat (pcode p) -> norelin (pcode p) -> secretness sec (pcode p) ->
  good_args sec dg (pargs p) xs -> args_dim sec dim dg (pargs p) -> (forall a, In a (pargs p) -> sec a = true -> dg a <= 2) ->
  run D ev sec' mixed true (insert_prog sec is p) xs = Some ys ->
  exists x, ins x = is /\ feasible sec mixed dim x p.
Proof.
  intros (N & W & O) FL NR SC G AD LE R. unfold run, insert_prog in R. cbn [pargs pcode outs] in R. set (n := fresh p) in *.
  match type of R with bind ?a _ = _ => destruct a as [e|] eqn:A; cbn [bind] in R; [|discriminate] end.
  match type of R with bind ?a _ = _ => destruct a as [F|] eqn:X; cbn [bind] in R; [|discriminate] end.
  match type of R with bind ?a _ = _ => destruct a as [zs|] eqn:L; cbn [bind] in R; [|discriminate] end.
  cbn [negb orb] in R. destruct (forallb (returnable D) zs) eqn:RET; [|discriminate]. clear R ys.
  assert (AN : forall v, In v (pargs p) -> v < n) by (intros v Hv; apply fresh_io, in_or_app; auto).
  destruct (assign_spec _ _ _ _ N A) as [S1 S2].
  assert (E0 : forall a, In a (pargs p) -> exists y, e a = Some y /\ snd y = if sec a then Some (dg a) else None).
  { intros a Ha. pose proof (F2_and _ _ _ _ S1 G) as Z. destruct (F2_in_l _ _ _ _ Z Ha) as (y & _ & Z1 & Z2). eauto. }
  assert (G0 : good D sec n (pargs p) e).
  { intros v Hv. split; auto. destruct (E0 v Hv) as (y & E1 & E2). exists y. split; auto. unfold okc. rewrite E2.
    destruct (sec v) eqn:Sv; auto. split; auto. split; [apply (AD v Hv Sv)|apply LE; auto]. }
  destruct (complete D ev sec mixed sec' n is dim (pcode p) (pargs p) e F) as [CO GF]; auto.
  { apply fresh_top. }
  { intros v Lv NI. rewrite S2; auto. intros H. apply AN in H. lia. }
  exists (sol D n F is). split; auto.
  destruct (good_lookups D sec n _ _ _ _ GF O L) as [OK DE].
  assert (ONE : forall v, In v (outs p) -> sec v = true -> dF D F v = 1).
  { intros v Hv Sv. assert (Hd : In (dF D F v) (degrees D zs)) by (rewrite DE; apply in_map, filter_In; auto).
    unfold degrees in Hd. apply in_flat_map in Hd. destruct Hd as (y & Hy & Hd). rewrite forallb_forall in RET. specialize (RET y Hy). unfold returnable in RET.
    destruct (snd y) as [d|]; [|destruct Hd]. destruct Hd as [<-|[]]. apply Nat.eqb_eq; auto. }
  unfold feasible. split; [|split; [auto|split]].
  - apply Forall_forall. intros a Ha Sa. destruct (AD a Ha Sa) as [A1 A2]. cbn [sol deg].
    assert (DA : dF D F a = dg a).
    { unfold dF. rewrite (fun H => exec_keep D ev sec mixed sec' _ _ _ a X H).
      - destruct (E0 a Ha) as ([z o] & E1 & E2). rewrite E1. cbn in E2. rewrite E2, Sa. auto.
      - intros H. apply defs_insert in H. destruct H as [H|(u & _ & E)]; [eapply wf_defs; eauto|]. apply AN in Ha. lia. }
    rewrite DA. split.
    + split; [apply (q_le 0 (dg a)); lia|apply (q_le (dg a) 2); auto].
    + unfold q. destruct (dim a) as [d|]; [subst d|rewrite A2; reflexivity].
      rewrite Nat2Z.inj_succ. unfold Z.succ. rewrite inject_Z_plus. unfold Qminus. change (inject_Z 1) with 1%Q. lra.
  - apply Forall_forall. intros v Hv Sv. cbn [sol deg]. rewrite ONE; auto. reflexivity.
  - unfold equal_operands. destruct (filter sec (outs p)) as [|a l] eqn:FS; auto. intros _.
    assert (IN : forall v, In v (a :: l) -> dF D F v = 1) by (intros v Hv; rewrite <- FS in Hv; apply filter_In in Hv; apply ONE; tauto).
    apply Forall_forall. intros v Hv. cbn [sol deg]. rewrite (IN v (or_intror Hv)), (IN a (or_introl eq_refl)). reflexivity.
Qed.

Lemma flat_strip c : forall s, flat c -> flat (fst (strip s c)).
Proof.
  induction c as [|k f args res c IHc|]; intros s FL; [auto|..|destruct FL]. cbn [flat] in FL.
  destruct k; try (rewrite strip_not_relin by discriminate; cbn; auto).
  destruct args as [|[a fl] [|]]; [..|]; destruct res as [|r [|]]; cbn; auto; destruct (strip s c) eqn:E; cbn; specialize (IHc s FL); rewrite E in IHc; auto.
Qed.
Lemma single_strip c : forall s, flat c -> single c -> single (fst (strip s c)).
Proof.
  induction c as [|k f args res c IHc|]; intros s FL; [auto|..|destruct FL]. cbn [flat single] in *. intros [S1 S2].
  destruct k; try (rewrite strip_not_relin by discriminate; cbn; auto).
  destruct args as [|[a fl] [|]]; [..|]; destruct res as [|r [|]]; cbn; auto; destruct (strip s c) eqn:E; cbn; specialize (IHc s FL S2); rewrite E in IHc; auto.
Qed.

(** * A solution exists *)
Lemma code_ok_ext sec mixed dim dg b b' is c : flat c -> (forall v, In v (defs c) -> b v = b' v) ->
  code_ok sec mixed dim (Solution dg b is) c -> code_ok sec mixed dim (Solution dg b' is) c.
Proof.
  induction c as [|k f args res c IHc|]; intros FL E H; [auto|..|destruct FL]. cbn [flat defs code_ok] in *. destruct H as [(H1 & H2 & H3 & H4 & H5) H].
  assert (ER : forall r, In r res -> b' r = b r) by (intros r Hr; symmetry; apply E, in_or_app; auto).
  assert (FE : forall (P P' : nat -> Prop), (forall r, In r res -> P r -> P' r) -> Forall P res -> Forall P' res).
  { intros P P' I HF. rewrite Forall_forall in *. auto. }
  split; [|apply IHc; auto; intros; apply E, in_or_app; auto].
  repeat split; auto.
  - unfold vars_ok in *. eapply FE; [|exact H1]. cbn. intros r Hr HP. rewrite ER; auto.
  - unfold before_ok in *. cbn [deg bef] in *. destruct k.
    1:{ destruct args as [|[l fl] [|[r fr] [|]]]; auto. destruct res as [|o [|]]; auto. rewrite ER by (left; auto). auto. }
    all: intros AS; specialize (H4 AS); destruct mixed;
      [rewrite Forall_forall in *; intros a Ha; specialize (H4 a Ha); eapply FE; [|exact H4]; cbn; intros r Hr HP; rewrite ER; auto
      |destruct (filter sec (map fst args)); auto; eapply FE; [|exact H4]; cbn; intros r Hr HP; rewrite ER; auto].
  - intros AS. specialize (H5 AS). cbn [deg bef ins] in *. eapply FE; [|exact H5]. cbn. intros r Hr HP. rewrite ER; auto.
Qed.
Lemma exists_bef sec mixed dim c : forall av, flat c -> norelin c -> wf av c -> secretness sec c ->
  exists b, code_ok sec mixed dim (Solution (fun _ => 1%Q) b (fun _ => true)) c.
Proof.
  induction c as [|k f args res c IHc|]; intros av FL NR W SC; [exists (fun _ => 1%Q); exact I|..|destruct FL].
  cbn [flat norelin wf secretness code_ok] in *. destruct NR as [NK NR]. destruct W as (W1 & W2 & W3 & W4 & W5). destruct SC as [SR SC].
  assert (SRV : forall r, In r res -> sec r = existsb sec (map fst args)) by (intros r Hr; rewrite (SR r Hr); apply existsb_fst).
  destruct (IHc _ FL NR W5 SC) as (b & H).
  set (d := match k, args with KMul, [(l, _); (r, _)] => if sec l && sec r then 2%Q else 1%Q | _, _ => 1%Q end).
  assert (DB : (1 <= d /\ d <= 2)%Q).
  { unfold d. destruct k; try lra. destruct args as [|[l fl] [|[r fr] [|]]]; try lra. destruct (sec l && sec r); lra. }
  set (b' := fun v => if in_dec Nat.eq_dec v res then d else b v).
  assert (BR : forall r, In r res -> b' r = d) by (intros r Hr; unfold b'; destruct (in_dec Nat.eq_dec r res); tauto).
  exists b'. split; [|eapply code_ok_ext; [auto| |exact H]].
  2:{ intros v Hv. unfold b'. destruct (in_dec Nat.eq_dec v res) as [I|]; auto. exfalso. eapply wf_defs; eauto. apply in_or_app. auto. }
  unfold op_ok, vars_ok, equal_operands, linear, before_ok, decision_ok. cbn [deg bef ins].
  assert (AS : all_secret sec res = true -> filter sec (map fst args) <> []).
  { unfold all_secret. destruct res as [|r res']; [discriminate|]. cbn. rewrite (SRV r) by (left; auto). intros E EF. apply filter_nil in EF. rewrite EF in E. discriminate. }
  split; [|split; [|split; [|split]]].
  - apply Forall_forall. intros r Hr Sr. rewrite BR; auto. unfold in_bounds. lra.
  - destruct (filter sec (map fst args)); auto. intros _. apply Forall_forall. intros; reflexivity.
  - intros _. apply Forall_forall. intros; reflexivity.
  - destruct k; try congruence.
    1:{ destruct W4 as [L1 L2]. destruct args as [|[l fl] [|[r fr] [|]]]; try discriminate. destruct res as [|o [|]]; try discriminate.
        intros So. rewrite BR by (left; auto). unfold d. destruct (sec l && sec r) eqn:E; [reflexivity|].
        rewrite (SRV o) in So by (left; auto). cbn in So. cbn [filter]. destruct (sec l), (sec r); try discriminate; reflexivity. }
    all: intros A; specialize (AS A); destruct mixed;
      [apply Forall_forall; intros a Ha; apply Forall_forall; intros r Hr; rewrite BR by auto; apply DB
      |destruct (filter sec (map fst args)); [congruence|]; apply Forall_forall; intros r Hr; rewrite BR by auto; unfold d; reflexivity].
  - intros A. cbn zeta. apply Forall_forall. intros r Hr. rewrite BR by auto. unfold aux, b2q. repeat split; lra.
Qed.
Theorem exists_feasible sec mixed dim p : wf_prog p -> flat (pcode p) -> secretness sec (pcode p) ->
  args_dim sec dim (fun _ => 1) (pargs p) -> exists x, feasible sec mixed dim x (strip_prog p).
Proof.
  intros W FL SC AD. destruct (strip_prog_ok _ _ W SC) as ((NQ & WQ & OQ) & SQ & NR). rewrite strip_prog_eq in *. cbn [pargs pcode outs] in *.
  destruct (exists_bef sec mixed dim _ _ (flat_strip _ _ FL) NR WQ SQ) as (b & CO). exists (Solution (fun _ => 1%Q) b (fun _ => true)).
  split; [|split; [auto|split]]; cbn [pargs pcode outs].
  - apply Forall_forall. intros a Ha Sa. destruct (AD a Ha Sa) as [_ A2]. cbn [deg]. split; [unfold in_bounds; lra|].
    destruct (dim a) as [d|]; [subst d|]; reflexivity.
  - apply Forall_forall. intros; reflexivity.
  - unfold equal_operands. match goal with |- match ?l with _ => _ end => destruct l end; auto. intros _. apply Forall_forall. intros; reflexivity.
Qed.
