(** Theorems about the insertion of management operations (C67). *)
From Coq Require Import List Bool Arith Lia.
From Verif Require Import Mgmt_Model Mgmt_Spec Mgmt_Proofs Mgmt_Passes Mgmt_Levels Mgmt_Pipeline Mgmt_Clean Mgmt_Ps Mgmt_Compose Mgmt_Dims.
Import ListNotations.

Lemma source_dq_run p D e F d :
  plain_ops p -> ssa d p -> run depth_g e p = Some F ->
  (forall v, F v = D v) ->
  (forall i u v a b, In i p -> handled (op i) = false -> In u (args i) -> In v (args i) -> D u = Some a -> D v = Some b -> a = b) ->
  run dq_g e p = Some F.
Proof.
  revert d e. induction p as [|i p IH]; intros d e P Sd R E H; [exact R|].
  cbn in Sd. destruct Sd as (Ia & Nd & Sd).
  cbn [run] in R |- *. rewrite depth_cmax in R.
  set (a := option_map _ _) in R.
  assert (Ev : forall v, In v (args i) -> e v = D v).
  { intros v Hv. rewrite <- E. symmetry. rewrite (run_final _ _ _ _ _ v Sd R) by (right; auto).
    apply upd_other. intros ->. auto. }
  assert (G : dq_g (op i) (map e (args i)) = Some a).
  { destruct (P i (or_introl eq_refl)) as (Mi & _).
    assert (AE : handled (op i) = false -> all_equal (cts (map e (args i))) = true).
    { intros Hh. apply all_equal_iff. intros x y Hx Hy.
      apply cts_In, in_map_iff in Hx as (u & Eu & Hu). apply cts_In, in_map_iff in Hy as (v & Ev' & Hv).
      apply (H i u v); auto; [now left|rewrite <- Ev; auto|rewrite <- Ev; auto]. }
    unfold a. destruct (op i) eqn:Eo; try discriminate Mi; cbn [dq_g matched orb];
      rewrite ?AE by easy; destruct (cmax _); cbn; rewrite ?Nat.add_0_r, ?Nat.add_1_r; easy. }
  rewrite G. eapply IH; eauto.
  - intros j Hj. apply P. now right.
  - intros j u v x y Hj. apply (H j u v x y). now right.
Qed.
Lemma source_dq p D : source p D -> run dq_g (inputs p 0) (body p) = Some D.
Proof.
  intros [W P R O]. eapply source_dq_run with (D := D); eauto. exact (proj1 W).
Qed.
Lemma same_inputs p q a : same_args p q -> inputs q a = inputs p a.
Proof. intros (E & _). unfold inputs. now rewrite E. Qed.
Lemma canon_all ckks m b p q : wf p -> canon (insert_all ckks m b p) q -> wf q /\ same_args p q.
Proof.
  intros W C. destruct (insert_all_wf ckks m b p W) as (W5 & K1 & K2 & _).
  destruct (canon_wf _ _ C W5) as (Wq & S1 & S2). split; [exact Wq|]. split; congruence.
Qed.

(** * C67 *)
(** If the pass succeeds, the program runs with as many moduli as the level budget: the ciphertext operands of every
    operation have the same level, and no modulus is dropped that is not there.  Outputs have the level of their
    depth. *)
Theorem C67_levels ckks m lb p q D :
  source p D -> insert_mgmt ckks m lb p q ->
  let b := match lb with Some b => b | None => 100 end in
  exists F, run (lev_g b) (inputs q 0) (body q) = Some F /\
    map F (outs q) = map (option_map (out_level m (map D (outs p)))) (map D (outs p)) /\
    (forall v l, In v (outs q) -> F v = Some l -> l <= b).
Proof.
  intros Sp [C V]. pose proof (source_dq _ _ Sp) as Rd. destruct Sp as [W _ _ _].
  change (match lb with Some b => b | None => 100 end) with (pipeline_budget lb).
  set (b := pipeline_budget lb) in *. intros b'. subst b'.
  destruct (canon_all _ _ _ _ _ W C) as (Wq & Sq). destruct (insert_all_wf ckks m b p W) as (W5 & K5).
  destruct (insert_all_ps ckks m b p D W Rd) as (F5 & R5 & V5 & O5).
  destruct (canon_sim (ps_g b) _ _ _ F5 (ps_laws b) C W5 R5) as (F & R & O).
  rewrite <- (same_inputs _ _ 0 Sq) in R.
  pose proof (validated_run b q F Wq R V) as RL.
  exists F. split; [exact RL|]. split; [congruence|].
  intros v l Hv Fv. pose proof (lev_bounded _ _ _ _ RL (inputs_bounded q b)) as B. eauto.
Qed.
Print Assumptions C67_levels.

(** If the depths need at most L moduli and the budget is at least L, the pass succeeds whatever the cleaning does,
    and the result runs with L moduli. *)
Theorem C67_succeeds ckks m lb p q D L :
  source p D -> (forall v d, D v = Some d -> needed m d <= L) ->
  L <= match lb with Some b => b | None => 100 end ->
  canon (insert_all ckks m (match lb with Some b => b | None => 100 end) p) q ->
  insert_mgmt ckks m lb p q /\
  exists F, run (lev_g L) (inputs q 0) (body q) = Some F /\
    map F (outs q) = map (option_map (out_level m (map D (outs p)))) (map D (outs p)).
Proof.
  intros Sp HL Lb C. pose proof (source_dq _ _ Sp) as Rd. destruct Sp as [W _ _ _].
  change (match lb with Some b => b | None => 100 end) with (pipeline_budget lb) in *.
  set (b := pipeline_budget lb) in *.
  destruct (canon_all _ _ _ _ _ W C) as (Wq & Sq). destruct (insert_all_wf ckks m b p W) as (W5 & K5).
  destruct (insert_all_ps ckks m b p D W Rd) as (F5 & R5 & V5 & O5).
  destruct (canon_sim (ps_g b) _ _ _ F5 (ps_laws b) C W5 R5) as (F & R & O).
  destruct (insert_all_levels ckks m b L p D W Rd HL Lb) as (H5 & S5 & _ & P5).
  destruct (canon_sim (lev_g L) _ _ _ H5 (lev_laws L) C W5 S5) as (H & S & P).
  rewrite <- (same_inputs _ _ 0 Sq) in R, S. split.
  - split; [exact C|]. eapply lev_validate; eauto.
  - exists H. split; [exact S|congruence].
Qed.
Print Assumptions C67_succeeds.

(** Every value of the source program is still there right after the insertion, at the level of its depth. *)
Theorem C67_values ckks m b p D L :
  source p D -> (forall v d, D v = Some d -> needed m d <= L) -> L <= b ->
  exists F, run (lev_g L) (inputs p 0) (body (insert_all ckks m b p)) = Some F /\
    forall v, In v (sargs p ++ pargs p ++ map res (body p)) -> F v = option_map (phi m) (D v).
Proof.
  intros Sp HL Lb. pose proof (source_dq _ _ Sp) as Rd. destruct Sp as [W _ _ _].
  destruct (insert_all_levels ckks m b L p D W Rd HL Lb) as (F & R & V & _). eauto.
Qed.
Print Assumptions C67_values.

(** Products are relinearized: every operation finds two components, except relinearization (three) and the dropping
    of moduli, and outputs have two. *)
Theorem C67_components ckks m lb p q D :
  source p D -> insert_mgmt ckks m lb p q ->
  exists F, run dim_g (inputs q 2) (body q) = Some F /\
    map F (outs q) = map (option_map (fun _ => 2)) (map D (outs p)).
Proof.
  intros [W P R _] [C V].
  destruct (canon_all _ _ _ _ _ W C) as (Wq & Sq). destruct (insert_all_wf ckks m (pipeline_budget lb) p W) as (W5 & K5).
  destruct (insert_all_dims ckks m (pipeline_budget lb) p W P) as (F5 & R5 & O5).
  destruct (canon_sim dim_g _ _ _ F5 dim_laws C W5 R5) as (F & RF & O).
  rewrite <- (same_inputs _ _ 2 Sq) in RF. exists F. split; [exact RF|]. rewrite O, O5, map_map. apply map_ext.
  intros v. rewrite (secret_run depth_g p 0 D depth_optg R). now destruct (D v).
Qed.
Print Assumptions C67_components.

(** The cleartext function does not change. *)
Theorem C67_function V (dflt : V) ev ckks m lb p q D e F :
  source p D -> insert_mgmt ckks m lb p q -> run (ev_g dflt ev) e (body p) = Some F ->
  sargs q = sargs p /\ pargs q = pargs p /\
  exists F', run (ev_g dflt ev) e (body q) = Some F' /\ map F' (outs q) = map F (outs p).
Proof.
  intros [W P _ _] [C Vd] R.
  destruct (canon_all _ _ _ _ _ W C) as (Wq & Sq). destruct (insert_all_wf ckks m (pipeline_budget lb) p W) as (W5 & K5).
  destruct (insert_all_ev dflt ev ckks m (pipeline_budget lb) p e F W R) as (F5 & R5 & _ & O5).
  destruct (canon_sim (ev_g dflt ev) _ _ _ F5 (ev_laws dflt ev) C W5 R5) as (F' & RF & O).
  destruct Sq as (S1 & S2). split; [easy|]. split; [easy|]. exists F'. split; [exact RF|congruence].
Qed.
Print Assumptions C67_function.

(** Other operations with two ciphertext operands get no matching of levels: the pass succeeds, but the operands
    have different levels. *)
Theorem C67_other_refuted : exists p D q, wf p /\ plain_ops (body p) /\ run depth_g (inputs p 0) (body p) = Some D /\
  insert_mgmt false AfterMul None p q /\ forall L, run (lev_g L) (inputs q 0) (body q) = None.
Proof.
  set (p := Prog [0; 1] [] [Inst Mul [0; 1] 2; Inst (Other 5) [2; 0] 3] [3]).
  exists p. eexists. exists (insert_all false AfterMul 100 p). split; [|split; [|split; [|split]]].
  - split; [|split]; cbn.
    + repeat split; cbn; try lia; intros v H; cbn in *; intuition.
    + intros v H; cbn in *; intuition.
    + tauto.
  - intros i H. cbn in H. intuition (subst; cbn; auto; discriminate).
  - reflexivity.
  - split; [constructor|vm_compute; reflexivity].
  - intros L. vm_compute. destruct L; [easy|]. vm_compute. easy.
Qed.
Print Assumptions C67_other_refuted.

(** A program with two multiplications in a row, a sum of values of different depths, a plaintext and an unrelated
    product. *)
Definition demo67 : prog :=
  Prog [0; 1] [2]
    [Inst Mul [0; 1] 3; Inst Mul [3; 0] 4; Inst Add [4; 1] 5; Inst Mul [5; 2] 6; Inst (Other 3) [6] 7; Inst Sub [7; 3] 8] [8; 3].
Definition demo67_depth (v : nat) : option nat :=
  match v with 0 | 1 => Some 0 | 3 => Some 1 | 4 | 5 => Some 2 | 6 | 7 | 8 => Some 3 | _ => None end.
Lemma demo67_source : exists D, source demo67 D /\ (forall v, D v = demo67_depth v).
Proof.
  eexists. split.
  - split.
    + split; [|split]; cbn.
      * repeat split; cbn; try lia; intros v H; cbn in *; intuition.
      * intros v H; cbn in *; intuition.
      * intros v H K; cbn in *; intuition lia.
    + intros i H. cbn in H. intuition (subst; cbn; auto; discriminate).
    + reflexivity.
    + intros i u v a b Hi Hh Hu Hv. cbn in Hi.
      decompose [or] Hi; subst; try contradiction; cbn in Hh; try discriminate.
      cbn in Hu, Hv. destruct Hu as [<-|[]]. destruct Hv as [<-|[]]. congruence.
  - intros v. unfold demo67_depth. do 9 (destruct v as [|v]; [reflexivity|]). reflexivity.
Qed.
Example C67_nonvacuous : exists D, source demo67 D /\ (forall v d, D v = Some d -> needed (BeforeMul false) d <= 3) /\
  insert_mgmt false (BeforeMul false) (Some 3) demo67 (insert_all false (BeforeMul false) 3 demo67) /\
  length (body (insert_all false (BeforeMul false) 3 demo67)) = 20 /\
  option_map (fun F => map F (outs (insert_all false (BeforeMul false) 3 demo67)))
    (run (lev_g 3) (inputs demo67 0) (body (insert_all false (BeforeMul false) 3 demo67))) = Some [Some 3; Some 1] /\
  (* the same without enough budget is rejected *)
  validate 2 (insert_all false (BeforeMul false) 2 demo67) = false.
Proof.
  destruct demo67_source as (D & Sp & E). exists D. split; [exact Sp|]. split; [|split; [|split]].
  - intros v d. rewrite E. unfold demo67_depth. do 9 (destruct v as [|v]; [try discriminate; intros [= <-]; cbn; lia|]). discriminate.
  - split; [constructor|vm_compute; reflexivity].
  - vm_compute. reflexivity.
  - split; vm_compute; reflexivity.
Qed.
