(** Theorems about the annotation of levels (C68) and about the management for B/FV (C69). *)
From Coq Require Import List Bool Arith Lia.
From Verif Require Import Mgmt_Model Mgmt_Spec Mgmt_Proofs Mgmt_Passes Mgmt_Levels Mgmt_Pipeline Mgmt_Strict Mgmt_Clean Mgmt_Ps Mgmt_Compose Mgmt_Dims Mgmt_Annot Mgmt_Props.
Import ListNotations.
Local Arguments Nat.ltb : simpl never.
Local Arguments Nat.leb : simpl never.

(** ** The largest level of a list of values *)
Lemma max_of (F : nat -> option nat) vs :
  exists M, (forall v l, In v vs -> F v = Some l -> l <= M) /\ (M = 0 \/ exists v, In v vs /\ F v = Some M).
Proof.
  induction vs as [|v vs (M & A & B)].
  - exists 0. split; [easy|auto].
  - destruct (F v) as [x|] eqn:Fv.
    + exists (Nat.max x M). split.
      * intros u l [<-|Hu] Fu; [rewrite Fv in Fu; injection Fu as <-; lia|]. specialize (A u l Hu Fu). lia.
      * destruct (Nat.max_spec x M) as [[_ ->]|[_ ->]].
        -- destruct B as [->|(u & Hu & Fu)]; [auto|]. right. exists u. cbn. auto.
        -- right. exists v. cbn. auto.
    + exists M. split.
      * intros u l [<-|Hu] Fu; [congruence|eauto].
      * destruct B as [->|(u & Hu & Fu)]; [auto|]. right. exists u. cbn. auto.
Qed.
Lemma canon_trans p q r : canon p q -> canon q r -> canon p r.
Proof. induction 1; intros C; [easy|]. econstructor; eauto. Qed.
Lemma outside q F v : run rl_g (inputs q 0) (body q) = Some F -> ~ In v (values q) -> F v = None.
Proof.
  intros R N. rewrite (run_values _ _ _ _ _ R N). unfold inputs. destruct (mem v (sargs q)) eqn:E; [|easy].
  apply mem_iff in E. destruct N. unfold values. rewrite in_app_iff. auto.
Qed.
Lemma annotated_run ckks m lb p q r D :
  source p D -> insert_mgmt ckks m lb p q -> canon q r -> (lb = None -> forall v d, D v = Some d -> needed m d <= 40) ->
  wf r /\ exists F, run rl_g (inputs r 0) (body r) = Some F /\ run (lev_g (annotate_budget lb)) (inputs r 0) (body r) = Some F.
Proof.
  intros Sp [C V] Cr HL. pose proof (source_dq _ _ Sp) as Rd. destruct Sp as [W _ _ _].
  set (b := pipeline_budget lb) in *.
  destruct (canon_all _ _ _ _ _ W C) as (Wq & Sq). destruct (insert_all_wf ckks m b p W) as (W5 & K5).
  destruct (canon_wf _ _ Cr Wq) as (Wr & Sr). split; [exact Wr|].
  assert (Ei : inputs r 0 = inputs p 0) by (rewrite (same_inputs _ _ 0 Sr); now apply same_inputs).
  destruct (insert_all_ps ckks m b p D W Rd) as (F5 & R5 & _ & _).
  destruct (canon_sim (ps_g b) _ _ _ F5 (ps_laws b) C W5 R5) as (F & R & _).
  destruct (canon_sim (ps_g b) _ _ _ F (ps_laws b) Cr Wq R) as (F' & R' & _).
  exists F'. rewrite Ei. split; [eapply run_impl; [|exact R']; apply ps_rl|].
  destruct lb as [b'|].
  - cbn in b. subst b. rewrite <- (same_inputs _ _ 0 Sq) in R. pose proof (validated_run _ _ _ Wq R V) as RL.
    destruct (canon_sim (lev_g b') _ _ _ F (lev_laws b') Cr Wq RL) as (F2 & R2 & _).
    rewrite (same_inputs _ _ 0 Sq) in R2. cbn. now rewrite <- (run_det _ _ _ _ _ _ R2 R').
  - cbn in b. subst b. destruct (insert_all_levels ckks m 100 40 p D W Rd (HL eq_refl)) as (H5 & S5 & _); [lia|].
    destruct (canon_sim (lev_g 40) _ _ _ H5 (lev_laws 40) C W5 S5) as (H & RH & _).
    destruct (canon_sim (lev_g 40) _ _ _ H (lev_laws 40) Cr Wq RH) as (F2 & R2 & _).
    cbn. now rewrite <- (run_det _ _ _ _ _ _ R2 R').
Qed.

(** * C68 *)
(** The cleaned program runs with the moduli of the budget, and the annotation of every ciphertext is the number of
    moduli it still has, if the lowest ciphertext has one: the deepest value gets 0.  A plaintext operand gets the level
    of the operation it is used in.  Without a budget, the depths may need 40 moduli. *)
Theorem C68_levels ckks m lb p q r D :
  source p D -> insert_mgmt ckks m lb p q -> canon q r -> (lb = None -> forall v d, D v = Some d -> needed m d <= 40) ->
  let b := match lb with Some b => b | None => 40 end in
  exists F, run (lev_g b) (inputs r 0) (body r) = Some F /\
    (uniform r F ->
     exists M, M <= b /\
       (forall v l, F v = Some l -> l <= M /\ annotate_level 0 b r v = Some (M - l)) /\
       (M = 0 \/ exists v, F v = Some M) /\
       (forall i j v l, In i (body r) -> handled (op i) = true -> In v (firstn 2 (args i)) -> F (res i) = Some l ->
          In j (body r) -> op j = Init -> res j = v -> F v = None -> annotate_level 0 b r v = Some (M - l))).
Proof.
  intros Sp I Cr HL b. destruct (annotated_run _ _ _ _ _ _ _ Sp I Cr HL) as (Wr & F & RR & RL).
  change (annotate_budget lb) with b in RL. exists F. split; [exact RL|]. intros Un.
  pose proof (lev_bounded _ _ _ _ RL (inputs_bounded r b)) as Bd.
  destruct (max_of F (values r)) as (M & HM & HA).
  assert (HM' : forall v l, F v = Some l -> l <= M).
  { intros v l Fv. apply (HM v); [|exact Fv]. destruct (in_dec Nat.eq_dec v (values r)) as [|N]; [easy|].
    rewrite (outside r F v RR N) in Fv. discriminate. }
  exists M. repeat split.
  - destruct HA as [->|(v & _ & Fv)]; [lia|]. eauto.
  - eauto.
  - rewrite (annotate_secret r b F M Wr RR Bd Un HM HA 0 v l H). now rewrite Nat.add_0_r.
  - destruct HA as [->|(v & _ & Fv)]; eauto.
  - intros i j v l Hi Hh Hv Fi Hj Oj Rj Fv.
    assert (Iv : inits r v = true); [|rewrite (annotate_plain r b F M Wr RR Bd Un HM HA 0 v i l) by auto; now rewrite Nat.add_0_r].
    unfold inits. apply existsb_exists. exists j. split; [exact Hj|]. rewrite Oj. apply Nat.eqb_eq. exact Rj.
Qed.
Print Assumptions C68_levels.

(** Read without the run: the annotation of the result of an operation is the annotation of each of its ciphertext
    operands, less the moduli the operation drops. *)
Theorem C68_consistent ckks m lb p q r D :
  source p D -> insert_mgmt ckks m lb p q -> canon q r -> (lb = None -> forall v d, D v = Some d -> needed m d <= 40) ->
  let b := match lb with Some b => b | None => 40 end in
  exists F, run (lev_g b) (inputs r 0) (body r) = Some F /\
    (uniform r F -> forall i v, In i (body r) -> In v (args i) -> F v <> None ->
       exists a, annotate_level 0 b r (res i) = Some a /\ annotate_level 0 b r v = Some (a + drops (op i))).
Proof.
  intros Sp I Cr HL b. destruct (C68_levels _ _ _ _ _ _ _ Sp I Cr HL) as (F & RL & K). fold b in RL, K.
  exists F. split; [exact RL|]. intros Un i v Hi Hv Nv. destruct (K Un) as (M & _ & A & _ & _).
  destruct (annotated_run _ _ _ _ _ _ _ Sp I Cr HL) as (Wr & F' & RR & RL').
  change (annotate_budget lb) with b in RL'. rewrite RL in RL'. injection RL' as <-.
  pose proof (run_eqn _ _ _ _ _ i (proj1 Wr) RL Hi) as G. pose proof (run_eqn _ _ _ _ _ i (proj1 Wr) RR Hi) as G'.
  destruct (F v) as [l|] eqn:Fv; [|congruence].
  assert (Iv : In l (cts (map F (args i)))) by (apply cts_In; rewrite <- Fv; now apply in_map).
  assert (E : F (res i) = Some (l + drops (op i))).
  { destruct (op i) eqn:Eo; cbn [lev_g drops] in G |- *;
      try (destruct (all_equal (cts (map F (args i)))) eqn:AE; [|discriminate]; injection G as <-;
           rewrite all_equal_iff in AE; destruct (cts (map F (args i))) as [|x c] eqn:Ec; [destruct Iv|]; cbn; rewrite Nat.add_0_r;
           f_equal; apply AE; [now left|exact Iv]).
    - destruct (args i) as [|u [|u' us]]; cbn in *; try discriminate G; destruct (F u) as [x|] eqn:Fu; try discriminate G.
      destruct Hv as [->|[]]. rewrite Fv in Fu. injection Fu as <-. destruct (_ <=? _); [|discriminate]. congruence.
    - destruct (args i) as [|u [|u' us]]; cbn in *; try discriminate G; destruct (F u) as [x|] eqn:Fu; try discriminate G.
      destruct Hv as [->|[]]. rewrite Fv in Fu. injection Fu as <-. destruct (_ <=? _); [|discriminate]. congruence.
    - cbn in G'. discriminate G'. }
  destruct (A v l Fv) as (_ & Av). destruct (A (res i) _ E) as (L & Ar).
  exists (M - (l + drops (op i))). split; [exact Ar|]. rewrite Av. f_equal. lia.
Qed.
Print Assumptions C68_consistent.

(** Without a budget the insertion allows 100 levels and the annotation 40: a program of depth 41 passes the
    insertion, and then no value is annotated. *)
Fixpoint powers (n : nat) (v : nat) : list inst :=
  match n with 0 => [] | S n => Inst Mul [v; v] (S v) :: powers n (S v) end.
Lemma powers_depth n : forall v e x, e v = Some x ->
  exists F, run depth_g e (powers n v) = Some F /\ F (v + n) = Some (x + n) /\
    forall u d, F u = Some d -> d <= x + n \/ e u = Some d.
Proof.
  induction n as [|n IH]; intros v e x E; cbn [powers run].
  - exists e. rewrite !Nat.add_0_r. auto.
  - cbn [op args res map]. rewrite E. cbn [depth_g cts fold_right].
    destruct (IH (S v) (upd e (S v) (Some (Nat.max x x + 1))) (x + 1)) as (F & R & Fn & Fu).
    { rewrite upd_same, Nat.max_id. easy. }
    exists F. split; [exact R|]. split.
    + replace (v + S n) with (S v + n) by lia. rewrite Fn. f_equal. lia.
    + intros u d Hd. destruct (Fu u d Hd) as [L|L]; [lia|]. unfold upd in L.
      destruct (u =? S v); [|auto]. injection L as <-. lia.
Qed.
Lemma powers_ssa n : forall v d, In v d -> (forall u, In u d -> u <= v) -> ssa d (powers n v).
Proof.
  induction n as [|n IH]; intros v d Iv H; cbn; [easy|]. split; [|split].
  - intros u [<-|[<-|[]]]; easy.
  - intros K. apply H in K. lia.
  - apply IH; [now left|]. intros u [<-|Hu]; [lia|]. apply H in Hu. lia.
Qed.
Lemma powers_In n v i : In i (powers n v) -> exists u, i = Inst Mul [u; u] (S u).
Proof. revert v. induction n as [|n IH]; intros v; cbn; [easy|]. intros [<-|H]; eauto. Qed.
Lemma powers_res n v : In (v + S n) (map res (powers (S n) v)).
Proof.
  revert v. induction n as [|n IH]; intros v.
  - left. cbn. lia.
  - right. replace (v + S (S n)) with (S v + S n) by lia. apply IH.
Qed.
Definition powers_prog (n : nat) : prog := Prog [0] [] (powers n 0) [n].
Lemma powers_source : exists D, source (powers_prog 41) D /\ D 41 = Some 41 /\ (forall v d, D v = Some d -> d <= 41).
Proof.
  destruct (powers_depth 41 0 (inputs (powers_prog 41) 0) 0 eq_refl) as (D & R & D41 & Du).
  exists D. split; [split|split].
  - split; [|split].
    + apply powers_ssa; cbn; [auto|]. intros u [<-|[]]. apply le_n.
    + intros v [<-|[]]. apply in_or_app. right. apply (powers_res 40 0).
    + intros v _ [].
  - intros i H. apply powers_In in H as (u & ->). split; reflexivity.
  - exact R.
  - intros i u v a b Hi Hh. apply powers_In in Hi as (w & ->). discriminate.
  - exact D41.
  - intros v d Hd. destruct (Du v d Hd) as [L|L]; [exact L|]. unfold inputs in L. destruct (mem v _); [|discriminate].
    injection L as <-. apply Nat.le_0_l.
Qed.
Theorem C68_budget_refuted : exists p D, source p D /\ (exists q, insert_mgmt false AfterMul None p q) /\
  forall q r, insert_mgmt false AfterMul None p q -> canon q r -> forall v, annotate_level 0 (annotate_budget None) r v = None.
Proof.
  pose proof powers_source as Sp. remember (powers_prog 41) as p eqn:Ep.
  assert (Op : outs p = [41]) by (rewrite Ep; reflexivity). clear Ep.
  destruct Sp as (D & Sp & D41 & Dle). exists p, D. split; [exact Sp|]. split.
  - exists (insert_all false AfterMul 100 p).
    destruct (C67_succeeds false AfterMul None p (insert_all false AfterMul 100 p) D 41 Sp) as (K & _); auto.
    + apply Nat.leb_le. reflexivity.
    + constructor.
  - intros q r [C V] Cr v. unfold annotate_level.
    destruct (validate (annotate_budget None) r) eqn:Vr; [|easy]. exfalso.
    pose proof (source_dq _ _ Sp) as Rd. destruct Sp as [W _ _ _].
    destruct (canon_all _ _ _ _ _ W C) as (Wq & Sq). destruct (insert_all_wf false AfterMul 100 p W) as (W5 & K5).
    destruct (canon_wf _ _ Cr Wq) as (Wr & Sr).
    destruct (insert_all_ps false AfterMul 100 p D W Rd) as (F5 & R5 & _ & O5).
    destruct (canon_sim (ps_g 100) _ _ _ F5 (ps_laws 100) C W5 R5) as (F & R & O).
    destruct (canon_sim (ps_g 100) _ _ _ F (ps_laws 100) Cr Wq R) as (F' & R' & O').
    change (pipeline_budget None) with 100 in *. rewrite O, O5 in O'. rewrite Op in O'. cbn [map] in O'. rewrite D41 in O'. cbn [option_map out_level] in O'.
    destruct (outs r) as [|u [|]] eqn:Eo; try discriminate O'. injection O' as Fu.
    rewrite <- (same_inputs _ _ 0 Sq), <- (same_inputs _ _ 0 Sr) in R'.
    assert (RR : run rl_g (inputs r 0) (body r) = Some F') by (eapply run_impl; [|exact R']; apply ps_rl).
    assert (Hu : In u (values r)).
    { destruct Wr as (_ & Or & _). apply Or. rewrite Eo. now left. }
    pose proof (levels_cap r F' 40 Wr RR u) as Cp. rewrite Fu in Cp. cbn in Cp.
    unfold validate in Vr. rewrite forallb_forall in Vr. specialize (Vr u Hu). unfold managed in Vr. cbn [annotate_budget] in Vr.
    rewrite (secret_run rl_g r 0 F' rl_optg RR u), Fu, Cp in Vr. discriminate.
Qed.
Print Assumptions C68_budget_refuted.

Definition uniform_b (q : prog) (F : nat -> option nat) : bool :=
  forallb (fun i => forallb (fun j => forallb (fun v =>
    negb (handled (op i) && handled (op j) && mem v (firstn 2 (args j)) && negb (is_some (F v)))
    || match F (res i), F (res j) with Some a, Some b => a =? b | _, _ => true end)
    (firstn 2 (args i))) (body q)) (body q).
Lemma uniform_check q F : uniform_b q F = true -> uniform q F.
Proof.
  intros H v i j Fv Hi Hj Ti Tj Vi Vj Ni Nj. unfold uniform_b in H. rewrite forallb_forall in H. specialize (H i Hi).
  rewrite forallb_forall in H. specialize (H j Hj). rewrite forallb_forall in H. specialize (H v Vi).
  rewrite Ti, Tj, (proj2 (mem_iff _ _) Vj), Fv in H. cbn in H.
  destruct (F (res i)), (F (res j)); try congruence. apply Nat.eqb_eq in H. now subst.
Qed.
Example C68_nonvacuous : exists D F, source demo67 D /\
  insert_mgmt false (BeforeMul false) (Some 3) demo67 (insert_all false (BeforeMul false) 3 demo67) /\
  run (lev_g 3) (inputs demo67 0) (body (insert_all false (BeforeMul false) 3 demo67)) = Some F /\
  uniform (insert_all false (BeforeMul false) 3 demo67) F /\
  map (annotate_level 0 3 (insert_all false (BeforeMul false) 3 demo67)) [0; 2; 3; 4; 6; 8] =
    [Some 3; None; Some 3; Some 2; Some 1; Some 1].
Proof.
  destruct demo67_source as (D & Sp & _). exists D.
  assert (K : match run (lev_g 3) (inputs demo67 0) (body (insert_all false (BeforeMul false) 3 demo67)) with
              | Some F => uniform_b (insert_all false (BeforeMul false) 3 demo67) F = true | None => False end)
    by (vm_compute; reflexivity).
  destruct (run _ _ _) as [F|] eqn:R; [|destruct K]. exists F. split; [exact Sp|]. split.
  - split; [constructor|vm_compute; reflexivity].
  - split; [reflexivity|]. split; [now apply uniform_check|]. vm_compute. reflexivity.
Qed.

(** * C69 *)
(** If no value has a depth above 40, the management for B/FV succeeds, whatever the cleaning does.  The computed level is
    the largest depth. *)
Theorem C69_depth p q D :
  source p D -> canon (insert_relin (insert_init p)) q ->
  (forall d, insert_mgmt_bfv p q d ->
     (forall i x, In i (body p) -> D (res i) = Some x -> x <= d) /\
     (d = 0 \/ exists i, In i (body p) /\ D (res i) = Some d)) /\
  ((forall i x, In i (body p) -> D (res i) = Some x -> x <= 40) -> exists d, insert_mgmt_bfv p q d).
Proof.
  intros Sp C. pose proof (source_dq _ _ Sp) as Rd. destruct Sp as [W P _ _].
  destruct (max_depth_spec D (depths p) (map res (body p)) (depths_drel p D W Rd)) as (A & B). rewrite map_map in A, B. split.
  - intros d [Hd _]. destruct (A d Hd) as (A1 & A2). split.
    + intros i x Hi. apply A1. now apply in_map.
    + destruct A2 as [->|(v & Hv & Dv)]; [auto|]. right. apply in_map_iff in Hv as (i & <- & Hi). eauto.
  - intros H. destruct B as (d & Hd).
    + intros v x Hv. apply in_map_iff in Hv as (i & <- & Hi). now apply H.
    + exists d. now split.
Qed.
Print Assumptions C69_depth.

(** Products are relinearized, no modulus is dropped, and every ciphertext is annotated with the level that was
    computed. *)
Theorem C69_annotation p q D d :
  source p D -> insert_mgmt_bfv p q d ->
  (exists F, run dim_g (inputs q 2) (body q) = Some F /\ map F (outs q) = map (option_map (fun _ => 2)) (map D (outs p))) /\
  exists F, run (lev_g 0) (inputs q 0) (body q) = Some F /\
    forall v, F v <> None -> annotate_level d d q v = Some d.
Proof.
  intros [W P R _] [Hd C]. destruct (bfv_wf p W) as (W2 & K2). destruct (canon_wf _ _ C W2) as (Wq & Sq1 & Sq2).
  assert (Ei : forall a, inputs q a = inputs p a) by (intros a; unfold inputs; rewrite Sq1; destruct K2 as (-> & _); easy).
  split.
  - destruct (bfv_dims p W P) as (F & RF & OF). destruct (canon_sim dim_g _ _ _ F dim_laws C W2 RF) as (F' & RF' & OF').
    exists F'. rewrite Ei. split; [exact RF'|]. rewrite OF', OF, map_map. apply map_ext.
    intros v. rewrite (secret_run depth_g p 0 D depth_optg R). now destruct (D v).
  - destruct (bfv_levels p q W P C) as (F & RR & B0 & RL). exists F.
    assert (Z : forall v x, F v = Some x -> x = 0) by (intros v x Fv; specialize (B0 v x Fv); lia).
    split.
    + exact RL.
    + intros v Nv. destruct (F v) as [x|] eqn:Fv; [|congruence]. pose proof (Z v x Fv). subst x.
      assert (Bd : bounded d F) by (intros u x Fu; rewrite (Z u x Fu); lia).
      rewrite (annotate_secret q d F 0 Wq RR Bd) with (l := 0); auto.
      * intros u i j Fu _ _ _ _ _ _ Ni Nj. destruct (F (res i)) as [x|] eqn:E1; [|congruence].
        destruct (F (res j)) as [y|] eqn:E2; [|congruence]. now rewrite (Z _ _ E1), (Z _ _ E2).
      * intros u l _ Fu. now rewrite (Z u l Fu).
Qed.
Print Assumptions C69_annotation.

(** The cleartext function does not change. *)
Theorem C69_function V (dflt : V) ev p q D d e F :
  source p D -> insert_mgmt_bfv p q d -> run (ev_g dflt ev) e (body p) = Some F ->
  sargs q = sargs p /\ pargs q = pargs p /\
  exists F', run (ev_g dflt ev) e (body q) = Some F' /\ map F' (outs q) = map F (outs p).
Proof.
  intros [W P _ _] [_ C] R. destruct (bfv_wf p W) as (W2 & K2). destruct (canon_wf _ _ C W2) as (Wq & Sq1 & Sq2).
  destruct K2 as (K21 & K22 & _). split; [congruence|]. split; [congruence|].
  destruct (bfv_sim (ev_g dflt ev) p e F (fun y => eq_refl) (fun y => eq_refl) R) as (F1 & R1 & O1).
  destruct (canon_sim (ev_g dflt ev) _ _ _ F1 (ev_laws dflt ev) C W2 R1) as (F' & RF & O).
  exists F'. split; [exact RF|congruence].
Qed.
Print Assumptions C69_function.

(** At depth 41 the analysis has no depth, and reading it fails an assertion. *)
Theorem C69_depth_refuted : exists p D, source p D /\ forall q d, ~ insert_mgmt_bfv p q d.
Proof.
  pose proof powers_source as Sp. remember (powers_prog 41) as p eqn:Ep.
  assert (Hi : In (Inst Mul [40; 40] 41) (body p)).
  { rewrite Ep. change (body (powers_prog 41)) with (powers 41 0). cbn [powers]. do 40 right. left. reflexivity. }
  clear Ep. destruct Sp as (D & Sp & D41 & _). exists p, D. split; [exact Sp|].
  intros q d [Hd _]. pose proof (source_dq _ _ Sp) as Rd. destruct Sp as [W _ _ _].
  pose proof (depths_drel _ D W Rd 41) as K. rewrite D41 in K. destruct K as [(_ & L)|(E & _)]; [lia|].
  assert (N : forall ds, In DInvalid ds -> max_depth ds = None).
  { induction ds as [|x ds IH]; [easy|]. intros [->|H]; [easy|]. cbn. rewrite (IH H). now destruct x. }
  unfold max_mul_depth in Hd. rewrite N in Hd; [discriminate|].
  apply in_map_iff. exists (Inst Mul [40; 40] 41). split; [exact E|exact Hi].
Qed.
Print Assumptions C69_depth_refuted.

Example C69_nonvacuous : exists D, source demo67 D /\
  insert_mgmt_bfv demo67 (insert_relin (insert_init demo67)) 3 /\
  map op (body (insert_relin (insert_init demo67))) = [Mul; Relin; Mul; Relin; Add; Init; Mul; Other 3; Sub] /\
  map (annotate_level 3 3 (insert_relin (insert_init demo67))) [0; 2; 3; 8] = [Some 3; None; Some 3; Some 3].
Proof.
  destruct demo67_source as (D & Sp & _). exists D. split; [exact Sp|]. split.
  - split; [vm_compute; reflexivity|constructor].
  - split; vm_compute; reflexivity.
Qed.
