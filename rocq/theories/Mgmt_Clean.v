From Coq Require Import List Bool Arith Lia.
From Verif Require Import Mgmt_Model Mgmt_Spec Mgmt_Proofs Mgmt_Passes Mgmt_Sim Mgmt_Sim2 Mgmt_Levels Mgmt_Pipeline.
Import ListNotations.
Local Arguments Nat.ltb : simpl never.
Local Arguments Nat.leb : simpl never.

(** * The patterns of the management operations *)
Section Clean.
  Context {A : Type} (g : opk -> list A -> option A).
  Definition swaps (k1 k2 : opk) : Prop :=
    forall x y c, g k1 [x] = Some y -> g k2 [y] = Some c -> exists z, g k2 [x] = Some z /\ g k1 [z] = Some c.
  Definition merges (k1 k2 k : opk) : Prop :=
    forall x y c, g k1 [x] = Some y -> g k2 [y] = Some c -> g k [x] = Some c.
  Record laws : Prop := {
    l_mr_lr : forall k, swaps ModReduce (LevelReduce k);
    l_mr_as : forall k, swaps ModReduce (AdjustScale k);
    l_as_lr : forall j k, swaps (AdjustScale j) (LevelReduce k);
    l_lr_lr : forall j k, merges (LevelReduce j) (LevelReduce k) (LevelReduce (k + j));
    l_mr_mr : forall x y c, g ModReduce [x] = Some y -> g ModReduce [y] = Some c ->
                exists z, g (LevelReduce 1) [x] = Some z /\ g ModReduce [z] = Some c;
    l_as_as : forall j k, merges (AdjustScale j) (AdjustScale k) (AdjustScale k)
  }.

  Lemma run_agree N p e e' F :
    below N p -> agree N e e' -> run g e p = Some F -> exists F', run g e' p = Some F' /\ agree N F F'.
  Proof.
    revert e e'. induction p as [|i p IH]; intros e e' B Ag R; cbn in *.
    - injection R as <-. eauto.
    - destruct (B i (or_introl eq_refl)) as (Br & Ba). rewrite (agree_map N e) by auto.
      destruct (g _ _) as [a|]; [|easy]. eapply IH; [|apply agree_upd; exact Ag|exact R].
      intros j Hj. apply B. now right.
  Qed.

  (** what one pattern produces *)
  Lemma pattern_sim d i n out e c :
    laws -> pattern d i n = Some out -> args i = [res d] ->
    g (op d) (map e (args d)) = Some (e (res d)) -> g (op i) [e (res d)] = Some c ->
    (forall v, In v (args d) -> v < n) -> res i < n ->
    exists e2, run g e out = Some e2 /\ e2 (res i) = c /\ forall x, x < n -> x <> res i -> e2 x = e x.
  Proof.
    intros HL P Ai Gd Gi Ba Bi. unfold pattern in P.
    destruct (op d) eqn:Od; try discriminate; destruct (args d) as [|a [|]] eqn:Ad; try discriminate;
      destruct (op i) eqn:Oi; try discriminate; rewrite Ai in P; injection P as <-; cbn [map] in Gd.
    - destruct (l_mr_mr HL _ _ _ Gd Gi) as (z & G1 & G2).
      cbn. rewrite G1, upd_same, G2. eexists. split; [reflexivity|]. split; [apply upd_same|].
      intros x Hx Hi. rewrite !upd_other by lia. easy.
    - destruct (l_mr_lr HL _ _ _ _ Gd Gi) as (z & G1 & G2).
      cbn. rewrite G1, upd_same, G2. eexists. split; [reflexivity|]. split; [apply upd_same|].
      intros x Hx Hi. rewrite !upd_other by lia. easy.
    - destruct (l_mr_as HL _ _ _ _ Gd Gi) as (z & G1 & G2).
      cbn. rewrite G1, upd_same, G2. eexists. split; [reflexivity|]. split; [apply upd_same|].
      intros x Hx Hi. rewrite !upd_other by lia. easy.
    - cbn. rewrite (l_lr_lr HL _ _ _ _ _ Gd Gi). eexists. split; [reflexivity|]. split; [apply upd_same|].
      intros x Hx Hi. now apply upd_other.
    - destruct (l_as_lr HL _ _ _ _ _ Gd Gi) as (z & G1 & G2).
      cbn. rewrite G1, upd_same, G2. eexists. split; [reflexivity|]. split; [apply upd_same|].
      intros x Hx Hi. rewrite !upd_other by lia. easy.
    - cbn. rewrite (l_as_as HL _ _ _ _ _ Gd Gi). eexists. split; [reflexivity|]. split; [apply upd_same|].
      intros x Hx Hi. now apply upd_other.
  Qed.

  Lemma run_split e p q F : run g e (p ++ q) = Some F -> exists e1, run g e p = Some e1 /\ run g e1 q = Some F.
  Proof. rewrite run_app. destruct (run g e p); [eauto|easy]. Qed.

  Lemma clean_step_sim p q e F :
    laws -> wf p -> clean_step p q -> run g e (body p) = Some F ->
    exists F', run g e (body q) = Some F' /\ agree (fresh p) F F'.
  Proof.
    intros HL (Sp & _) C R.
    destruct C as [sa pa p0 d p1 i p2 o out n p Ai U1 U2 En P]. cbn [body].
    pose proof (below_fresh p) as Bl. rewrite <- En in *. cbn [body p] in Bl, R, Sp.
    apply run_split in R as (e0 & R0 & R).
    change (d :: p1 ++ i :: p2) with ((d :: p1) ++ i :: p2) in R. apply run_split in R as (e1 & R1 & R).
    rewrite ssa_app in Sp. destruct Sp as (S0 & Sp). 
    change (d :: p1 ++ i :: p2) with ((d :: p1) ++ i :: p2) in Sp. rewrite ssa_app in Sp. destruct Sp as (S1 & S2).
    cbn in R. destruct (g (op i) _) as [c|] eqn:Gi; [|easy].
    assert (Gd : g (op d) (map e1 (args d)) = Some (e1 (res d))).
    { eapply run_eqn; [exact S1|exact R1|now left]. }
    rewrite Ai in Gi.
    destruct (pattern_sim d i n out e1 c) as (e2 & R2 & Ei & Ex); auto.
    { intros v Hv. apply (Bl d); [rewrite in_app_iff; cbn; auto|exact Hv]. }
    { apply (fun H => proj1 (Bl i H)). apply in_or_app. right. right. apply in_or_app. right. now left. }
    destruct (run_agree n p2 (upd e1 (res i) c) e2 F) as (F' & RF & Ag); auto.
    { intros j Hj. apply Bl. rewrite in_app_iff. cbn. rewrite in_app_iff. cbn. auto 6. }
    { intros x Hx. unfold upd. destruct (Nat.eqb_spec x (res i)) as [->|]; auto. }
    exists F'. split; [|exact Ag].
    rewrite run_app, R0. change (d :: p1 ++ out ++ p2) with ((d :: p1) ++ out ++ p2).
    rewrite run_app, R1, run_app, R2. exact RF.
  Qed.
End Clean.

Lemma ssa_weaken n d p : ssa d p -> ~ In n (map res p) -> ssa (n :: d) p.
Proof.
  revert d. induction p as [|i p IH]; intros d S N; cbn in *; [easy|].
  destruct S as (I & Nd & S). split; [|split].
  - intros v Hv. right. auto.
  - intros [E|E]; [subst; tauto|tauto].
  - eapply ssa_perm; [|apply IH; [exact S|tauto]]. intros v; cbn; tauto.
Qed.

Lemma clean_step_wf p q : wf p -> clean_step p q -> wf q /\ keeps p q.
Proof.
  intros (Sp & O & Di) C.
  destruct C as [sa pa p0 d p1 i p2 o out n p Ai U1 U2 En P].
  pose proof (below_fresh p) as Bl. rewrite <- En in *. cbn in Bl, Sp, O, Di.
  assert (Fr : forall v, In v (sa ++ pa) -> v < n).
  { intros v Hv. rewrite En. apply fresh_lt. cbn. rewrite !in_app_iff in *. tauto. }
  assert (Nn : forall j, In j (p0 ++ d :: p1 ++ i :: p2) -> res j <> n).
  { intros j Hj. apply Bl in Hj. lia. }
  rewrite ssa_app in Sp. destruct Sp as (S0 & Sp).
  cbn in Sp. destruct Sp as (Id & Nd & Sp). rewrite ssa_app in Sp. destruct Sp as (S1 & Sp).
  cbn in Sp. destruct Sp as (Ii & Ni & S2).
  set (D := rev (map res p1) ++ res d :: rev (map res p0) ++ sa ++ pa) in *.
  assert (ID : incl (args d) D).
  { intros v Hv. unfold D. apply in_or_app. right. right. auto. }
  assert (ND : ~ In n D).
  { unfold D. rewrite in_app_iff. cbn. rewrite in_app_iff, <- !in_rev, !in_map_iff.
    intros [(j & E & Hj)|[E|[(j & E & Hj)|E]]].
    - apply (Nn j); [rewrite in_app_iff; cbn; rewrite in_app_iff; auto|exact E].
    - apply (Nn d); [rewrite in_app_iff; cbn; auto|exact E].
    - apply (Nn j); [rewrite in_app_iff; auto|exact E].
    - apply Fr in E. lia. }
  assert (Nin : res i <> n) by (apply Nn; rewrite in_app_iff; cbn; rewrite in_app_iff; cbn; auto 6).
  assert (N2 : ~ In n (map res p2)).
  { rewrite in_map_iff. intros (j & E & Hj). apply (Nn j); [rewrite in_app_iff; cbn; rewrite in_app_iff; cbn; auto 6|exact E]. }
  assert (Out : ssa D (out ++ p2) /\ In (res i) (map res out)).
  { unfold pattern in P.
    destruct (op d) eqn:Od; try discriminate; destruct (args d) as [|a [|]] eqn:Ad; try discriminate;
      destruct (op i) eqn:Oi; try discriminate; rewrite Ai in P; injection P as <-; cbn;
      (split; [repeat split; auto|auto]);
      try (intros v [<-|[]]; cbn; auto);
      try (intros [E|E]; [now apply Nin|now apply Ni]);
      try (eapply ssa_perm; [|apply ssa_weaken; [exact S2|exact N2]]; intros v; cbn; tauto). }
  destruct Out as (SO & RO).
  split; [split; [|split]|split; [|split]]; cbn; auto.
  - rewrite ssa_app. split; [exact S0|]. cbn. split; [exact Id|]. split; [exact Nd|].
    rewrite ssa_app. split; [exact S1|exact SO].
  - intros v Hv. apply O in Hv. rewrite !map_app, !in_app_iff in *. cbn in *. rewrite map_app, in_app_iff in *.
    rewrite !map_app, !in_app_iff. cbn in *. intuition (subst; auto 10).
  - intros v Hv. rewrite !map_app, !in_app_iff in *. cbn in *. rewrite map_app, in_app_iff in *.
    rewrite !map_app, !in_app_iff. cbn in *. intuition (subst; auto 10).
Qed.

Lemma fresh_values p v : In v (values p) -> v < fresh p.
Proof.
  unfold values. intros H. apply fresh_lt. rewrite !in_app_iff in *.
  destruct H as [H|[H|H]]; auto. right. right. right. apply in_map_iff in H as (i & <- & Hi).
  apply in_flat_map. exists i. cbn. auto.
Qed.
Lemma keeps_values p q v : keeps p q -> In v (values p) -> In v (values q).
Proof.
  intros (E1 & E2 & H) Hv. unfold values in *. rewrite E1, E2, !in_app_iff in *.
  destruct Hv as [Hv|[Hv|Hv]]; auto.
Qed.
Lemma keeps_trans p q r : keeps p q -> keeps q r -> keeps p r.
Proof. intros (A1 & A2 & A3) (B1 & B2 & B3). split; [congruence|]. split; [congruence|auto]. Qed.
Lemma keeps_refl p : keeps p p.
Proof. repeat split; auto. Qed.

Definition vagree {A} (p : prog) (F F' : nat -> A) : Prop := forall v, In v (values p) -> F' v = F v.
Lemma agree_vagree {A} p (F F' : nat -> A) : agree (fresh p) F F' -> vagree p F F'.
Proof. intros H v Hv. apply H. now apply fresh_values. Qed.

Lemma clean_wf p q : clean p q -> wf p -> wf q /\ keeps p q /\ outs q = outs p.
Proof.
  induction 1 as [p|p q r S C IH]; intros W; [split; [easy|split; [apply keeps_refl|easy]]|].
  destruct (clean_step_wf p q W S) as (Wq & K). destruct (IH Wq) as (Wr & K' & O).
  split; [easy|]. split; [eapply keeps_trans; eauto|]. rewrite O. now destruct S.
Qed.
Lemma clean_sim {A} (g : opk -> list A -> option A) p q e F :
  laws g -> clean p q -> wf p -> run g e (body p) = Some F ->
  exists F', run g e (body q) = Some F' /\ vagree p F F'.
Proof.
  intros HL C. revert F. induction C as [p|p q r S C IH]; intros F W R; [exists F; split; [easy|now intros v _]|].
  destruct (clean_step_sim g p q e F HL W S R) as (F1 & R1 & A1).
  destruct (clean_step_wf p q W S) as (Wq & K).
  destruct (IH F1 Wq R1) as (F2 & R2 & A2). exists F2. split; [exact R2|].
  intros v Hv. rewrite A2 by (eapply keeps_values; eauto). now apply A1, fresh_values.
Qed.


(** * The canonicalizer *)
Lemma uses_zero p v : uses p v = 0 -> ~ In v (flat_map args (body p)) /\ ~ In v (outs p).
Proof.
  unfold uses. intros H. apply length_zero_iff_nil in H.
  assert (K : ~ In v (flat_map args (body p) ++ outs p)).
  { intros I. assert (J : In v (filter (Nat.eqb v) (flat_map args (body p) ++ outs p))).
    { apply filter_In. split; [exact I|apply Nat.eqb_refl]. }
    rewrite H in J. exact J. }
  rewrite in_app_iff in K. tauto.
Qed.
Lemma run_except {A} (g : opk -> list A -> option A) p x e e' F :
  ~ In x (flat_map args p) -> (forall v, v <> x -> e' v = e v) -> run g e p = Some F ->
  exists F', run g e' p = Some F' /\ forall v, v <> x -> F' v = F v.
Proof.
  revert e e'. induction p as [|i p IH]; intros e e' N H R; cbn in *.
  - injection R as <-. eauto.
  - rewrite in_app_iff in N.
    replace (map e' (args i)) with (map e (args i)).
    2:{ apply map_ext_Forall, Forall_In. intros v Hv. symmetry. apply H. intros ->. tauto. }
    destruct (g _ _) as [a|]; [|easy]. eapply IH; [tauto| |exact R].
    intros v Hv. unfold upd. destruct (v =? res i); auto.
Qed.
Lemma ssa_drop x d p : ~ In x (flat_map args p) -> ssa (x :: d) p -> ssa d p.
Proof.
  revert d. induction p as [|i p IH]; intros d N S; cbn in *; [easy|]. rewrite in_app_iff in N.
  destruct S as (I & Nd & S). split; [|split].
  - intros v Hv. destruct (I v Hv) as [<-|K]; [tauto|exact K].
  - tauto.
  - apply (IH (res i :: d)); [tauto|]. eapply ssa_perm; [|exact S]. intros v; cbn; tauto.
Qed.
Lemma replace_In x y l v : In v (replace x y l) -> (v = y /\ In x l) \/ (v <> x /\ In v l) \/ (v = y).
Proof.
  unfold replace. rewrite in_map_iff. intros (u & E & H). destruct (Nat.eqb_spec u x); subst; auto.
Qed.
Lemma run_rename {A} (g : opk -> list A -> option A) p x y e F :
  x <> y -> ~ In x (map res p) -> ~ In y (map res p) -> e x = e y -> run g e p = Some F ->
  forall e', (forall v, v <> x -> e' v = e v) ->
  exists F', run g e' (rename x y p) = Some F' /\ forall v, v <> x -> F' v = F v.
Proof.
  intros Nxy. revert e. induction p as [|i p IH]; intros e Nx Ny E R e' H; cbn in *.
  - injection R as <-. eauto.
  - replace (map e' (replace x y (args i))) with (map e (args i)).
    2:{ unfold replace. rewrite map_map. apply map_ext. intros v. destruct (Nat.eqb_spec v x); subst; rewrite ?E; symmetry; apply H; auto. }
    destruct (g _ _) as [a|]; [|easy]. eapply IH; [tauto|tauto| |exact R|].
    + rewrite !upd_other by (intros K; symmetry in K; tauto). exact E.
    + intros v Hv. unfold upd. destruct (v =? res i); auto.
Qed.
Lemma ssa_rename x y d p :
  x <> y -> In y d -> ssa (x :: d) p -> ssa d (rename x y p).
Proof.
  intros Nxy. revert d. induction p as [|i p IH]; intros d Iy S; cbn in *; [easy|].
  destruct S as (I & Nd & S). split; [|split].
  - intros v Hv. unfold replace in Hv. apply in_map_iff in Hv as (u & E & Hu).
    apply I in Hu. destruct (Nat.eqb_spec u x); subst; [easy|]. destruct Hu; [congruence|easy].
  - tauto.
  - apply IH; [now right|]. eapply ssa_perm; [|exact S]. intros v; cbn; tauto.
Qed.
Lemma rename_res x y p : map res (rename x y p) = map res p.
Proof. unfold rename. rewrite map_map. apply map_ext. easy. Qed.

Definition same_args (p q : prog) : Prop := sargs q = sargs p /\ pargs q = pargs p.

Lemma canon_step_wf p q : wf p -> canon_step p q -> wf q /\ same_args p q.
Proof.
  intros W C. destruct C as [p q C|sa pa p0 i p1 o _ U|sa pa p0 d p1 i p2 o _ Eo Ea].
  - destruct (clean_step_wf p q W C) as (Wq & K1 & K2 & _). split; [easy|split; easy].
  - apply uses_zero in U. cbn in U. rewrite flat_map_app, in_app_iff in U. cbn in U. rewrite in_app_iff in U.
    destruct W as (Sp & O & Di). cbn in *. split; [|split; easy].
    rewrite ssa_app in Sp. destruct Sp as (S0 & Id & Nd & S1). split; [|split]; cbn; auto.
    + rewrite ssa_app. split; [exact S0|]. eapply ssa_drop; [|exact S1]. tauto.
    + intros v Hv. pose proof (O v Hv) as K. rewrite !map_app, !in_app_iff in *. cbn in K.
      destruct K as [?|[?|[?|[<-|?]]]]; tauto.
  - destruct W as (Sp & O & Di). cbn in *. split; [|split; easy].
    rewrite ssa_app in Sp. destruct Sp as (S0 & Sp).
    cbn in Sp. destruct Sp as (Id & Nd & Sp). rewrite ssa_app in Sp. destruct Sp as (S1 & Ii & Ni & S2).
    assert (Ne : res i <> res d).
    { intros E. apply Ni. rewrite E. apply in_or_app. right. now left. }
    split; [|split]; cbn; auto.
    + rewrite ssa_app. split; [exact S0|]. cbn. split; [exact Id|]. split; [exact Nd|]. rewrite ssa_app. split; [exact S1|].
      apply ssa_rename; auto. apply in_or_app. right. now left.
    + intros v Hv. unfold replace in Hv. apply in_map_iff in Hv as (u & E & Hu).
      apply O in Hu. rewrite !map_app, !in_app_iff in *. cbn in *. rewrite map_app, in_app_iff in *. cbn in *.
      rewrite rename_res. destruct (Nat.eqb_spec u (res i)); subst; [tauto|].
      destruct Hu as [?|[?|[?|[?|[?|[?|?]]]]]]; auto 10. congruence.
Qed.
Lemma canon_step_sim {A} (g : opk -> list A -> option A) p q e F :
  laws g -> wf p -> canon_step p q -> run g e (body p) = Some F ->
  exists F', run g e (body q) = Some F' /\ map F' (outs q) = map F (outs p).
Proof.
  intros HL W C R. destruct C as [p q C|sa pa p0 i p1 o _ U|sa pa p0 d p1 i p2 o _ Eo Ea].
  - destruct (clean_step_sim g p q e F HL W C R) as (F' & R' & Ag). exists F'. split; [exact R'|].
    replace (outs q) with (outs p) by now destruct C.
    apply map_ext_Forall, Forall_In. intros v Hv. apply Ag, fresh_lt. rewrite !in_app_iff. auto.
  - apply uses_zero in U. cbn in U. rewrite flat_map_app, in_app_iff in U. cbn in U. rewrite in_app_iff in U.
    cbn in *. apply run_split in R as (e1 & R0 & R). cbn in R. destruct (g (op i) _) as [a|]; [|easy].
    destruct (run_except g p1 (res i) (upd e1 (res i) a) e1 F) as (F' & R' & Ag); [tauto| |exact R|].
    { intros v Hv. now rewrite upd_other. }
    exists F'. split; [now rewrite run_app, R0|].
    apply map_ext_Forall, Forall_In. intros v Hv. apply Ag. intros ->. tauto.
  - destruct W as (Sp & O & Di). cbn in *.
    rewrite ssa_app in Sp. destruct Sp as (S0 & Sp).
    pose proof Sp as Sp0. change (d :: p1 ++ i :: p2) with ((d :: p1) ++ i :: p2) in Sp0.
    rewrite ssa_app in Sp0. destruct Sp0 as (S1 & Ii & Ni & S2).
    apply run_split in R as (e0 & R0 & R).
    change (d :: p1 ++ i :: p2) with ((d :: p1) ++ i :: p2) in R. apply run_split in R as (e1 & R1 & R).
    assert (Gd : g (op d) (map e1 (args d)) = Some (e1 (res d))).
    { eapply run_eqn; [exact S1|exact R1|now left]. }
    cbn in R. rewrite Eo, Ea, Gd in R.
    assert (Id : In (res d) (rev (map res (d :: p1)) ++ rev (map res p0) ++ sa ++ pa)).
    { apply in_or_app. left. rewrite <- in_rev. now left. }
    assert (Ne : res i <> res d) by (intros E; apply Ni; now rewrite E).
    destruct (run_rename g p2 (res i) (res d) (upd e1 (res i) (e1 (res d))) F Ne) with (e' := e1) as (F' & R' & Ag).
    { eapply ssa_not_redefined; [exact S2|now left]. }
    { eapply ssa_not_redefined; [exact S2|now right]. }
    { rewrite upd_same, upd_other by auto. easy. }
    { exact R. }
    { intros v Hv. now rewrite upd_other. }
    exists F'. split.
    + rewrite run_app, R0. change (d :: p1 ++ rename (res i) (res d) p2) with ((d :: p1) ++ rename (res i) (res d) p2).
      now rewrite run_app, R1.
    + unfold replace. rewrite map_map. apply map_ext. intros v.
      destruct (Nat.eqb_spec v (res i)) as [->|Nv]; [|now apply Ag].
      rewrite Ag by auto. rewrite !(run_final g _ _ _ _ _ S2 R) by (cbn; auto).
      rewrite upd_same, upd_other by auto. easy.
Qed.
Lemma canon_wf p q : canon p q -> wf p -> wf q /\ same_args p q.
Proof.
  induction 1 as [p|p q r S C IH]; intros W; [split; [easy|split; easy]|].
  destruct (canon_step_wf p q W S) as (Wq & K1 & K2). destruct (IH Wq) as (Wr & K3 & K4).
  split; [easy|]. split; congruence.
Qed.
Lemma canon_sim {A} (g : opk -> list A -> option A) p q e F :
  laws g -> canon p q -> wf p -> run g e (body p) = Some F ->
  exists F', run g e (body q) = Some F' /\ map F' (outs q) = map F (outs p).
Proof.
  intros HL C. revert F. induction C as [p|p q r S C IH]; intros F W R; [eauto|].
  destruct (canon_step_sim g p q e F HL W S R) as (F1 & R1 & A1).
  destruct (canon_step_wf p q W S) as (Wq & K).
  destruct (IH F1 Wq R1) as (F2 & R2 & A2). exists F2. split; [exact R2|congruence].
Qed.

(** * The machines satisfy the laws *)
Ltac inv1 :=
  match goal with
  | H : match ?x with Some _ => _ | None => _ end = Some _ |- _ => destruct x eqn:?; [|discriminate H]
  | H : (if ?b then _ else _) = Some _ |- _ => destruct b eqn:?; [|discriminate H]
  | H : Some _ = Some _ |- _ => injection H as H; subst
  | H : (_ <=? _) = true |- _ => apply Nat.leb_le in H
  | H : None = Some _ |- _ => discriminate H
  end.
Lemma lev_laws L : laws (lev_g L).
Proof.
  split; unfold swaps, merges; intros; (destruct x as [x|]; cbn in *; [|repeat (inv1; cbn in *); eauto]);
    repeat (inv1; cbn in *);
    repeat (first [match goal with |- context [?a <=? L] => rewrite (proj2 (Nat.leb_le a L)) by lia end
                  | eexists; split; [reflexivity|] | progress cbn]); try (do 2 f_equal; lia).
Qed.
Lemma dim_laws : laws dim_g.
Proof.
  split; unfold swaps, merges; intros; (destruct x as [x|]; cbn in *; [|repeat (inv1; cbn in *); eauto]);
    repeat (inv1; cbn in *); eauto;
    repeat (first [match goal with H : _ = true |- _ => rewrite H end | eexists; split; [reflexivity|] | progress cbn]); auto.
Qed.
Lemma ev_laws {V} (d : V) ev : laws (ev_g d ev).
Proof. split; unfold swaps, merges, ev_g; intros; cbn in *; repeat inv1; eauto. Qed.
