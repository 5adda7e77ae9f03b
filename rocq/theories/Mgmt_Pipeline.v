From Coq Require Import List Bool Arith Lia.
From Verif Require Import Mgmt_Model Mgmt_Spec Mgmt_Proofs Mgmt_Passes Mgmt_Sim Mgmt_Sim2 Mgmt_Levels.
Import ListNotations.
Local Arguments Nat.ltb : simpl never.
Local Arguments Nat.leb : simpl never.

(** * The multiplicative depth analysis *)
Definition drel (o : option nat) (m : mds) : Prop :=
  match o with
  | Some d => (m = DInt d /\ d <= 40) \/ (m = DInvalid /\ 40 < d)
  | None => m = DUninit
  end.

Lemma fold_djoin (sec : nat -> bool) e st l a acc :
  (forall v, In v l -> drel (e v) (st v)) -> (forall v, In v l -> sec v = is_some (e v)) -> drel (Some a) acc ->
  drel (Some (fold_left Nat.max (cts (map e l)) a)) (fold_left djoin (map st (filter sec l)) acc).
Proof.
  revert a acc. induction l as [|v l IH]; intros a acc H Hs Ha; cbn; [easy|].
  rewrite (Hs v) by (cbn; auto). pose proof (H v (or_introl eq_refl)) as Hv.
  destruct (e v) as [x|]; cbn.
  - apply IH; [intros; apply H; now right|intros; apply Hs; now right|].
    cbn in Ha, Hv |- *.
    destruct Ha as [[-> Ha]|[-> Ha]], Hv as [[-> Hv]|[-> Hv]]; cbn; try (right; split; [easy|lia]).
    left. split; [easy|lia].
  - apply IH; [intros; apply H; now right|intros; apply Hs; now right|easy].
Qed.
Lemma fold_left_max_ge l a : a <= fold_left Nat.max l a /\ forall x, In x l -> x <= fold_left Nat.max l a.
Proof.
  revert a. induction l as [|b l IH]; intros a; cbn; [split; [lia|easy]|].
  destruct (IH (Nat.max a b)) as (H1 & H2). split; [lia|]. intros x [<-|Hx]; [lia|auto].
Qed.
Lemma fold_left_max_In l a : fold_left Nat.max l a = a \/ In (fold_left Nat.max l a) l.
Proof.
  revert a. induction l as [|b l IH]; intros a; cbn; [auto|].
  destruct (IH (Nat.max a b)) as [H|H]; [|auto]. rewrite H.
  destruct (Nat.max_spec a b) as [[_ E]|[_ E]]; rewrite E; auto.
Qed.
Lemma cmax_fold_left l : l <> [] -> cmax l = Some (fold_left Nat.max l 0).
Proof.
  intros H. apply cmax_spec. split.
  - destruct (fold_left_max_In l 0) as [E|E]; [|exact E].
    destruct l as [|a l]; [easy|]. pose proof (proj2 (fold_left_max_ge (a :: l) 0) a (or_introl eq_refl)).
    rewrite E in *. left. lia.
  - apply fold_left_max_ge.
Qed.

Lemma depth_tf_drel (sec : nat -> bool) st e i a :
  (forall v, In v (args i) -> drel (e v) (st v)) -> (forall v, In v (args i) -> sec v = is_some (e v)) ->
  dq_g (op i) (map e (args i)) = Some a -> sec (res i) = is_some a ->
  drel a (depth_tf sec st i).
Proof.
  intros H Hs G Sr. unfold depth_tf. rewrite Sr.
  pose proof (fold_djoin sec e st (args i) 0 (DInt 0) H Hs (or_introl (conj eq_refl (Nat.le_0_l _)))) as K.
  set (m := fold_left Nat.max _ 0) in K.
  assert (Cm : forall x, cmax (cts (map e (args i))) = Some x -> x = m).
  { intros x Hx. rewrite cmax_fold_left in Hx; [unfold m; congruence|]. intros C. rewrite C in Hx. discriminate. }
  assert (Base : forall x, a = Some x ->
    (op i = Mul /\ x = m + 1) \/ (op i <> Mul /\ (forall j, op i <> AdjustScale j) /\ x = m)).
  { intros x ->. destruct (op i) eqn:Eo; cbn [dq_g] in G; try discriminate;
      try (right; split; [discriminate|]; split; [discriminate|]; destruct (matched _ || _); [|discriminate];
           apply Cm; congruence).
    - left. split; [easy|]. destruct (cmax (cts (map e (args i)))) as [y|] eqn:Ey; [|discriminate].
      cbn in G. injection G as <-. rewrite (Cm y eq_refl). lia.
    - right. split; [discriminate|]. split; [discriminate|].
      destruct (args i) as [|v [|]] eqn:Ea; cbn in G; try discriminate. apply Cm.
      cbn. destruct (e v); [|discriminate]. cbn. congruence. }
  destruct a as [x|]; cbn [is_some]; [|easy].
  unfold derive_depth.
  destruct (Base x eq_refl) as [(Eo & ->)|(No & Na & ->)].
  - rewrite Eo. cbn [increases]. cbn in K. destruct K as [[-> K]|[-> K]]; cbn.
    + unfold depth_budget. destruct (40 <? m + 1) eqn:Lt.
      * apply Nat.ltb_lt in Lt. auto.
      * apply Nat.ltb_ge in Lt. auto.
    + right. split; [easy|lia].
  - assert (Inc : increases (op i) = false) by (destruct (op i); cbn; congruence).
    rewrite Inc. cbn in K. destruct K as [[-> K]|[-> K]]; cbn; [|auto].
    unfold depth_budget. rewrite (proj2 (Nat.ltb_ge _ _) K). auto.
Qed.

Lemma flow_depth sec d p e st F :
  ssa d p -> run dq_g e p = Some F ->
  (forall v, drel (e v) (st v)) -> (forall v, sec v = is_some (F v)) ->
  forall v, drel (F v) (flow (depth_tf sec) st p v).
Proof.
  revert d e st. induction p as [|i p IH]; intros d e st Sd R H Hs v; cbn in R, Sd |- *.
  - injection R as <-. auto.
  - destruct Sd as (Ia & Nd & Sd).
    destruct (dq_g _ _) as [a|] eqn:G; [|easy].
    eapply IH; [exact Sd|exact R| |exact Hs].
    intros u. unfold upd. destruct (u =? res i); [|auto].
    eapply depth_tf_drel; eauto.
    + intros w Hw. rewrite Hs. f_equal. rewrite (run_final _ _ _ _ _ w Sd R) by (cbn; auto).
      apply upd_other. intros ->. auto.
    + rewrite Hs. now rewrite (run_final _ _ _ _ _ (res i) Sd R), upd_same by (cbn; auto).
Qed.
Lemma depths_drel p F : wf p -> run dq_g (inputs p 0) (body p) = Some F -> forall v, drel (F v) (depths p v).
Proof.
  intros (Sp & _) R. unfold depths. eapply flow_depth; eauto.
  - intros v. unfold inputs. destruct (mem v (sargs p)); cbn; [left; split; [easy|lia]|easy].
  - apply (secret_run dq_g p 0 F dq_optg R).
Qed.

(** the depth that decides about the first multiplication *)
Lemma effective_depth_spec (sec : nat -> bool) e dep l acc :
  (forall v, In v l -> drel (e v) (dep v)) -> (forall v, In v l -> sec v = is_some (e v)) ->
  exists d, effective_depth (map dep (filter sec l)) acc = Some d /\
    (d = 0 <-> acc = 0 /\ forall x, In x (cts (map e l)) -> x = 0).
Proof.
  revert acc. induction l as [|v l IH]; intros acc H Hs; cbn.
  - exists acc. split; [easy|]. split; [|tauto]. intros E. split; [exact E|]. intros x [].
  - rewrite (Hs v) by (cbn; auto). pose proof (H v (or_introl eq_refl)) as Hv.
    assert (Hl : forall x, In x l -> drel (e x) (dep x)) by (intros; apply H; now right).
    assert (Hsl : forall x, In x l -> sec x = is_some (e x)) by (intros; apply Hs; now right).
    destruct (e v) as [x|]; cbn.
    + cbn in Hv. destruct Hv as [[-> Hv]|[-> Hv]].
      * destruct (IH (Nat.max acc x) Hl Hsl) as (d & E & K). exists d. split; [exact E|].
        rewrite K. split.
        -- intros [K1 K2]. split; [lia|]. intros y [<-|Hy]; [lia|auto].
        -- intros [K1 K2]. split; [|auto]. specialize (K2 x (or_introl eq_refl)). lia.
      * destruct (IH (Nat.max acc 1) Hl Hsl) as (d & E & K). exists d. split; [exact E|].
        rewrite K. split; [lia|]. intros [K1 K2]. specialize (K2 x (or_introl eq_refl)). lia.
    + destruct (IH acc Hl Hsl) as (d & E & K). exists d. auto.
Qed.

(** * Levels after inserting the modulus reductions *)
Lemma phi_needed m d : phi m d <= needed m d.
Proof. destruct m as [|[|]]; cbn; try lia. destruct d; lia. Qed.
Lemma phi_mono m a b : a <= b -> phi m a <= phi m b.
Proof. destruct m as [|[|]]; cbn; lia. Qed.

Lemma cts_map f l : cts (map (option_map f) l) = map f (cts l).
Proof. induction l as [|[a|] l IH]; cbn; congruence. Qed.
Lemma cmax_map f l : (forall a b, a <= b -> f a <= f b) -> cmax (map f l) = option_map f (cmax l).
Proof.
  intros H. destruct (cmax l) as [m|] eqn:E; cbn.
  - apply cmax_spec in E as (E1 & E2). apply cmax_spec. split; [now apply in_map|].
    intros x Hx. apply in_map_iff in Hx as (y & <- & Hy). auto.
  - apply cmax_none in E as ->. easy.
Qed.
Lemma all_equal_map f l : all_equal l = true -> all_equal (map f l) = true.
Proof.
  rewrite !all_equal_iff. intros H a b Ha Hb.
  apply in_map_iff in Ha as (x & <- & Hx), Hb as (y & <- & Hy). f_equal. auto.
Qed.
Lemma dq_rl_other m k l a : dq_g k l = Some a -> k <> Mul -> rl_g k (map (option_map (phi m)) l) = Some (option_map (phi m) a).
Proof.
  intros G Nk. destruct k; try congruence; cbn [dq_g rl_g matched orb] in *; try discriminate;
    rewrite ?cts_map.
  - injection G as <-. now rewrite cmax_map by apply phi_mono.
  - injection G as <-. now rewrite cmax_map by apply phi_mono.
  - injection G as <-. now rewrite cmax_map by apply phi_mono.
  - destruct (all_equal (cts l)) eqn:E; [|discriminate]. injection G as <-.
    rewrite all_equal_map by easy. now rewrite cmax_map by apply phi_mono.
  - destruct (all_equal (cts l)) eqn:E; [|discriminate]. injection G as <-.
    rewrite all_equal_map by easy. now rewrite cmax_map by apply phi_mono.
  - destruct l as [|y [|]]; try discriminate. injection G as <-. easy.
Qed.

Definition bounded (L : nat) (e : nat -> option nat) : Prop := forall v l, e v = Some l -> l <= L.

(** agreement up to phi *)
Definition pagree (m : mode) (N : nat) (e e' : nat -> option nat) : Prop :=
  forall x, x < N -> e' x = option_map (phi m) (e x).
Lemma pagree_map m N e e' l : pagree m N e e' -> (forall v, In v l -> v < N) ->
  map e' l = map (option_map (phi m)) (map e l).
Proof. intros H B. rewrite map_map. apply map_ext_Forall, Forall_In. auto. Qed.
Lemma pagree_upd m N e e' v a : pagree m N e e' -> pagree m N (upd e v a) (upd e' v (option_map (phi m) a)).
Proof. intros H x Hx. unfold upd. destruct (x =? v); auto. Qed.
Lemma bounded_upd L e v a : bounded L e -> (forall l, a = Some l -> l <= L) -> bounded L (upd e v a).
Proof. intros H Ha x l. unfold upd. destruct (x =? v); auto. apply H. Qed.

(** reducing all the secret operands *)
Lemma reduce_all_operands sec n l q l' n' e L :
  (forall v, In v l -> v < n) -> (forall v, In v l -> sec v = is_some (e v)) ->
  (forall v a, In v l -> e v = Some a -> a + 1 <= L) -> bounded L e ->
  reduce_operands (filter sec l) n l = (q, l', n') ->
  exists e2, run rl_g e q = Some e2 /\ (forall x, x < n -> e2 x = e x) /\ bounded L e2 /\
    map e2 l' = map (option_map (fun a => a + 1)) (map e l).
Proof.
  intros B Hs Hb Be E.
  edestruct (reduce_operands_run rl_g (option_map (fun a => a + 1))) with (e := e) (4 := E) as (e2 & R & Ag & F2 & Or).
  - intros v Hv. apply filter_In in Hv as [Hv _]. auto.
  - exact B.
  - intros v Hv. apply filter_In in Hv as [Hv Sv]. rewrite Hs in Sv by auto. destruct (e v); [easy|discriminate].
  - exists e2. split; [exact R|]. split; [exact Ag|]. split.
    + intros x a Hx. destruct (Or x) as [K|(v & Hv & K)].
      * rewrite K in Hx. eapply Be; eauto.
      * apply filter_In in Hv as [Hv _]. rewrite Hx in K. destruct (e v) as [b|] eqn:Ev; [|discriminate].
        injection K as ->. eauto.
    + rewrite map_map. apply Forall2_map_same. eapply Forall2_impl; [|exact F2]. intros x x' Hx _ K. cbn beta in K.
      rewrite K. destruct (mem x (filter sec l)) eqn:Mx; [easy|].
      apply mem_false in Mx. rewrite filter_In, Hs in Mx by auto. destruct (e x); [destruct Mx; auto|easy].
Qed.

Lemma cmax_plus1 l : cmax (cts (map (option_map (fun a => a + 1)) l)) = option_map (fun a => a + 1) (cmax (cts l)).
Proof. rewrite cts_map. apply cmax_map. lia. Qed.

Lemma insert_mod_reduce_levels m p D L :
  wf p -> run dq_g (inputs p 0) (body p) = Some D -> (forall v d, D v = Some d -> needed m d <= L) ->
  exists R, run rl_g (inputs p 0) (body (insert_mod_reduce m p)) = Some R /\
    pagree m (fresh p) D R /\ bounded L R /\
    map R (outs (insert_mod_reduce m p)) = map (option_map (out_level m (map D (outs p)))) (map D (outs p)).
Proof.
  intros W Rd HL. pose proof (depths_drel p D W Rd) as Hd.
  pose proof (secret_run dq_g p 0 D dq_optg Rd) as Hs.
  assert (Bo : forall v, In v (outs p) -> v < fresh p).
  { intros v Hv. apply fresh_lt. rewrite !in_app_iff. tauto. }
  destruct W as (Sp & _).
  assert (HLp : forall v d, D v = Some d -> phi m d <= L).
  { intros v d Hv. apply HL in Hv. pose proof (phi_needed m d). lia. }
  assert (I0 : pagree m (fresh p) (inputs p 0) (inputs p 0) /\ bounded L (inputs p 0)).
  { split.
    - intros x _. unfold inputs. destruct (mem x (sargs p)); [|easy]. destruct m as [|[|]]; easy.
    - intros x l. unfold inputs. destruct (mem x (sargs p)); [|easy]. intros [= <-]. lia. }
  assert (Self : forall n i e e' a, In i (body p) -> op i <> Mul \/ secret p (res i) = false ->
    fresh p <= n -> pagree m (fresh p) e e' -> bounded L e' ->
    dq_g (op i) (map e (args i)) = Some a -> D (res i) = a ->
    exists e2, run rl_g e' (fst ([i], n)) = Some e2 /\ fresh p <= snd ([i], n) /\
      pagree m (fresh p) (upd e (res i) a) e2 /\ bounded L e2).
  { intros n i e e' a Hi Nm Le Pg Be G Ha. destruct (below_fresh p i Hi) as (Br & Ba).
    cbn [fst snd run]. rewrite (pagree_map m (fresh p) e) by auto.
    assert (E : rl_g (op i) (map (option_map (phi m)) (map e (args i))) = Some (option_map (phi m) a)).
    { destruct Nm as [Nm|Nm]; [now apply dq_rl_other|].
      rewrite Hs, Ha in Nm. destruct a as [a|]; [discriminate|].
      destruct (opk_eq_dec (op i) Mul) as [Eo|No]; [|now apply dq_rl_other].
      rewrite Eo in *. cbn in G |- *. rewrite cts_map. destruct (cts (map e (args i))); [easy|discriminate]. }
    rewrite E. eexists. split; [reflexivity|]. split; [exact Le|]. split; [now apply pagree_upd|].
    apply bounded_upd; [exact Be|]. intros l Hl. destruct a as [a|]; [|discriminate]. injection Hl as <-. eauto. }
  destruct m as [|first].
  - unfold insert_mod_reduce. cbn [body outs].
    destruct (walk_run (after_op (secret p)) dq_g rl_g
                (fun n e e' => fresh p <= n /\ pagree AfterMul (fresh p) e e' /\ bounded L e')
                (sargs p ++ pargs p) (body p) (inputs p 0) D (fresh p) (inputs p 0)) as (R & RR & _ & Pg & Be); auto.
    + intros n e e' i a Hi (Le & Pg & Be) HF G Ha. unfold after_op.
      destruct (op i) eqn:Eo; try (eapply Self; eauto; [left; congruence|congruence]).
      destruct (secret p (res i)) eqn:Sr; [|eapply Self; eauto; congruence].
      destruct (below_fresh p i Hi) as (Br & Ba).
      rewrite Hs, Ha in Sr. cbn in G.
      destruct (cmax (cts (map e (args i)))) as [c|] eqn:Ec; cbn in G; injection G as <-; [|discriminate].
      cbn [fst snd run op args res map rl_g matched orb]. rewrite (pagree_map AfterMul (fresh p) e) by auto.
      rewrite cts_map, cmax_map by (apply phi_mono). rewrite Ec. cbn [option_map phi].
      rewrite upd_same. eexists. split; [reflexivity|]. split; [lia|]. split.
      * intros x Hx. unfold upd. destruct (x =? res i); [cbn; f_equal; lia|].
        destruct (Nat.eqb_spec x n); [lia|]. auto.
      * apply bounded_upd; [apply bounded_upd; [exact Be|]|]; intros l [= <-]; apply HLp in Ha; cbn in Ha; lia.
    + exists R. split; [exact RR|]. split; [exact Pg|]. split; [exact Be|].
      now apply (pagree_map AfterMul (fresh p)).
  - unfold insert_mod_reduce.
    destruct (walk (before_op (secret p) (depths p) first) (fresh p) (body p)) as [b n] eqn:Ew.
    destruct (mod_reduce_before _ _ _ n (outs p)) as [[q o] n'] eqn:Em. cbn [body outs].
    destruct (walk_run (before_op (secret p) (depths p) first) dq_g rl_g
                (fun n e e' => fresh p <= n /\ pagree (BeforeMul first) (fresh p) e e' /\ bounded L e')
                (sargs p ++ pargs p) (body p) (inputs p 0) D (fresh p) (inputs p 0)) as (R & RR & Le & Pg & Be); auto.
    + clear n q o n' b Ew Em. intros n e e' i a Hi (Le & Pg & Be) HF G Ha. unfold before_op.
      destruct (op i) eqn:Eo; try (eapply Self; eauto; [left; congruence|congruence]).
      destruct (secret p (res i)) eqn:Sr; [|eapply Self; eauto; congruence].
      destruct (below_fresh p i Hi) as (Br & Ba).
      rewrite Hs, Ha in Sr. cbn in G.
      destruct (cmax (cts (map e (args i)))) as [c|] eqn:Ec; cbn in G; injection G as <-; [|discriminate].
      assert (Hda : forall v, In v (args i) -> drel (e v) (depths p v)) by (intros v Hv; rewrite HF by auto; auto).
      assert (Hsa : forall v, In v (args i) -> secret p v = is_some (e v)) by (intros v Hv; rewrite HF by auto; auto).
      destruct (mod_reduce_before _ _ _ n (args i)) as [[q l] n'] eqn:Em.
      unfold mod_reduce_before in Em.
      destruct (effective_depth_spec _ _ _ _ 0 Hda Hsa) as (d & Ed & Kd). rewrite Ed in Em.
      pose proof (HLp _ _ Ha) as Hc.
      apply cmax_spec in Ec as Ec'. destruct Ec' as (Ec1 & Ec2).
      cbn [fst snd].
      destruct (negb first && (d =? 0)) eqn:Skip.
      * apply andb_true_iff in Skip as [Sf Sd]. apply negb_true_iff in Sf as ->. apply Nat.eqb_eq in Sd as ->.
        destruct (proj1 Kd eq_refl) as (_ & K0). specialize (K0 c Ec1). subst c.
        injection Em as <- <- <-. cbn [app run op args res rl_g matched orb].
        rewrite (pagree_map (BeforeMul false) (fresh p) e) by auto.
        rewrite cts_map, cmax_map by (apply phi_mono). rewrite Ec. cbn [option_map phi Nat.pred].
        eexists. split; [reflexivity|]. split; [lia|]. split; [apply (pagree_upd (BeforeMul false) _ _ _ _ (Some 1)); auto|].
        apply bounded_upd; [exact Be|]. intros l [= <-]. lia.
      * assert (Ph : phi (BeforeMul first) c + 1 = phi (BeforeMul first) (S c)).
        { cbn. destruct first; [lia|]. cbn in Skip. apply Nat.eqb_neq in Skip.
          assert (c <> 0); [|lia]. intros ->. apply Skip, Kd. split; [easy|]. intros x Hx. apply Ec2 in Hx. lia. }
        edestruct (reduce_all_operands (secret p)) with (e := e') (L := L) (5 := Em) as (e2 & R2 & Ag2 & B2 & M2).
        { intros v Hv. apply Ba in Hv. lia. }
        { intros v Hv. rewrite Pg, is_some_map by auto. auto. }
        { intros v x Hv Hx. rewrite Pg in Hx by auto. destruct (e v) as [y|] eqn:Ev; [|discriminate].
          injection Hx as <-. assert (y <= c). { apply Ec2. rewrite cts_In, in_map_iff. eauto. }
          pose proof (phi_mono (BeforeMul first) y c). unfold phi in *. lia. }
        { exact Be. }
        destruct (reduce_operands_chain _ _ _ _ _ _ (args i) Em (filter_incl _ _)) as (C & _). apply chain_le in C.
        eexists. split; [eapply run_snoc; [exact R2|]|].
        { rewrite M2. cbn [rl_g matched orb]. rewrite cmax_plus1, (pagree_map (BeforeMul first) (fresh p) e) by auto.
          rewrite cts_map, cmax_map by (apply phi_mono). rewrite Ec. cbn [option_map]. rewrite Ph. reflexivity. }
        split; [lia|]. split.
        -- apply (pagree_upd (BeforeMul first) _ _ _ _ (Some (S c))). intros x Hx. rewrite Ag2 by lia. auto.
        -- apply bounded_upd; [exact B2|]. now intros y [= <-].
    + rewrite Ew in RR, Le. cbn [fst snd] in RR, Le.
      unfold mod_reduce_before in Em.
      destruct (effective_depth_spec (secret p) D (depths p) (outs p) 0) as (d & Ed & Kd); auto.
      rewrite Ed in Em. cbn [negb andb] in Em.
      destruct (Nat.eqb_spec d 0) as [Zd|Nd]; [subst d|].
      * destruct (proj1 Kd eq_refl) as (_ & K0).
        injection Em as <- <- <-. exists R. rewrite app_nil_r. split; [exact RR|]. split; [exact Pg|]. split; [exact Be|].
        rewrite (pagree_map (BeforeMul first) (fresh p) D) by auto. rewrite !map_map.
        apply map_ext_Forall, Forall_In. intros v Hv. destruct (D v) as [x|] eqn:Ev; cbn; [|easy].
        replace (existsb (fun x => 0 <? x) (cts (map D (outs p)))) with false; [f_equal; lia|].
        symmetry. apply not_true_is_false. rewrite existsb_exists. intros (y & Hy & Ly). apply Nat.ltb_lt in Ly.
        apply K0 in Hy. lia.
      * assert (Ex : exists y, In y (cts (map D (outs p))) /\ 0 < y).
        { destruct (cmax (cts (map D (outs p)))) as [c|] eqn:Ec.
          - apply cmax_spec in Ec as (E1 & E2). exists c. split; [easy|].
            destruct c; [|lia]. destruct Nd. apply Kd. split; [easy|]. intros x Hx. apply E2 in Hx. lia.
          - apply cmax_none in Ec. destruct Nd. apply Kd. split; [easy|]. rewrite Ec. easy. }
        edestruct (reduce_all_operands (secret p)) with (e := R) (L := L) (5 := Em) as (e2 & R2 & Ag2 & B2 & M2).
        { intros v Hv. apply Bo in Hv. lia. }
        { intros v Hv. rewrite Pg, is_some_map by auto. auto. }
        { intros v x Hv Hx. rewrite Pg in Hx by auto. destruct (D v) as [z|] eqn:Ev; [|discriminate].
          injection Hx as <-. destruct Ex as (y & Hy & Ly).
          rewrite cts_In, in_map_iff in Hy. destruct Hy as (u & Eu & _).
          pose proof (HL _ _ Ev) as H1. pose proof (HL _ _ Eu) as H2. unfold needed, phi in *.
          destruct first; [destruct z, y; lia|]. destruct z; cbn [Nat.pred]; lia. }
        { exact Be. }
        exists e2. rewrite run_app, RR. split; [exact R2|]. split.
        { intros x Hx. rewrite Ag2 by lia. auto. }
        split; [exact B2|].
        rewrite M2, (pagree_map (BeforeMul first) (fresh p) D) by auto. rewrite !map_map.
        apply map_ext_Forall, Forall_In. intros v Hv. destruct (D v) as [x|] eqn:Ev; cbn; [|easy].
        replace (existsb (fun x => 0 <? x) (cts (map D (outs p)))) with true; [easy|].
        symmetry. apply existsb_exists. destruct Ex as (y & Hy & Ly). exists y. split; [easy|now apply Nat.ltb_lt].
Qed.
