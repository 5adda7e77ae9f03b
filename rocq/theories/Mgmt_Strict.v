From Coq Require Import List Bool Arith Lia.
From Verif Require Import Mgmt_Model Mgmt_Spec Mgmt_Proofs Mgmt_Passes Mgmt_Sim Mgmt_Sim2 Mgmt_Levels Mgmt_Pipeline.
Import ListNotations.
Local Arguments Nat.ltb : simpl never.
Local Arguments Nat.leb : simpl never.

Lemma inputs_lexact p v :
  (forall v, In v (sargs p) -> ~ In v (pargs p)) ->
  lexact (inputs p 0 v) (if mem v (sargs p) || mem v (pargs p) then LInt 0 else LUninit).
Proof.
  intros _. unfold inputs. destruct (mem v (sargs p)), (mem v (pargs p)); cbn; auto.
Qed.
Lemma inputs_lrel p v b : lrel b (inputs p 0 v) (if mem v (sargs p) || mem v (pargs p) then LInt 0 else LUninit).
Proof.
  unfold inputs. destruct (mem v (sargs p)), (mem v (pargs p)); cbn; auto; left; split; auto; lia.
Qed.
Lemma levels_exact p R b :
  wf p -> run rl_g (inputs p 0) (body p) = Some R -> bounded b R -> forall v, lexact (R v) (levels b p v).
Proof.
  intros (Sp & _ & Di) RR Bd. unfold levels.
  apply (flow_exact (secret p) b (sargs p ++ pargs p) (body p) (inputs p 0)); auto.
  - exact (run_unary _ _ _ RR).
  - eapply run_impl; [|exact RR]. apply rl_rx.
  - intros v. now apply inputs_lexact.
  - intros v _. now apply (secret_run rl_g p 0 R rl_optg RR).
  - intros v a _ H. eapply Bd; eauto.
  - intros v a. unfold inputs. destruct (mem v (sargs p)); [|discriminate]. intros [= <-]. lia.
Qed.

(** * Matching the levels *)
Lemma rl_lev L k l a :
  rl_g k l = Some a -> matched k = false -> (forall x, a = Some x -> x <= L) -> lev_g L k l = Some a.
Proof.
  intros G M B. destruct k; try discriminate M; cbn [rl_g lev_g matched orb] in *;
    try (destruct (all_equal (cts l)) eqn:E; [|discriminate]; rewrite hd_cmax by exact E; exact G).
  - destruct l as [|y [|]]; try discriminate. injection G as <-. now destruct y.
  - destruct l as [|[y|] [|]]; try discriminate. injection G as <-.
    rewrite (proj2 (Nat.leb_le _ _) (B _ eq_refl)). easy.
  - destruct l as [|[y|] [|]]; try discriminate. injection G as <-.
    rewrite (proj2 (Nat.leb_le _ _) (B _ eq_refl)). easy.
  - discriminate.
Qed.
Lemma lev_matched L k l b :
  matched k = true -> (forall x, In (Some x) l -> x = b) -> In (Some b) l -> lev_g L k l = Some (Some b).
Proof.
  intros M H I.
  assert (E : all_equal (cts l) = true).
  { apply all_equal_iff. intros x y Hx Hy. apply cts_In in Hx, Hy. rewrite (H x), (H y); auto. }
  assert (C : cmax (cts l) = Some b).
  { apply cmax_spec. rewrite cts_In. split; [easy|]. intros x Hx. apply cts_In in Hx. rewrite (H x); auto. }
  destruct k; try discriminate M; cbn [lev_g]; rewrite E, hd_cmax, C by exact E; easy.
Qed.
Lemma lev_matched_none L k l : matched k = true -> cts l = [] -> lev_g L k l = Some None.
Proof. intros M H. destruct k; try discriminate M; cbn [lev_g]; now rewrite H. Qed.

Lemma match_operands_some ckks lev r vs n id l :
  (forall v, In v vs -> lev v <> LUninit) -> exists x, match_operands ckks lev r vs n id l = Some x.
Proof.
  revert n id l. induction vs as [|v vs IH]; intros n id l H; cbn; [eauto|].
  assert (H' : forall v, In v vs -> lev v <> LUninit) by (intros; apply H; now right).
  pose proof (H v (or_introl eq_refl)) as Hv.
  destruct (lev v) as [|a| |]; [congruence| | |]; destruct r as [|b| |]; auto.
  - destruct (a <? b); [|auto]. destruct (bridge ckks n id v a b) as [[[q1 v1] n1] id1].
    destruct (IH n1 id1 (replace v v1 l) H') as ([[[q2 l2] n2] id2] & ->). cbn. eauto.
  - destruct (IH (S n) id (replace v n l) H') as ([[[q2 l2] n2] id2] & ->). cbn. eauto.
Qed.
Lemma match_operands_noop ckks lev r vs n id l q l' n' id' :
  match_operands ckks lev r vs n id l = Some (q, l', n', id') -> n' <= n -> forall v, In v vs -> needs lev r v = false.
Proof.
  intros E Le. revert n id l q l' n' id' E Le.
  induction vs as [|v vs IH]; intros n id l q l' n' id' E Le u Hu; cbn in *; [easy|].
  assert (Skip : needs lev r v = false -> match_operands ckks lev r vs n id l = Some (q, l', n', id') -> needs lev r u = false).
  { intros Nv E1. destruct Hu as [<-|Hu]; [exact Nv|]. eapply IH; eauto. }
  destruct (lev v) as [|a| |] eqn:La; [discriminate| | |];
    destruct r as [|b| |]; try (apply Skip; [unfold needs; rewrite La; easy|exact E]).
  - destruct (a <? b) eqn:Lt.
    + destruct (bridge ckks n id v a b) as [[[q1 v1] n1] id1] eqn:Eb.
      destruct (match_operands _ _ _ vs _ _ _) as [[[[q2 l2] n2] id2]|] eqn:E2; [|discriminate].
      injection E as <- <- <- <-.
      destruct (bridge_chain _ _ _ _ _ _ _ _ _ _ [v] Eb (or_introl eq_refl)) as (_ & B1 & _).
      destruct (match_operands_chain _ _ _ _ _ _ _ _ _ _ _ vs E2 (incl_refl _)) as (C & _).
      apply chain_le in C. lia.
    + apply Skip; [unfold needs; now rewrite La|exact E].
  - destruct (match_operands _ _ _ vs _ _ _) as [[[[q2 l2] n2] id2]|] eqn:E2; [|discriminate].
    injection E as <- <- <- <-.
    destruct (match_operands_chain _ _ _ _ _ _ _ _ _ _ _ vs E2 (incl_refl _)) as (C & _).
    apply chain_le in C. lia.
Qed.

Lemma bridge_lev L ckks n id v a b q v' n' id' e :
  bridge ckks n id v a b = (q, v', n', id') -> v < n -> e v = Some a -> a < b -> b <= L ->
  exists e2, run (lev_g L) e q = Some e2 /\ e2 v' = Some b.
Proof.
  intros E Bv Ev Lt Le. unfold bridge in E.
  destruct (1 <? b - a) eqn:Lr; [apply Nat.ltb_lt in Lr|apply Nat.ltb_ge in Lr];
    destruct ckks; injection E as <- <- <- <-; cbn;
    repeat (first [rewrite upd_same | rewrite Ev
      | match goal with |- context [?x <=? L] => rewrite (proj2 (Nat.leb_le x L)) by lia end | progress cbn]);
    eexists; (split; [reflexivity|]); rewrite upd_same; f_equal; lia.
Qed.

Lemma derive_join_bound k ls b :
  matched k = true -> (forall l, In l ls -> l = LUninit \/ exists a, l = LInt a /\ a <= b) -> In (LInt b) ls ->
  derive_level k ls = LInt b.
Proof.
  intros M H I. replace (derive_level k ls) with (fold_left ljoin ls LUninit) by now destruct k.
  rewrite fold_ljoin_ints.
  - cbn [lval cts].
    assert (E : cmax (cts (map lval ls)) = Some b).
    { apply cmax_spec. rewrite cts_In, in_map_iff. split; [exists (LInt b); auto|].
      intros x Hx. apply cts_In, in_map_iff in Hx as (l & El & Hl). apply H in Hl as [->|(a & -> & La)]; [discriminate|].
      injection El as <-. exact La. }
    now rewrite E.
  - intros l Hl. apply H in Hl as [->|(a & -> & _)]; eauto.
  - auto.
Qed.

Lemma cross_level_strict ckks b L p R :
  wf p -> run rl_g (inputs p 0) (body p) = Some R -> bounded L R -> L <= b ->
  exists F, run (lev_g L) (inputs p 0) (body (fst (handle_cross_level ckks b p))) = Some F /\ agree (fresh p) R F.
Proof.
  intros W RR Bd Lb.
  pose proof (levels_exact p R b W RR (fun v l H => Nat.le_trans _ _ _ (Bd v l H) Lb)) as Ex.
  pose proof (secret_run rl_g p 0 R rl_optg RR) as Hs.
  destruct W as (Sp & _). unfold handle_cross_level.
  destruct (walk_run (cross_level ckks (secret p)) rl_g (lev_g L)
              (fun s e e' => fresh p <= cl_next s /\ agree (fresh p) e e' /\
                             forall x, x < fresh p -> cl_lev s x = levels b p x)
              (sargs p ++ pargs p) (body p) (inputs p 0) R (Cl (fresh p) 0 (levels b p)) (inputs p 0))
    as (F & RF & _ & Ag & _); auto.
  - intros s e e' i a Hi (Le & Ag & Hl) HF G Ha.
    destruct (below_fresh p i Hi) as (Br & Ba).
    assert (Ma : map e' (args i) = map e (args i)) by now apply (agree_map (fresh p)).
    destruct (matched (op i)) eqn:Mt.
    2:{ replace (cross_level ckks (secret p) s i) with ([i], s) by (unfold cross_level; now rewrite Mt).
        cbn [fst snd run]. rewrite Ma, (rl_lev L _ _ _ G Mt).
        - eexists. split; [reflexivity|]. split; [exact Le|]. split; [now apply agree_upd|exact Hl].
        - intros x ->. eapply Bd; eauto. }
    assert (Ga : a = cmax (cts (map e (args i)))).
    { destruct (op i); try discriminate Mt; cbn in G; congruence. }
    destruct a as [c|].
    2:{ replace (cross_level ckks (secret p) s i) with ([i], s).
        2:{ unfold cross_level. rewrite Mt, Hs, Ha. easy. }
        cbn [fst snd run]. rewrite Ma, lev_matched_none; auto.
        - eexists. split; [reflexivity|]. split; [exact Le|]. split; [now apply agree_upd|exact Hl].
        - now apply cmax_none. }
    symmetry in Ga. apply cmax_spec in Ga as (Gi & Gm). apply cts_In in Gi.
    assert (Sr : secret p (res i) = true) by (rewrite Hs, Ha; easy).
    assert (Lr : cl_lev s (res i) = LInt c).
    { rewrite Hl by auto. specialize (Ex (res i)). now rewrite Ha in Ex. }
    assert (Lv : forall v x, In v (args i) -> e v = Some x -> cl_lev s v = LInt x /\ x <= c).
    { intros v x Hv Hx. split.
      - rewrite Hl by auto. specialize (Ex v). rewrite <- HF, Hx in Ex by auto. exact Ex.
      - apply Gm. rewrite cts_In, in_map_iff. eauto. }
    assert (Lp : forall v, In v (args i) -> e v = None -> cl_lev s v = LUninit \/ cl_lev s v = LInt 0).
    { intros v Hv Hx. rewrite Hl by auto. specialize (Ex v). rewrite <- HF, Hx in Ex by auto. exact Ex. }
    assert (Sv : forall v, In v (args i) -> secret p v = is_some (e v)) by (intros v Hv; rewrite HF by auto; apply Hs).
    assert (Mem : forall v, In v (args i) -> mem v (filter (secret p) (args i)) = is_some (e v)).
    { intros v Hv. destruct (e v) eqn:Ev; cbn.
      - apply mem_iff, filter_In. split; [easy|]. now rewrite Sv, Ev.
      - apply mem_false. rewrite filter_In, Sv, Ev by auto. now intros []. }
    assert (Nd : forall v x, In v (args i) -> e v = Some x -> needs (cl_lev s) (LInt c) v = (x <? c)).
    { intros v x Hv Hx. unfold needs. now rewrite (proj1 (Lv v x Hv Hx)). }
    destruct (cross_level_cases ckks (secret p) s i) as [(E & K)|(q & l & n & id & _ & _ & Lt & E & ->)].
    + rewrite E. cbn [fst snd run].
      specialize (K Mt Sr). rewrite Lr in K. specialize (K ltac:(discriminate)).
      destruct (match_operands_some ckks (cl_lev s) (LInt c) (filter (secret p) (args i)) (cl_next s) (cl_id s) (args i))
        as ([[[q l] n] id] & Em).
      { intros v Hv. apply filter_In in Hv as (Hv & Sv'). rewrite Sv in Sv' by auto.
        destruct (e v) as [x|] eqn:Ev; [|discriminate]. rewrite (proj1 (Lv v x Hv Ev)). discriminate. }
      rewrite Em in K. pose proof (match_operands_noop _ _ _ _ _ _ _ _ _ _ _ Em K) as No.
      rewrite Ma, (lev_matched L _ _ c Mt); auto.
      * eexists. split; [reflexivity|]. split; [exact Le|]. split; [now apply agree_upd|exact Hl].
      * intros x Hx. apply in_map_iff in Hx as (v & Ev & Hv).
        assert (Nv : needs (cl_lev s) (LInt c) v = false).
        { apply No, filter_In. split; [easy|]. now rewrite Sv, Ev. }
        rewrite (Nd v x) in Nv by auto. apply Nat.ltb_ge in Nv. destruct (Lv v x Hv Ev). lia.
    + cbn [fst snd]. rewrite Lr in E.
      edestruct (match_operands_run (lev_g L) (fun v y => y = Some c)) with (e := e') (4 := E) as (e1 & R1 & Ag1 & F2).
      { intros v Hv. apply filter_incl, Ba in Hv. lia. }
      { intros v Hv. apply Ba in Hv. lia. }
      { intros v Hv n1 id1 e1 L1 L2 Ev. apply filter_In in Hv as (Hv & Sv'). rewrite Sv in Sv' by auto.
        destruct (e v) as [x|] eqn:Ex'; [|discriminate].
        destruct (Lv v x Hv Ex') as (-> & Lx). intros Lt' q' v' n2 id2 Eb.
        eapply bridge_lev; [exact Eb|exact L1| |exact Lt'|eapply Bd; eauto].
        rewrite Ev, Ag by auto. exact Ex'. }
      assert (Vals : Forall2 (fun x x' => (e x = None /\ x' = x /\ e1 x' = None) \/
                                          (e x <> None /\ e1 x' = Some c /\
                                           ((e x = Some c /\ x' = x) \/ cl_next s <= x'))) (args i) l).
      { eapply Forall2_impl; [|exact F2]. intros x x' Hx _ K. cbn beta in K. rewrite Mem in K by auto.
        destruct (e x) as [y|] eqn:Ey; cbn [is_some andb] in K.
        - right. split; [discriminate|]. rewrite (Nd x y) in K by auto.
          destruct (y <? c) eqn:Ly.
          + destruct K as (K1 & K2). auto.
          + destruct K as (-> & K2). apply Nat.ltb_ge in Ly. destruct (Lv x y Hx Ey).
            assert (y = c) by lia. subst y. rewrite K2, Ag by auto. auto.
        - left. destruct K as (-> & ->). rewrite Ag by auto. auto. }
      assert (V1 : forall y, In (Some y) (map e1 l) -> y = c).
      { intros y Hy. apply in_map_iff in Hy as (x' & Ey & Hx'). clear - Vals Ey Hx'.
        induction Vals as [|x x1 a b H V IH]; [easy|]. destruct Hx' as [->|Hx']; [|auto].
        destruct H as [(_ & _ & H)|(_ & H & _)]; congruence. }
      assert (V2 : In (Some c) (map e1 l)).
      { apply in_map_iff in Gi as (v & Ev & Hv). apply in_map_iff. clear - Vals Ev Hv.
        induction Vals as [|x x1 a b H V IH]; [easy|]. destruct Hv as [->|Hv].
        - exists x1. split; [|now left]. destruct H as [(H & _)|(_ & H & _)]; congruence.
        - destruct IH as (y & ? & ?); auto. exists y. split; [easy|now right]. }
      eexists. split; [eapply run_snoc; [exact R1|]; eapply lev_matched; eauto|].
      split; [cbn; lia|]. split.
      * apply agree_upd. intros x Hx. rewrite Ag1 by lia. auto.
      * cbn [cl_lev]. intros x Hx. unfold upd. destruct (Nat.eqb_spec x (res i)) as [->|]; [|auto].
        rewrite <- Hl by auto. rewrite Lr. apply derive_join_bound; auto.
        -- intros lv Hlv. apply in_map_iff in Hlv as (x' & <- & Hx'). 
           assert (K : x' < cl_next s -> In x' (args i)).
           { intros Hlt. clear - Vals Hx' Hlt. induction Vals as [|x x1 a b H V IH]; [easy|].
             destruct Hx' as [->|Hx']; [|right; auto]. left.
             destruct H as [(_ & H & _)|(_ & _ & [(_ & H)|H])]; [auto|auto|lia]. }
           destruct (x' <? cl_next s) eqn:Hlt; [|auto]. apply Nat.ltb_lt in Hlt.
           specialize (K Hlt). destruct (e x') as [y|] eqn:Ey.
           ++ right. exists y. apply Lv; auto.
           ++ destruct (Lp x' K Ey) as [->| ->]; [auto|]. right. exists 0. split; [easy|lia].
        -- (* some operand already has the largest level *)
           apply in_map_iff in Gi as (v & Ev & Hv). apply in_map_iff. exists v.
           assert (Bv : v < cl_next s) by (apply Ba in Hv; lia).
           rewrite (proj2 (Nat.ltb_lt _ _) Bv). split; [apply Lv; auto|].
           clear - F2 Ev Hv Nd Mem. 
           assert (N0 : needs (cl_lev s) (LInt c) v = false) by (rewrite (Nd v c Hv Ev); apply Nat.ltb_irrefl).
           assert (F3 : Forall2 (fun x x' => x = v -> x' = v) (args i) l).
           { eapply Forall2_impl; [|exact F2]. intros x x' _ _ H ->. cbn beta in H.
             rewrite N0, andb_false_r in H. tauto. }
           clear - F3 Hv. induction F3 as [|x x1 a b H V IH]; [easy|]. destruct Hv as [->|Hv]; [|right; auto].
           left. auto.
  - split; [cbn; lia|]. split; [now intros x _|]. auto.
  - destruct (walk (cross_level ckks (secret p)) _ _) as [bd s]. cbn. eauto.
Qed.
