From Coq Require Import List Bool Arith Lia.
From Verif Require Import Mgmt_Model Mgmt_Spec Mgmt_Proofs Mgmt_Passes Mgmt_Sim Mgmt_Sim2 Mgmt_Levels Mgmt_Pipeline Mgmt_Strict Mgmt_Clean.
Import ListNotations.
Local Arguments Nat.ltb : simpl never.
Local Arguments Nat.leb : simpl never.

(** * The level analysis when levels may exceed the budget *)
Definition lcap (b : nat) (o : option nat) (l : lvl) : Prop :=
  match o with
  | Some a => l = if a <=? b then LInt a else LInvalid
  | None => l = LUninit \/ l = LInt 0
  end.
Lemma lcap_lrel b o l : lcap b o l -> lrel b o l.
Proof.
  unfold lcap, lrel. destruct o as [a|]; [|easy]. intros ->. destruct (Nat.leb_spec a b); auto.
Qed.
Lemma rx_mono k l m x : rx_g k l = Some (Some m) -> unary_ok (Inst k (map (fun _ => 0) l) 0) -> In (Some x) l -> x <= m.
Proof.
  intros G U Hx.
  assert (D : Some m = cmax (cts l) -> x <= m).
  { intros E. symmetry in E. apply cmax_spec in E as (_ & E). apply E. now apply cts_In. }
  destruct k; cbn in G, U; try (apply D; congruence).
  - destruct l as [|y [|]]; try discriminate. destruct Hx as [->|[]]. injection G as <-. lia.
  - destruct l as [|y [|]]; try discriminate. destruct Hx as [->|[]]. injection G as <-. lia.
Qed.
Lemma level_tf_cap b (sec : nat -> bool) st e i a :
  unary_ok i -> ~ In (res i) (args i) -> (forall v, In v (args i) -> lcap b (e v) (st v)) -> rx_g (op i) (map e (args i)) = Some a ->
  sec (res i) = is_some a -> lcap b a (level_tf sec b st i).
Proof.
  intros U Nr H G S.
  assert (W : lrel b a (level_tf sec b st i)).
  { eapply level_tf_lrel; eauto. intros v Hv. now apply lcap_lrel, H. }
  destruct a as [m|]; [|exact W]. cbn in *.
  destruct (Nat.leb_spec m b) as [Le|Gt]; [|destruct W as [(_ & W)|W]; [lia|exact W]].
  set (e2 := fun v => if mem v (args i) then e v else None).
  set (st2 := fun v => if mem v (args i) then st v else LUninit).
  assert (M : forall v, In v (args i) -> mem v (args i) = true) by (intros v; apply mem_iff).
  assert (E2 : map e2 (args i) = map e (args i)).
  { apply map_ext_Forall, Forall_In. intros v Hv. unfold e2. now rewrite M. }
  assert (T2 : map st2 (args i) = map st (args i)).
  { apply map_ext_Forall, Forall_In. intros v Hv. unfold st2. now rewrite M. }
  assert (Mon : forall v x, In v (args i) -> e v = Some x -> x <= m).
  { intros v x Hv Ev. eapply rx_mono; [exact G| |apply in_map_iff; eauto].
    unfold unary_ok in *. cbn. rewrite !map_length. exact U. }
  pose proof (flow_exact sec b (args i) [i] e2 st2 (upd e2 (res i) (Some m))) as K.
  assert (K2 : lexact (upd e2 (res i) (Some m) (res i)) (flow (level_tf sec b) st2 [i] (res i))).
  { apply K.
    - cbn. split; [apply incl_refl|]. split; [exact Nr|easy].
    - repeat constructor. exact U.
    - cbn. now rewrite E2, G.
    - intros v. unfold e2, st2. destruct (mem v (args i)) eqn:Mv; [|cbn; auto].
      apply mem_iff in Mv. specialize (H v Mv). unfold lcap in H. unfold lexact. destruct (e v) as [x|] eqn:Ev; [|exact H].
      rewrite (proj2 (Nat.leb_le x b)) in H by (specialize (Mon v x Mv Ev); lia). exact H.
    - intros v [<-|[]]. now rewrite upd_same.
    - intros v x [<-|[]]. rewrite upd_same. intros [= <-]. exact Le.
    - intros v x. unfold e2. destruct (mem v (args i)) eqn:Mv; [|discriminate]. apply mem_iff in Mv.
      intros Ev. specialize (Mon v x Mv Ev). lia. }
  rewrite upd_same in K2. cbn in K2. rewrite upd_same in K2.
  unfold level_tf in *. now rewrite T2 in K2.
Qed.
Lemma flow_cap sec b d p e st F :
  ssa d p -> Forall unary_ok p -> run rx_g e p = Some F ->
  (forall v, lcap b (e v) (st v)) -> (forall v, In v (map res p) -> sec v = is_some (F v)) ->
  forall v, lcap b (F v) (flow (level_tf sec b) st p v).
Proof.
  revert d e st. induction p as [|i p IH]; intros d e st Sd U R H Hs v; cbn in R, Sd |- *.
  - injection R as <-. auto.
  - destruct Sd as (Ia & Nd & Sd). inversion U as [|? ? U1 U2]; subst.
    destruct (rx_g _ _) as [a|] eqn:G; [|easy].
    eapply IH; [exact Sd|exact U2|exact R| |].
    + intros u. unfold upd. destruct (u =? res i); [|auto].
      eapply level_tf_cap; eauto. rewrite Hs by (cbn; auto).
      now rewrite (run_final _ _ _ _ _ (res i) Sd R), upd_same by (cbn; auto).
    + intros u Hu. apply Hs. cbn; auto.
Qed.
Lemma levels_cap p R b :
  wf p -> run rl_g (inputs p 0) (body p) = Some R -> forall v, lcap b (R v) (levels b p v).
Proof.
  intros (Sp & _ & Di) RR. unfold levels.
  apply (flow_cap (secret p) b (sargs p ++ pargs p) (body p) (inputs p 0)); auto.
  - exact (run_unary _ _ _ RR).
  - eapply run_impl; [|exact RR]. apply rl_rx.
  - intros v. unfold inputs. destruct (mem v (sargs p)), (mem v (pargs p)); cbn; auto.
  - intros v _. now apply (secret_run rl_g p 0 R rl_optg RR).
Qed.

(** * The machine that is strict as long as the levels stay in the budget *)
Definition over (b : nat) (l : list nat) : bool := match cmax l with Some c => b <? c | None => false end.
Definition ps_g (b : nat) (k : opk) (l : list (option nat)) : option (option nat) :=
  if matched k && negb (all_equal (cts l)) && negb (over b (cts l)) then None else rl_g k l.
Lemma ps_rl b k l a : ps_g b k l = Some a -> rl_g k l = Some a.
Proof. unfold ps_g. destruct (_ && _); easy. Qed.
Lemma ps_unmatched b k l : matched k = false -> ps_g b k l = rl_g k l.
Proof. unfold ps_g. now intros ->. Qed.
Lemma ps_matched b k l c :
  matched k = true -> (forall x, In (Some x) l -> x = c) -> In (Some c) l -> ps_g b k l = Some (Some c).
Proof.
  intros M H I. unfold ps_g.
  assert (E : all_equal (cts l) = true).
  { apply all_equal_iff. intros x y Hx Hy. apply cts_In in Hx, Hy. rewrite (H x), (H y); auto. }
  rewrite E, andb_false_r. cbn.
  assert (C : cmax (cts l) = Some c).
  { apply cmax_spec. rewrite cts_In. split; [easy|]. intros x Hx. apply cts_In in Hx. rewrite (H x); auto. }
  destruct k; try discriminate M; cbn; rewrite C; easy.
Qed.
Lemma ps_matched_none b k l : matched k = true -> cts l = [] -> ps_g b k l = Some None.
Proof. intros M H. unfold ps_g. rewrite H. cbn. rewrite andb_false_r. cbn. destruct k; try discriminate M; cbn; now rewrite H. Qed.
Lemma ps_over b k l c : matched k = true -> cmax (cts l) = Some c -> b < c -> ps_g b k l = Some (Some c).
Proof.
  intros M H Lt. unfold ps_g, over. rewrite H, (proj2 (Nat.ltb_lt b c) Lt). cbn. rewrite andb_false_r.
  destruct k; try discriminate M; cbn; now rewrite H.
Qed.
Lemma bridge_ps b0 ckks n id v a b q v' n' id' e :
  bridge ckks n id v a b = (q, v', n', id') -> v < n -> e v = Some a -> a < b ->
  exists e2, run (ps_g b0) e q = Some e2 /\ e2 v' = Some b.
Proof.
  intros E Bv Ev Lt. unfold bridge in E.
  destruct (1 <? b - a) eqn:Lr; [apply Nat.ltb_lt in Lr|apply Nat.ltb_ge in Lr];
    destruct ckks; injection E as <- <- <- <-; cbn;
    repeat (first [rewrite upd_same | rewrite Ev | progress cbn]);
    eexists; (split; [reflexivity|]); rewrite upd_same; f_equal; lia.
Qed.
Lemma match_operands_invalid ckks lev vs n id l x :
  match_operands ckks lev LInvalid vs n id l = Some x -> snd (fst x) = n.
Proof.
  revert n id l. induction vs as [|v vs IH]; intros n id l E; cbn in *; [now injection E as <-|].
  destruct (lev v); [discriminate|eauto..].
Qed.

Lemma cross_level_ps ckks b p R :
  wf p -> run rl_g (inputs p 0) (body p) = Some R ->
  exists F, run (ps_g b) (inputs p 0) (body (fst (handle_cross_level ckks b p))) = Some F /\ agree (fresh p) R F.
Proof.
  intros W RR.
  pose proof (levels_cap p R b W RR) as Ex.
  pose proof (secret_run rl_g p 0 R rl_optg RR) as Hs.
  destruct W as (Sp & _). unfold handle_cross_level.
  destruct (walk_run (cross_level ckks (secret p)) rl_g (ps_g b)
              (fun s e e' => fresh p <= cl_next s /\ agree (fresh p) e e' /\
                             forall x, x < fresh p -> cl_lev s x = levels b p x)
              (sargs p ++ pargs p) (body p) (inputs p 0) R (Cl (fresh p) 0 (levels b p)) (inputs p 0))
    as (F & RF & _ & Ag & _); auto.
  - intros s e e' i a Hi (Le & Ag & Hl) HF G Ha.
    destruct (below_fresh p i Hi) as (Br & Ba).
    assert (Ma : map e' (args i) = map e (args i)) by now apply (agree_map (fresh p)).
    destruct (matched (op i)) eqn:Mt.
    2:{ replace (cross_level ckks (secret p) s i) with ([i], s) by (unfold cross_level; now rewrite Mt).
        cbn [fst snd run]. rewrite Ma, (ps_unmatched b _ _ Mt), G.
        eexists. split; [reflexivity|]. split; [exact Le|]. split; [now apply agree_upd|exact Hl]. }
    assert (Ga : a = cmax (cts (map e (args i)))).
    { destruct (op i); try discriminate Mt; cbn in G; congruence. }
    destruct a as [c|].
    2:{ replace (cross_level ckks (secret p) s i) with ([i], s).
        2:{ unfold cross_level. rewrite Mt, Hs, Ha. easy. }
        cbn [fst snd run]. rewrite Ma, ps_matched_none; auto.
        - eexists. split; [reflexivity|]. split; [exact Le|]. split; [now apply agree_upd|exact Hl].
        - now apply cmax_none. }
    destruct (Nat.leb_spec c b) as [Lc|Lc].
    2:{ replace (cross_level ckks (secret p) s i) with ([i], s).
        2:{ unfold cross_level. rewrite Mt, Hs, Ha. cbn [andb is_some].
            replace (cl_lev s (res i)) with LInvalid.
            2:{ rewrite Hl by auto. specialize (Ex (res i)). rewrite Ha in Ex. cbn in Ex.
                rewrite (proj2 (Nat.leb_gt _ _) Lc) in Ex. auto. }
            destruct (match_operands _ _ _ _ _ _ _) as [[[[q l] n] id]|] eqn:Em; [|easy].
            apply match_operands_invalid in Em. cbn in Em. subst n. now rewrite Nat.ltb_irrefl. }
        cbn [fst snd run]. rewrite Ma, (ps_over b _ _ c Mt (eq_sym Ga) Lc).
        eexists. split; [reflexivity|]. split; [exact Le|]. split; [now apply agree_upd|exact Hl]. }
    symmetry in Ga. apply cmax_spec in Ga as (Gi & Gm). apply cts_In in Gi.
    assert (Sr : secret p (res i) = true) by (rewrite Hs, Ha; easy).
    assert (Lr : cl_lev s (res i) = LInt c).
    { rewrite Hl by auto. specialize (Ex (res i)). rewrite Ha in Ex. cbn in Ex. now rewrite (proj2 (Nat.leb_le _ _) Lc) in Ex. }
    assert (Lv : forall v x, In v (args i) -> e v = Some x -> cl_lev s v = LInt x /\ x <= c).
    { intros v x Hv Hx.
      assert (Xc : x <= c) by (apply Gm; rewrite cts_In, in_map_iff; eauto). split; [|exact Xc].
      rewrite Hl by auto. specialize (Ex v). rewrite <- HF, Hx in Ex by auto. cbn in Ex.
      now rewrite (proj2 (Nat.leb_le x b)) in Ex by lia. }
    assert (Lp : forall v, In v (args i) -> e v = None -> cl_lev s v = LUninit \/ cl_lev s v = LInt 0).
    { intros v Hv Hx. rewrite Hl by auto. specialize (Ex v). rewrite <- HF, Hx in Ex by auto. exact Ex. }
    assert (Sv : forall v, In v (args i) -> secret p v = is_some (e v)) by (intros v Hv; rewrite HF by auto; apply Hs).
    assert (Mem : forall v, In v (args i) -> mem v (filter (secret p) (args i)) = is_some (e v)).
    { intros v Hv. destruct (e v) eqn:Ev; cbn.
      - apply mem_iff, filter_In. split; [easy|]. now rewrite Sv, Ev.
      - apply mem_false. rewrite filter_In, Sv, Ev by auto. now intros []. }
    assert (Nd : forall v x, In v (args i) -> e v = Some x -> needs (cl_lev s) (LInt c) v = (x <? c)).
    { intros v x Hv Hx. unfold needs. now rewrite (proj1 (Lv v x Hv Hx)). }
    destruct (cross_level_cases ckks (secret p) s i) as [(E & K)|(q & l & n & id & _ & _ & Lt & E & ->)].
    + rewrite E. cbn [fst snd run].
      specialize (K Mt Sr). rewrite Lr in K. specialize (K ltac:(discriminate)).
      destruct (match_operands_some ckks (cl_lev s) (LInt c) (filter (secret p) (args i)) (cl_next s) (cl_id s) (args i))
        as ([[[q l] n] id] & Em).
      { intros v Hv. apply filter_In in Hv as (Hv & Sv'). rewrite Sv in Sv' by auto.
        destruct (e v) as [x|] eqn:Ev; [|discriminate]. rewrite (proj1 (Lv v x Hv Ev)). discriminate. }
      rewrite Em in K. pose proof (match_operands_noop _ _ _ _ _ _ _ _ _ _ _ Em K) as No.
      rewrite Ma, (ps_matched b _ _ c Mt); auto.
      * eexists. split; [reflexivity|]. split; [exact Le|]. split; [now apply agree_upd|exact Hl].
      * intros x Hx. apply in_map_iff in Hx as (v & Ev & Hv).
        assert (Nv : needs (cl_lev s) (LInt c) v = false).
        { apply No, filter_In. split; [easy|]. now rewrite Sv, Ev. }
        rewrite (Nd v x) in Nv by auto. apply Nat.ltb_ge in Nv. destruct (Lv v x Hv Ev). lia.
    + cbn [fst snd]. rewrite Lr in E.
      edestruct (match_operands_run (ps_g b) (fun v y => y = Some c)) with (e := e') (4 := E) as (e1 & R1 & Ag1 & F2).
      { intros v Hv. apply filter_incl, Ba in Hv. lia. }
      { intros v Hv. apply Ba in Hv. lia. }
      { intros v Hv n1 id1 e1 L1 L2 Ev. apply filter_In in Hv as (Hv & Sv'). rewrite Sv in Sv' by auto.
        destruct (e v) as [x|] eqn:Ex'; [|discriminate].
        destruct (Lv v x Hv Ex') as (-> & Lx). intros Lt' q' v' n2 id2 Eb.
        eapply bridge_ps; [exact Eb|exact L1| |exact Lt'].
        rewrite Ev, Ag by auto. exact Ex'. }
      assert (Vals : Forall2 (fun x x' => (e x = None /\ x' = x /\ e1 x' = None) \/
                                          (e x <> None /\ e1 x' = Some c /\
                                           ((e x = Some c /\ x' = x) \/ cl_next s <= x'))) (args i) l).
      { eapply Forall2_impl; [|exact F2]. intros x x' Hx _ K. cbn beta in K. rewrite Mem in K by auto.
        destruct (e x) as [y|] eqn:Ey; cbn [is_some andb] in K.
        - right. split; [discriminate|]. rewrite (Nd x y) in K by auto.
          destruct (y <? c) eqn:Ly.
          + destruct K as (K1 & K2). auto.
          + destruct K as (-> & K2). apply Nat.ltb_ge in Ly. destruct (Lv x y Hx Ey).
            assert (y = c) by lia. subst y. rewrite K2, Ag by auto. auto.
        - left. destruct K as (-> & ->). rewrite Ag by auto. auto. }
      assert (V1 : forall y, In (Some y) (map e1 l) -> y = c).
      { intros y Hy. apply in_map_iff in Hy as (x' & Ey & Hx'). clear - Vals Ey Hx'.
        induction Vals as [|x x1 a b H V IH]; [easy|]. destruct Hx' as [->|Hx']; [|auto].
        destruct H as [(_ & _ & H)|(_ & H & _)]; congruence. }
      assert (V2 : In (Some c) (map e1 l)).
      { apply in_map_iff in Gi as (v & Ev & Hv). apply in_map_iff. clear - Vals Ev Hv.
        induction Vals as [|x x1 a b H V IH]; [easy|]. destruct Hv as [->|Hv].
        - exists x1. split; [|now left]. destruct H as [(H & _)|(_ & H & _)]; congruence.
        - destruct IH as (y & ? & ?); auto. exists y. split; [easy|now right]. }
      eexists. split; [eapply run_snoc; [exact R1|]; eapply ps_matched; eauto|].
      split; [cbn; lia|]. split.
      * apply agree_upd. intros x Hx. rewrite Ag1 by lia. auto.
      * cbn [cl_lev]. intros x Hx. unfold upd. destruct (Nat.eqb_spec x (res i)) as [->|]; [|auto].
        rewrite <- Hl by auto. rewrite Lr. apply derive_join_bound; auto.
        -- intros lv Hlv. apply in_map_iff in Hlv as (x' & <- & Hx'). 
           assert (K : x' < cl_next s -> In x' (args i)).
           { intros Hlt. clear - Vals Hx' Hlt. induction Vals as [|x x1 a b H V IH]; [easy|].
             destruct Hx' as [->|Hx']; [|right; auto]. left.
             destruct H as [(_ & H & _)|(_ & _ & [(_ & H)|H])]; [auto|auto|lia]. }
           destruct (x' <? cl_next s) eqn:Hlt; [|auto]. apply Nat.ltb_lt in Hlt.
           specialize (K Hlt). destruct (e x') as [y|] eqn:Ey.
           ++ right. exists y. apply Lv; auto.
           ++ destruct (Lp x' K Ey) as [->| ->]; [auto|]. right. exists 0. split; [easy|lia].
        -- (* some operand already has the largest level *)
           apply in_map_iff in Gi as (v & Ev & Hv). apply in_map_iff. exists v.
           assert (Bv : v < cl_next s) by (apply Ba in Hv; lia).
           rewrite (proj2 (Nat.ltb_lt _ _) Bv). split; [apply Lv; auto|].
           clear - F2 Ev Hv Nd Mem. 
           assert (N0 : needs (cl_lev s) (LInt c) v = false) by (rewrite (Nd v c Hv Ev); apply Nat.ltb_irrefl).
           assert (F3 : Forall2 (fun x x' => x = v -> x' = v) (args i) l).
           { eapply Forall2_impl; [|exact F2]. intros x x' _ _ H ->. cbn beta in H.
             rewrite N0, andb_false_r in H. tauto. }
           clear - F3 Hv. induction F3 as [|x x1 a b H V IH]; [easy|]. destruct Hv as [->|Hv]; [|right; auto].
           left. auto.
  - split; [cbn; lia|]. split; [now intros x _|]. auto.
  - destruct (walk (cross_level ckks (secret p)) _ _) as [bd s]. cbn. eauto.
Qed.
