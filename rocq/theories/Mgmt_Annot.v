From Coq Require Import List Bool Arith Lia.
From Verif Require Import Mgmt_Model Mgmt_Spec Mgmt_Proofs Mgmt_Passes Mgmt_Sim Mgmt_Sim2 Mgmt_Levels Mgmt_Pipeline Mgmt_Strict Mgmt_Clean Mgmt_Ps Mgmt_Compose Mgmt_Dims.
Import ListNotations.
Local Arguments Nat.ltb : simpl never.
Local Arguments Nat.leb : simpl never.

(** * The levels after the backward analysis *)
Section Back.
  Variable sec : nat -> bool.
  Lemma fold_upd_other (l : lvl) vs st v : ~ In v vs -> fold_left (fun st u => upd st u (ljoin (st u) l)) vs st v = st v.
  Proof.
    revert st. induction vs as [|u vs IH]; intros st H; cbn in *; [easy|]. rewrite IH by tauto. apply upd_other. intros ->; tauto.
  Qed.
  Lemma fold_upd_in x vs st v :
    In v vs -> (st v = LUninit \/ exists y, y <= x /\ st v = LInt y) ->
    fold_left (fun st u => upd st u (ljoin (st u) (LInt x))) vs st v = LInt x.
  Proof.
    intros Hv Hs. 
    assert (Stay : forall vs st, st v = LInt x -> fold_left (fun st u => upd st u (ljoin (st u) (LInt x))) vs st v = LInt x).
    { clear. induction vs as [|u vs IH]; intros st E; cbn; [easy|]. apply IH. unfold upd. destruct (Nat.eqb_spec v u) as [<-|]; [|easy].
      rewrite E. cbn. f_equal. lia. }
    revert st Hs. induction vs as [|u vs IH]; intros st Hs; cbn in *; [easy|].
    destruct (Nat.eq_dec u v) as [->|N].
    - apply Stay. rewrite upd_same. destruct Hs as [->|(y & Ly & ->)]; cbn; [easy|]. f_equal. lia.
    - apply IH; [tauto|]. rewrite upd_other by auto. exact Hs.
  Qed.
  (** one step, with the result's level read before the operands are updated *)
  Lemma back_level_spec st i v x :
    st (res i) = LInt x -> sec (res i) = true -> matched (op i) = true ->
    back_level sec st i v =
      if mem v (filter (fun u => negb (sec u)) (firstn 2 (args i)))
      then fold_left (fun st u => upd st u (ljoin (st u) (LInt x))) (filter (fun u => negb (sec u)) (firstn 2 (args i))) st v
      else st v.
  Proof.
    intros E S M. unfold back_level. rewrite M, S, E. cbn [andb].
    set (vs := filter _ _).
    assert (Nr : ~ In (res i) vs).
    { unfold vs. rewrite filter_In, S. now intros []. }
    assert (Same : forall vs st0, st0 (res i) = LInt x -> ~ In (res i) vs ->
      forall u, fold_left (fun st v => upd st v (ljoin (st v) (st (res i)))) vs st0 u
              = fold_left (fun st v => upd st v (ljoin (st v) (LInt x))) vs st0 u).
    { clear. induction vs as [|w vs IH]; intros st0 E N u; cbn in *; [easy|]. rewrite E. apply IH; [|tauto].
      rewrite upd_other; [exact E|]. intros K. apply N. auto. }
    rewrite Same by auto. destruct (mem v vs) eqn:Mv; [easy|].
    apply fold_upd_other. apply mem_false. exact Mv.
  Qed.
  Lemma back_level_skip st i v : matched (op i) && sec (res i) = false -> back_level sec st i v = st v.
  Proof. unfold back_level. now intros ->. Qed.

  Definition uses_plain (p : list inst) (v : nat) (i : inst) : Prop :=
    In i p /\ handled (op i) = true /\ sec (res i) = true /\ In v (firstn 2 (args i)).
  Lemma handled_matched k : handled k = matched k.
  Proof. easy. Qed.

  Lemma back_all p st (F : nat -> option nat) :
    (forall v, sec v = is_some (F v)) -> (forall v x, F v = Some x -> st v = LInt x) ->
    forall v,
      (sec v = true -> fold_left (back_level sec) p st v = st v) /\
      (sec v = false -> (forall i, ~ uses_plain p v i) -> fold_left (back_level sec) p st v = st v) /\
      (sec v = false -> forall x, (forall i, uses_plain p v i -> F (res i) = Some x) ->
         (st v = LUninit \/ exists y, y <= x /\ st v = LInt y) ->
         fold_left (back_level sec) p st v = st v \/ fold_left (back_level sec) p st v = LInt x) /\
      (sec v = false -> forall x, (forall i, uses_plain p v i -> F (res i) = Some x) -> (exists i, uses_plain p v i) ->
         (st v = LUninit \/ exists y, y <= x /\ st v = LInt y) ->
         fold_left (back_level sec) p st v = LInt x).
  Proof.
    intros Hs. revert st. induction p as [|i p IH]; intros st H v.
    - cbn. repeat split; auto. intros _ x _ (i & [] & _).
    - cbn [fold_left].
      assert (Up : forall j u, uses_plain p u j -> uses_plain (i :: p) u j).
      { intros j u (A & B). split; [now right|exact B]. }
      assert (H1 : forall u, sec u = true -> back_level sec st i u = st u).
      { intros u Su. destruct (matched (op i) && sec (res i)) eqn:M; [|now apply back_level_skip].
        apply andb_true_iff in M as (M & Sr). pose proof Sr as Sr'. rewrite Hs in Sr'.
        destruct (F (res i)) as [x|] eqn:Fx; [|discriminate].
        rewrite (back_level_spec st i u x (H _ _ Fx) Sr M).
        replace (mem u _) with false; [easy|]. symmetry. apply mem_false. rewrite filter_In, Su. now intros []. }
      assert (H2 : forall u x, F u = Some x -> back_level sec st i u = LInt x).
      { intros u x Fu. rewrite H1; [auto|]. now rewrite Hs, Fu. }
      destruct (IH _ H2 v) as (I1 & I2 & I3 & I4).
      split; [|split; [|split]].
      + intros Sv. rewrite I1, H1; auto.
      + intros Sv N. rewrite I2; auto.
        2:{ intros j Hj. apply (N j). auto. }
        destruct (matched (op i) && sec (res i)) eqn:M; [|now apply back_level_skip].
        apply andb_true_iff in M as (M & Sr). pose proof Sr as Sr'. rewrite Hs in Sr'.
        destruct (F (res i)) as [x|] eqn:Fx; [|discriminate].
        rewrite (back_level_spec st i v x (H _ _ Fx) Sr M).
        destruct (mem v _) eqn:Mv; [|easy]. apply mem_iff, filter_In in Mv as (Mv & _).
        exfalso. apply (N i). repeat split; auto; now left.
      + intros Sv x Hx Hst.
        assert (Step : back_level sec st i v = st v \/ back_level sec st i v = LInt x).
        { destruct (matched (op i) && sec (res i)) eqn:M; [|left; now apply back_level_skip].
          apply andb_true_iff in M as (M & Sr). pose proof Sr as Sr'. rewrite Hs in Sr'.
          destruct (F (res i)) as [y|] eqn:Fy; [|discriminate].
          rewrite (back_level_spec st i v y (H _ _ Fy) Sr M).
          destruct (mem v _) eqn:Mv; [|auto]. pose proof Mv as Mv'. apply mem_iff, filter_In in Mv as (Mv & _).
          assert (y = x) as ->.
          { assert (U : uses_plain (i :: p) v i) by (repeat split; auto; now left). apply Hx in U. congruence. }
          right. apply fold_upd_in; [now apply mem_iff|exact Hst]. }
        destruct (I3 Sv x) as [K|K]; auto.
        * destruct Step as [->| ->]; [exact Hst|]. right. exists x. auto.
        * destruct Step as [E|E]; rewrite E in K; auto.
      + intros Sv x Hx (j & Hj) Hst. 
        destruct Hj as ([<-|Hj] & Hj2).
        * destruct Hj2 as (M & Sr & Mv). pose proof Sr as Sr'. rewrite Hs in Sr'.
          assert (Fx : F (res i) = Some x) by (apply Hx; repeat split; auto; now left).
          assert (E : back_level sec st i v = LInt x).
          { rewrite (back_level_spec st i v x (H _ _ Fx) Sr M).
            assert (Iv : In v (filter (fun u => negb (sec u)) (firstn 2 (args i)))) by (apply filter_In; rewrite Sv; auto).
            rewrite (proj2 (mem_iff _ _) Iv). now apply fold_upd_in. }
          destruct (I3 Sv x) as [K|K]; auto; rewrite ?E in *; auto. right. exists x. auto.
        * assert (Step : back_level sec st i v = st v \/ back_level sec st i v = LInt x).
          { destruct (matched (op i) && sec (res i)) eqn:M; [|left; now apply back_level_skip].
            apply andb_true_iff in M as (M & Sr). pose proof Sr as Sr'. rewrite Hs in Sr'.
            destruct (F (res i)) as [y|] eqn:Fy; [|discriminate].
            rewrite (back_level_spec st i v y (H _ _ Fy) Sr M).
            destruct (mem v _) eqn:Mv; [|auto]. apply mem_iff in Mv. pose proof Mv as Mv'. apply filter_In in Mv' as (Mv' & _).
            assert (y = x) as ->.
            { assert (U : uses_plain (i :: p) v i) by (repeat split; auto; now left). apply Hx in U. congruence. }
            right. apply fold_upd_in; [exact Mv|exact Hst]. }
          apply (I4 Sv x); auto.
          -- exists j. split; [exact Hj|exact Hj2].
          -- destruct Step as [->| ->]; [exact Hst|]. right. exists x. auto.
  Qed.
End Back.

(** * The annotation *)
Lemma list_max_bound l m : (forall x, In x l -> x <= m) -> list_max l <= m.
Proof. unfold list_max. induction l as [|a l IH]; intros H; cbn; [lia|]. pose proof (H a (or_introl eq_refl)). specialize (IH (fun x Hx => H x (or_intror Hx))). lia. Qed.

Section Annot.
  Variables (q : prog) (b : nat) (F : nat -> option nat) (M : nat).
  Hypothesis Wq : wf q.
  Hypothesis RR : run rl_g (inputs q 0) (body q) = Some F.
  Hypothesis Bd : bounded b F.
  Hypothesis Un : uniform q F.
  Hypothesis HM : forall v l, In v (values q) -> F v = Some l -> l <= M.
  Hypothesis HA : M = 0 \/ exists v, In v (values q) /\ F v = Some M.

  Let Ex := levels_exact q F b Wq RR Bd.
  Let Hs := secret_run rl_g q 0 F rl_optg RR.

  Lemma all_secret v l : F v = Some l -> all_levels b q v = LInt l.
  Proof.
    intros Fv. unfold all_levels.
    destruct (back_all (secret q) (body q) (levels b q) F Hs) with (v := v) as (K & _).
    - intros u x Fu. specialize (Ex u). now rewrite Fu in Ex.
    - rewrite K by (rewrite Hs, Fv; easy). specialize (Ex v). now rewrite Fv in Ex.
  Qed.
  Lemma level_plain v : F v = None -> levels b q v = LUninit \/ levels b q v = LInt 0.
  Proof. intros Fv. specialize (Ex v). now rewrite Fv in Ex. Qed.
  Lemma all_plain v i l :
    F v = None -> In i (body q) -> handled (op i) = true -> In v (firstn 2 (args i)) -> F (res i) = Some l ->
    all_levels b q v = LInt l.
  Proof.
    intros Fv Hi Hh Hv Fi. unfold all_levels.
    destruct (back_all (secret q) (body q) (levels b q) F Hs) with (v := v) as (_ & _ & _ & K).
    - intros u x Fu. specialize (Ex u). now rewrite Fu in Ex.
    - apply K.
      + now rewrite Hs, Fv.
      + intros j (Hj & Hh' & Sj & Vj). rewrite <- Fi. apply (Un v j i); auto.
        * rewrite Hs in Sj. intros E. now rewrite E in Sj.
        * congruence.
      + exists i. repeat split; auto. rewrite Hs, Fi. easy.
      + destruct (level_plain v Fv) as [->| ->]; [auto|]. right. exists 0. split; [lia|easy].
  Qed.
  Lemma all_plain_cases v :
    F v = None -> lev_or 0 (all_levels b q v) <= M.
  Proof.
    intros Fv.
    destruct (back_all (secret q) (body q) (levels b q) F Hs) with (v := v) as (_ & K & _).
    { intros u x Fu. specialize (Ex u). now rewrite Fu in Ex. }
    destruct (existsb (fun i => handled (op i) && secret q (res i) && mem v (firstn 2 (args i))) (body q)) eqn:E.
    - apply existsb_exists in E as (i & Hi & E). apply andb_true_iff in E as (E & Mv). apply andb_true_iff in E as (Hh & Sr).
      rewrite Hs in Sr. destruct (F (res i)) as [l|] eqn:Fi; [|discriminate]. apply mem_iff in Mv.
      rewrite (all_plain v i l) by auto. cbn. apply (HM (res i)); [|exact Fi].
      unfold values. rewrite !in_app_iff. right. right. now apply in_map.
    - unfold all_levels. rewrite K.
      + destruct (level_plain v Fv) as [->| ->]; cbn; lia.
      + now rewrite Hs, Fv.
      + intros i (Hi & Hh & Sr & Hv). assert (existsb (fun i => handled (op i) && secret q (res i) && mem v (firstn 2 (args i))) (body q) = true); [|congruence].
        apply existsb_exists. exists i. split; [exact Hi|]. now rewrite Hh, Sr, (proj2 (mem_iff _ _) Hv).
  Qed.
  Lemma max_level_eq : max_level b q = M.
  Proof.
    apply Nat.le_antisymm.
    - unfold max_level. apply list_max_bound. intros x Hx. apply in_map_iff in Hx as (v & <- & Hv).
      destruct (managed q v); [|lia]. destruct (F v) as [l|] eqn:Fv.
      + rewrite (all_secret v l Fv). cbn. eauto.
      + now apply all_plain_cases.
    - destruct HA as [->|(v & Hv & Fv)]; [lia|]. unfold max_level. apply list_max_le. apply in_map_iff.
      exists v. split; [|exact Hv]. unfold managed. rewrite Hs, Fv. cbn. rewrite (all_secret v M Fv). easy.
  Qed.
  Lemma validate_bounded : validate b q = true.
  Proof.
    unfold validate. apply forallb_forall. intros v _. specialize (Ex v). destruct (F v) as [x|]; cbn in Ex.
    - rewrite Ex. cbn. now rewrite andb_false_r.
    - destruct Ex as [->| ->]; cbn; now rewrite andb_false_r.
  Qed.
  Lemma annotate_secret base v l : F v = Some l -> annotate_level base b q v = Some (M - l + base).
  Proof.
    intros Fv. unfold annotate_level. rewrite validate_bounded, max_level_eq. unfold managed. rewrite Hs, Fv. cbn.
    now rewrite (all_secret v l Fv).
  Qed.
  Lemma annotate_plain base v i l :
    F v = None -> inits q v = true -> In i (body q) -> handled (op i) = true -> In v (firstn 2 (args i)) -> F (res i) = Some l ->
    annotate_level base b q v = Some (M - l + base).
  Proof.
    intros Fv Iv Hi Hh Hv Fi. unfold annotate_level. rewrite validate_bounded, max_level_eq. unfold managed.
    rewrite Iv, orb_true_r. now rewrite (all_plain v i l).
  Qed.
End Annot.

(** * B/FV *)
Lemma zero_run p e F g :
  (forall k l, is_mgmt k = false -> (forall x, In (Some x) l -> x = 0) -> g k l = Some (if existsb is_some l then Some 0 else None)) ->
  plain_ops p -> (forall v x, e v = Some x -> x = 0) ->
  run (fun k l => Some (if existsb is_some l then Some 0 else None)) e p = Some F ->
  run g e p = Some F.
Proof.
  intros Hg. revert e. induction p as [|i p IH]; intros e P H R; cbn in *; [easy|].
  rewrite Hg.
  - apply IH; auto.
    + intros j Hj. apply P. now right.
    + intros v x. unfold upd. destruct (v =? res i); [|apply H]. destruct (existsb _ _); [|discriminate]. now intros [= <-].
  - apply (P i). now left.
  - intros x Hx. apply in_map_iff in Hx as (v & Ev & _). eauto.
Qed.
Lemma zero_total p e : exists F, run (fun (k : opk) (l : list (option nat)) => Some (if existsb is_some l then Some 0 else None)) e p = Some F.
Proof. revert e. induction p as [|i p IH]; intros e; cbn; eauto. Qed.
Lemma zeros_equal l : (forall x, In (Some x) l -> x = 0) -> all_equal (cts l) = true /\ cmax (cts l) = if existsb is_some l then Some 0 else None.
Proof.
  intros H. split.
  - apply all_equal_iff. intros x y Hx Hy. apply cts_In in Hx, Hy. now rewrite (H x), (H y).
  - destruct (existsb is_some l) eqn:E.
    + apply existsb_In_some in E as (x & Hx). apply cmax_spec. pose proof (H x Hx). subst x. split; [now apply cts_In|].
      intros y Hy. apply cts_In in Hy. rewrite (H y); auto.
    + apply cmax_none. now apply cts_nil.
Qed.
Lemma zero_lev k l : is_mgmt k = false -> (forall x, In (Some x) l -> x = 0) -> lev_g 0 k l = Some (if existsb is_some l then Some 0 else None).
Proof.
  intros M H. destruct (zeros_equal l H) as (E & C). rewrite <- C.
  destruct k; try discriminate M; cbn [lev_g]; now rewrite E, hd_cmax.
Qed.
Lemma zero_ps k l : is_mgmt k = false -> (forall x, In (Some x) l -> x = 0) -> ps_g 0 k l = Some (if existsb is_some l then Some 0 else None).
Proof.
  intros M H. destruct (zeros_equal l H) as (E & C). rewrite <- C. unfold ps_g. rewrite E, andb_false_r.
  destruct k; try discriminate M; cbn [rl_g matched orb andb]; now rewrite ?E.
Qed.
Lemma bfv_wf p : wf p -> wf (insert_relin (insert_init p)) /\ keeps p (insert_relin (insert_init p)).
Proof.
  intros W. destruct (insert_init_wf p W) as (W1 & K1). destruct (insert_relin_wf _ W1) as (W2 & K2).
  split; [exact W2|]. eauto using keeps_trans.
Qed.
Lemma bfv_sim {A} (g : opk -> list A -> option A) p e F :
  (forall y, g Init [y] = Some y) -> (forall y, g Relin [y] = Some y) -> run g e (body p) = Some F ->
  exists F', run g e (body (insert_relin (insert_init p))) = Some F' /\
    map F' (outs (insert_relin (insert_init p))) = map F (outs p).
Proof.
  intros H1 H2 R. destruct (insert_init_sim g p e F H1 R) as (F1 & R1 & A1).
  destruct (insert_relin_sim g _ e F1 H2 R1) as (F2 & R2 & A2). exists F2. split; [exact R2|].
  cbn [insert_relin insert_init outs]. apply map_outs. intros v Hv. rewrite A2.
  - apply A1, outs_fresh, Hv.
  - apply (outs_fresh (insert_init p)). exact Hv.
Qed.
Lemma bfv_levels p q :
  wf p -> plain_ops (body p) -> canon (insert_relin (insert_init p)) q ->
  exists F, run rl_g (inputs q 0) (body q) = Some F /\ bounded 0 F /\ run (lev_g 0) (inputs q 0) (body q) = Some F.
Proof.
  intros W P C. destruct (bfv_wf p W) as (W2 & K2). destruct (canon_wf _ _ C W2) as (Wq & Sq1 & _).
  assert (Ei : inputs q 0 = inputs p 0) by (unfold inputs; rewrite Sq1; destruct K2 as (-> & _); easy).
  destruct (zero_total (body p) (inputs p 0)) as (F0 & R0).
  assert (Z : forall v x, inputs p 0 v = Some x -> x = 0).
  { intros v x. unfold inputs. destruct (mem _ _); [|discriminate]. now intros [= <-]. }
  pose proof (zero_run _ _ _ (lev_g 0) zero_lev P Z R0) as RL. pose proof (zero_run _ _ _ (ps_g 0) zero_ps P Z R0) as RP.
  destruct (bfv_sim (lev_g 0) p _ _ (fun y => ltac:(now destruct y)) (fun y => ltac:(now destruct y)) RL) as (F1 & R1 & _).
  destruct (bfv_sim (ps_g 0) p _ _ (fun y => ltac:(now destruct y)) (fun y => ltac:(now destruct y)) RP) as (F2 & R2 & _).
  destruct (canon_sim (lev_g 0) _ _ _ F1 (lev_laws 0) C W2 R1) as (F3 & R3 & _).
  destruct (canon_sim (ps_g 0) _ _ _ F2 (ps_laws 0) C W2 R2) as (F4 & R4 & _).
  pose proof (run_det _ _ _ _ _ _ R3 R4) as <-.
  exists F3. rewrite Ei. split; [|split; [|exact R3]].
  - eapply run_impl; [|exact R4]. apply ps_rl.
  - eapply lev_bounded; [exact R3|apply inputs_bounded].
Qed.
Lemma bfv_dims p :
  wf p -> plain_ops (body p) ->
  exists F, run dim_g (inputs p 2) (body (insert_relin (insert_init p))) = Some F /\
    map F (outs (insert_relin (insert_init p))) = map (fun v => if secret p v then Some 2 else None) (outs p).
Proof.
  intros W P.
  destruct (sd_run (body p) (inputs p 2) P) as (F0 & R0 & T0).
  { intros v. unfold inputs, two. destruct (mem _ _); auto. }
  destruct (insert_init_wf p W) as (W1 & K1).
  destruct (insert_init_sim sd_g p (inputs p 2) F0 (fun y => eq_refl) R0) as (F1 & R1 & A1).
  assert (R1' := R1). rewrite <- (keeps_inputs _ _ 2 K1) in R1'.
  destruct (relin_dims _ F1 W1 R1') as (F2 & R2 & A2). rewrite (keeps_inputs _ _ 2 K1) in R2.
  exists F2. split; [exact R2|].
  cbn [insert_relin insert_init outs].
  transitivity (map F0 (outs p)).
  - apply map_outs. intros v Hv. rewrite A2; [apply A1, outs_fresh, Hv|]. apply (outs_fresh (insert_init p)). exact Hv.
  - apply map_ext. intros v. rewrite (secret_run sd_g p 2 F0 sd_optg R0). destruct (T0 v) as [->| ->]; easy.
Qed.
Lemma max_depth_spec (D : nat -> option nat) (st : nat -> mds) vs :
  (forall v, drel (D v) (st v)) ->
  (forall d, max_depth (map st vs) = Some d ->
     (forall v x, In v vs -> D v = Some x -> x <= d) /\ (d = 0 \/ exists v, In v vs /\ D v = Some d)) /\
  ((forall v x, In v vs -> D v = Some x -> x <= 40) -> exists d, max_depth (map st vs) = Some d).
Proof.
  intros H. induction vs as [|v vs (IH1 & IH2)]; cbn.
  - split; [intros d [= <-]; split; [easy|auto]|eauto].
  - specialize (H v). unfold drel in H. destruct (D v) as [x|] eqn:Dv.
    + destruct H as [(E & L)|(E & L)]; rewrite E.
      * split.
        -- intros d Hd. destruct (max_depth (map st vs)) as [d0|]; [|discriminate]. injection Hd as <-.
           destruct (IH1 d0 eq_refl) as (A & B). split.
           ++ intros u y [<-|Hu] Du; [rewrite Dv in Du; injection Du as <-; lia|]. specialize (A u y Hu Du). lia.
           ++ destruct (Nat.max_spec x d0) as [[_ ->]|[_ ->]].
              ** destruct B as [->|(u & Hu & Du)]; [auto|]. right. exists u. auto.
              ** right. exists v. auto.
        -- intros K. destruct IH2 as (d0 & ->); [intros u y Hu; apply K; auto|]. cbn. eauto.
      * split; [discriminate|]. intros K. specialize (K v x (or_introl eq_refl) Dv). lia.
    + rewrite H. split.
      * intros d Hd. destruct (IH1 d Hd) as (A & B). split.
        -- intros u y [<-|Hu] Du; [congruence|eauto].
        -- destruct B as [->|(u & Hu & Du)]; [auto|]. right. exists u. auto.
      * intros K. apply IH2. intros u y Hu. apply K. auto.
Qed.
