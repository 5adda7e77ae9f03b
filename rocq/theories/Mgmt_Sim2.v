From Coq Require Import List Bool Arith Lia.
From Verif Require Import Mgmt_Model Mgmt_Spec Mgmt_Proofs Mgmt_Passes Mgmt_Sim.
Import ListNotations.
Local Arguments Nat.ltb : simpl never.
Local Arguments Nat.leb : simpl never.

(** agreement on the old values *)
Definition agree {A} (N : nat) (e e' : nat -> A) : Prop := forall x, x < N -> e' x = e x.
Lemma agree_upd {A} N (e e' : nat -> A) v a : agree N e e' -> agree N (upd e v a) (upd e' v a).
Proof. intros H x Hx. unfold upd. destruct (x =? v); auto. Qed.
Lemma agree_map {A} N (e e' : nat -> A) l : agree N e e' -> (forall v, In v l -> v < N) -> map e' l = map e l.
Proof. intros H B. apply map_ext_Forall, Forall_In. auto. Qed.

(** the end of the code for one operation: the operation itself on new operands *)
Lemma run_snoc {A} (g : opk -> list A -> option A) e q e1 k l r a :
  run g e q = Some e1 -> g k (map e1 l) = Some a -> run g e (q ++ [Inst k l r]) = Some (upd e1 r a).
Proof. intros R G. rewrite run_app, R. cbn. now rewrite G. Qed.

Section Id.
  Context {A : Type} (g : opk -> list A -> option A).

  (** one step of a simulation whose new operands have the old values *)
  Lemma step_same N n i e e' e1 q l a k :
    N <= n -> res i < N -> agree N e e' ->
    run g e' q = Some e1 -> (forall x, x < n -> e1 x = e' x) -> map e1 l = map e (args i) ->
    k = op i -> g (op i) (map e (args i)) = Some a ->
    exists e2, run g e' (q ++ [Inst k l (res i)]) = Some e2 /\ agree N (upd e (res i) a) e2.
  Proof.
    intros Le Br Ag R Ag1 M -> G. eexists. split.
    - eapply run_snoc; [exact R|]. rewrite M. exact G.
    - apply agree_upd. intros x Hx. rewrite Ag1 by lia. auto.
  Qed.
  Lemma step_self N i e e' a :
    res i < N -> (forall v, In v (args i) -> v < N) -> agree N e e' -> g (op i) (map e (args i)) = Some a ->
    exists e2, run g e' [i] = Some e2 /\ agree N (upd e (res i) a) e2.
  Proof.
    intros Br Ba Ag G. cbn. rewrite (agree_map N e) by auto. rewrite G. eexists. split; [reflexivity|].
    now apply agree_upd.
  Qed.
  Lemma Forall2_map_same (e1 e2 : nat -> A) l l' : Forall2 (fun x x' => e2 x' = e1 x) l l' -> map e2 l' = map e1 l.
  Proof. induction 1; cbn; congruence. Qed.

  Lemma insert_init_sim p e F :
    (forall y, g Init [y] = Some y) -> run g e (body p) = Some F ->
    exists F', run g e (body (insert_init p)) = Some F' /\ agree (fresh p) F F'.
  Proof.
    intros HI R. unfold insert_init; cbn.
    destruct (walk_run0 (init_op (secret p) (inits p)) g g
                (fun n e e' => fresh p <= n /\ agree (fresh p) e e') (body p) e F (fresh p) e)
      as (F' & R' & _ & Ag); eauto.
    - intros n e0 e0' i a Hi (Le & Ag) G.
      destruct (below_fresh p i Hi) as (Br & Ba).
      unfold init_op. destruct (takes_init _ && _).
      + destruct (init_args _ _ _ _) as [[q l] n'] eqn:E. cbn.
        destruct (init_args_run g _ _ _ _ _ _ _ e0' (fun v Hv => Nat.lt_le_trans _ _ _ (Ba v Hv) Le)
                    (fun _ _ _ => HI _) E) as (e1 & R1 & Ag1 & M1).
        destruct (init_args_chain _ _ _ _ _ _ _ (args i) E (incl_refl _)) as (C & _). apply chain_le in C.
        destruct (step_same (fresh p) n i e0 e0' e1 q l a (op i)) as (e2 & R2 & Ag2); auto.
        { rewrite M1. now apply (agree_map (fresh p)). }
        exists e2. split; [exact R2|]. split; [lia|exact Ag2].
      + cbn. destruct (step_self (fresh p) i e0 e0' a) as (e2 & R2 & Ag2); auto.
        exists e2. split; [exact R2|]. split; [lia|exact Ag2].
    - split; [lia|]. intros x _. reflexivity.
  Qed.

  Lemma mod_reduce_before_sim sec dep first n l q l' n' e :
    (forall v, In v l -> sec v = true -> g ModReduce [e v] = Some (e v)) ->
    (forall v, In v l -> v < n) -> mod_reduce_before sec dep first n l = (q, l', n') ->
    exists e2, run g e q = Some e2 /\ (forall x, x < n -> e2 x = e x) /\ map e2 l' = map e l.
  Proof.
    intros HI B. unfold mod_reduce_before.
    assert (Triv : exists e2, run g e [] = Some e2 /\ (forall x, x < n -> e2 x = e x) /\ map e2 l = map e l)
      by (exists e; cbn; auto).
    destruct (effective_depth _ _) as [d|]; [destruct (negb first && _)|]; try (intros [= <- <- <-]; exact Triv).
    intros E.
    assert (HI' : forall v, In v (filter sec l) -> g ModReduce [e v] = Some (e v)).
    { intros v Hv. apply filter_In in Hv. now apply HI. }
    destruct (reduce_operands_run g (fun y => y) _ _ _ _ _ _ e
                (fun v Hv => B v (filter_incl _ _ v Hv)) B HI' E)
      as (e2 & R & Ag & F2 & _).
    exists e2. split; [exact R|]. split; [exact Ag|].
    apply Forall2_map_same. eapply Forall2_impl; [|exact F2]. intros x y _ _ K. cbn beta in K.
    now destruct (mem x (filter sec l)).
  Qed.

  Lemma insert_mod_reduce_sim m p e F :
    (forall v, secret p v = true -> g ModReduce [F v] = Some (F v)) ->
    (forall i a l, In i (body p) -> op i = Mul -> g Mul l = Some a -> secret p (res i) = true -> F (res i) = a ->
       g ModReduce [a] = Some a) ->
    wf p -> run g e (body p) = Some F ->
    exists F', run g e (body (insert_mod_reduce m p)) = Some F' /\ agree (fresh p) F F' /\
      map F' (outs (insert_mod_reduce m p)) = map F (outs p).
  Proof.
    intros HI HM W R.
    assert (Bo : forall v, In v (outs p) -> v < fresh p).
    { intros v Hv. apply fresh_lt. rewrite !in_app_iff. tauto. }
    destruct W as (Sp & _). unfold insert_mod_reduce. destruct m as [|first].
    - cbn.
      destruct (walk_run (after_op (secret p)) g g
                  (fun n e e' => fresh p <= n /\ agree (fresh p) e e') (sargs p ++ pargs p) (body p) e F (fresh p) e)
        as (F' & R' & _ & Ag); eauto.
      + intros n e0 e0' i a Hi (Le & Ag) HF G Ha.
        destruct (below_fresh p i Hi) as (Br & Ba).
        assert (Self : exists e2, run g e0' (fst ([i], n)) = Some e2 /\
                         fresh p <= snd ([i], n) /\ agree (fresh p) (upd e0 (res i) a) e2).
        { destruct (step_self (fresh p) i e0 e0' a) as (e2 & R2 & Ag2); auto. exists e2. cbn. auto. }
        unfold after_op. destruct (op i) eqn:Eo; try exact Self. destruct (secret p (res i)) eqn:Sr; [|exact Self].
        cbn. rewrite (agree_map (fresh p) e0) by auto. rewrite G, upd_same. rewrite (HM i a _ Hi Eo G Sr Ha).
        eexists. split; [reflexivity|]. split; [lia|].
        intros x Hx. unfold upd. destruct (x =? res i); [easy|]. destruct (Nat.eqb_spec x n); [lia|]. auto.
      + split; [lia|]. intros x _. reflexivity.
      + exists F'. split; [exact R'|]. split; [exact Ag|]. now apply (agree_map (fresh p)).
    - destruct (walk (before_op (secret p) (depths p) first) (fresh p) (body p)) as [b n] eqn:Ew.
      destruct (mod_reduce_before _ _ _ n (outs p)) as [[q o] n'] eqn:Em. cbn.
      destruct (walk_run (before_op (secret p) (depths p) first) g g
                  (fun n e e' => fresh p <= n /\ agree (fresh p) e e') (sargs p ++ pargs p) (body p) e F (fresh p) e)
        as (F1 & R1 & Le & Ag); eauto.
      + clear n q o n' b Ew Em. intros n e0 e0' i a Hi (Le & Ag) HF G Ha.
        destruct (below_fresh p i Hi) as (Br & Ba).
        assert (Self : exists e2, run g e0' (fst ([i], n)) = Some e2 /\
                         fresh p <= snd ([i], n) /\ agree (fresh p) (upd e0 (res i) a) e2).
        { destruct (step_self (fresh p) i e0 e0' a) as (e2 & R2 & Ag2); auto. exists e2. cbn. auto. }
        unfold before_op. destruct (op i) eqn:Eo; try exact Self. destruct (secret p (res i)) eqn:Sr; [|exact Self].
        destruct (mod_reduce_before _ _ _ n (args i)) as [[q l] n'] eqn:Em.
        destruct (mod_reduce_before_chain _ _ _ _ _ _ _ _ Em) as (C & _). apply chain_le in C.
        edestruct mod_reduce_before_sim with (e := e0') (3 := Em) as (e1 & R1 & Ag1 & M1).
        { intros v Hv Sv. rewrite Ag, HF by auto. auto. }
        { intros v Hv. apply Ba in Hv. lia. }
        destruct (step_same (fresh p) n i e0 e0' e1 q l a Mul) as (e2 & R2 & Ag2); auto.
        { rewrite M1. now apply (agree_map (fresh p)). }
        { now rewrite Eo. }
        exists e2. split; [exact R2|]. cbn. split; [lia|exact Ag2].
      + split; [lia|]. intros x _. reflexivity.
      + rewrite Ew in R1, Le. cbn in R1, Le.
        edestruct mod_reduce_before_sim with (e := F1) (3 := Em) as (F2 & R2 & Ag2 & M2).
        { intros v Hv Sv. rewrite Ag by auto. auto. }
        { intros v Hv. apply Bo in Hv. lia. }
        exists F2. rewrite run_app, R1. split; [exact R2|]. split.
        * intros x Hx. rewrite Ag2 by lia. auto.
        * rewrite M2. now apply (agree_map (fresh p)).
  Qed.

  Lemma insert_relin_sim p e F :
    (forall y, g Relin [y] = Some y) -> run g e (body p) = Some F ->
    exists F', run g e (body (insert_relin p)) = Some F' /\ agree (fresh p) F F'.
  Proof.
    intros HI R. unfold insert_relin; cbn.
    destruct (walk_run0 (relin_op (secret p)) g g
                (fun n e e' => fresh p <= n /\ agree (fresh p) e e') (body p) e F (fresh p) e)
      as (F' & R' & _ & Ag); eauto.
    - intros n e0 e0' i a Hi (Le & Ag) G.
      destruct (below_fresh p i Hi) as (Br & Ba).
      assert (Self : exists e2, run g e0' (fst ([i], n)) = Some e2 /\
                       fresh p <= snd ([i], n) /\ agree (fresh p) (upd e0 (res i) a) e2).
      { destruct (step_self (fresh p) i e0 e0' a) as (e2 & R2 & Ag2); auto. exists e2. cbn. auto. }
      unfold relin_op. destruct (op i) eqn:Eo; try exact Self. destruct (_ && _); [|exact Self].
      cbn. rewrite (agree_map (fresh p) e0) by auto. rewrite G, upd_same, HI.
      eexists. split; [reflexivity|]. split; [lia|].
      intros x Hx. unfold upd. destruct (x =? res i); [easy|]. destruct (Nat.eqb_spec x n); [lia|]. auto.
    - split; [lia|]. intros x _. reflexivity.
  Qed.

  (** operations inserted by the last two passes *)
  Definition inserted (k : opk) : Prop :=
    k = ModReduce \/ (exists j, k = LevelReduce j) \/ k = LevelReduceMin \/ (exists j, k = AdjustScale j).

  Lemma handle_cross_level_sim ckks budget p e F :
    wf p -> run g e (body p) = Some F ->
    (forall i v k, In i (body p) -> matched (op i) = true -> In v (args i) -> secret p v = true -> inserted k ->
       g k [F v] = Some (F v)) ->
    exists F', run g e (body (fst (handle_cross_level ckks budget p))) = Some F' /\ agree (fresh p) F F'.
  Proof.
    intros (Sp & _) R HP. unfold handle_cross_level.
    destruct (walk_run (cross_level ckks (secret p)) g g
                (fun s e e' => fresh p <= cl_next s /\ agree (fresh p) e e') (sargs p ++ pargs p) (body p) e F
                (Cl (fresh p) 0 (levels budget p)) e)
      as (F' & R' & _ & Ag); eauto.
    - intros s e0 e0' i a Hi (Le & Ag) HF G Ha.
      destruct (below_fresh p i Hi) as (Br & Ba).
      destruct (cross_level_cases ckks (secret p) s i) as [(-> & _)|(q & l & n & id & Mt & Sr & Lt & E & ->)].
      + cbn [fst snd]. destruct (step_self (fresh p) i e0 e0' a) as (e2 & R2 & Ag2); auto.
        exists e2. split; [exact R2|]. split; [lia|exact Ag2].
      + cbn [fst snd].
        edestruct (match_operands_run g (fun v y => y = F v)) with (e := e0') (4 := E) as (e1 & R1 & Ag1 & F2).
        { intros v Hv. apply filter_incl, Ba in Hv. lia. }
        { intros v Hv. apply Ba in Hv. lia. }
        { intros v Hv n1 id1 e1 L1 L2 Ev. apply filter_In in Hv as (Hv & Sv).
          assert (Ev' : e1 v = F v) by (rewrite Ev, Ag by auto; auto).
          destruct (cl_lev s v); auto. destruct (cl_lev s (res i)) as [|b0| |]; auto.
          - intros Lt' q' v' n2 id2 Eb. eapply bridge_id in Eb as (e3 & R3 & E3); [exists e3; split; [exact R3|]| |exact L1].
            + now rewrite E3.
            + intros k Hk. rewrite Ev'. eapply HP; eauto. unfold inserted. intuition.
          - exists (F v). rewrite Ev'. split; [|easy]. eapply HP; eauto. unfold inserted. auto. }
        destruct (step_same (fresh p) (cl_next s) i e0 e0' e1 q l a (op i)) as (e2 & R2 & Ag2); auto.
        { apply Forall2_map_same. eapply Forall2_impl; [|exact F2]. intros x y Hx _ K. cbn beta in K.
          destruct (mem x _ && _).
          - destruct K as (_ & ->). symmetry. auto.
          - destruct K as (_ & ->). auto. }
        exists e2. split; [exact R2|]. cbn. split; [lia|exact Ag2].
    - split; [cbn; lia|]. intros x _. reflexivity.
    - destruct (walk (cross_level ckks (secret p)) _ _) as [b s]. cbn. eauto.
  Qed.

  Lemma handle_cross_depth_sim ckks id p e F :
    run g e (body p) = Some F ->
    (forall i e a v k, In i (body p) -> matched (op i) = true -> g (op i) (map e (args i)) = Some a -> In v (args i) ->
       g (AdjustScale k) [e v] = Some (e v)) ->
    exists F', run g e (body (handle_cross_depth ckks id p)) = Some F' /\ agree (fresh p) F F'.
  Proof.
    intros R HP. unfold handle_cross_depth. destruct ckks; [exists F; split; [exact R|now intros x _]|]. cbn.
    destruct (walk_run0 cross_depth g g
                (fun s e e' => fresh p <= md_next s /\ agree (fresh p) e e') (body p) e F
                (Md (fresh p) id (fun v => mem v (sargs p)) (fun v => if mem v (sargs p) then DInt 0 else DUninit)) e)
      as (F' & R' & _ & Ag); eauto.
    - intros s e0 e0' i a Hi (Le & Ag) G.
      destruct (below_fresh p i Hi) as (Br & Ba).
      unfold cross_depth.
      match goal with |- context [if ?b then _ else _] => destruct b eqn:Ec end;
        cbn [fst snd]; rewrite md_visit_next.
      + destruct (adjust_operands _ _ _ _ _) as [[[q l] n] id'] eqn:E. cbn [fst snd md_next].
        apply andb_true_iff in Ec as [Ec _]. apply andb_true_iff in Ec as [Ec _].
        apply andb_true_iff in Ec as [Ec _]. apply andb_true_iff in Ec as [Ec _].
        edestruct (adjust_operands_run g) with (e := e0') (4 := E) as (e1 & R1 & Ag1 & M1).
        { intros v Hv. apply filter_incl, Ba in Hv. lia. }
        { intros v Hv. apply Ba in Hv. lia. }
        { intros v k Hv. apply filter_incl in Hv. rewrite Ag by auto. eauto. }
        destruct (adjust_operands_chain _ _ _ _ _ _ _ _ _ (args i) E (filter_incl _ _)) as (C & _).
        apply chain_le in C.
        destruct (step_same (fresh p) (md_next s) i e0 e0' e1 q l a (op i)) as (e2 & R2 & Ag2); auto.
        { rewrite M1. now apply (agree_map (fresh p)). }
        exists e2. split; [exact R2|]. split; [lia|exact Ag2].
      + destruct (step_self (fresh p) i e0 e0' a) as (e2 & R2 & Ag2); auto. exists e2. auto.
    - split; [cbn; lia|]. intros x _. reflexivity.
  Qed.
End Id.
