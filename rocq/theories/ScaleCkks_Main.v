From Coq Require Import ZArith QArith List Bool Lia Arith.
From Verif Require Import Mgmt_Model Mgmt_Spec Mgmt_Proofs Mgmt_Passes Scale_Model Scale_Proofs ScaleCkks_Model ScaleCkks_Spec ScaleCkks_Proofs.
Import ListNotations.
Open Scope Z_scope.
Local Arguments Z.add : simpl never.
Local Arguments Z.sub : simpl never.
Local Arguments Z.ltb : simpl never.
Local Arguments Z.quot : simpl never.
Local Arguments Z.max : simpl never.
Local Arguments Nat.ltb : simpl never.
Local Arguments Nat.eqb : simpl never.

Lemma max_scale_spec l : forall a, In (max_scale a l) (a :: l) /\ forall x, In x (a :: l) -> x <= max_scale a l.
Proof.
  unfold max_scale. induction l as [|c l IH]; intros a; cbn [fold_left].
  - split; [now left|]. intros x [<-|[]]. lia.
  - destruct (IH (Z.max a c)) as (I & L). split.
    + destruct I as [I|I]; [|right; now right]. rewrite <- I. destruct (Z.max_spec a c) as [(_ & ->)|(_ & ->)]; cbn; auto.
    + intros x [<-|[<-|X]]; [specialize (L (Z.max a c) (or_introl eq_refl)); lia|specialize (L (Z.max a c) (or_introl eq_refl)); lia|].
      apply L. now right.
Qed.
Lemma max_scale_unique a l m : In m (a :: l) -> (forall x, In x (a :: l) -> x <= m) -> max_scale a l = m.
Proof. intros I L. destruct (max_scale_spec l a) as (I' & L'). apply L in I'. apply L' in I. lia. Qed.

Section Main.
  Variables (P : ckks) (first : bool) (lev : nat -> nat) (p : prog) (b : nat -> Z).
  Notation D := (ld P).
  Notation s0 := (input_scale P first).
  Hypothesis HD : 0 < D.
  Hypothesis Hq : forall l, 0 <= lq_at P l.
  Hypothesis W : wf p.
  Hypothesis Est : estimate D s0 (lq_at P) lev p b.
  Notation mg := (managed p).

  Lemma s0_D : D <= s0.
  Proof. unfold input_scale. destruct first; lia. Qed.

  (** ** The first analysis finds the estimates *)
  Definition f1 (v : nat) : option Z := if mg v then Some (b v) else None.
  Lemma opsc ad f (mg' : nat -> bool) (t : nat -> Z) l : (forall v, In v l -> mg' v = true -> f v = Some (t v)) ->
    operand_scales ad f (filter mg' l) = Some (map t (filter mg' l)).
  Proof.
    induction l as [|v l IH]; intros H; cbn; [easy|]. destruct (mg' v) eqn:E; cbn.
    - rewrite (H v) by (auto; now left). rewrite IH; [easy|]. intros; apply H; auto. now right.
    - apply IH. intros; apply H; auto. now right.
  Qed.
  Lemma filter_nil (f : nat -> bool) l : existsb f l = false -> filter f l = [].
  Proof. induction l as [|v l IH]; cbn; [easy|]. destruct (f v); [easy|]. exact IH. Qed.
  Lemma filter_some (f : nat -> bool) l : existsb f l = true -> exists v r, filter f l = v :: r.
  Proof. induction l as [|v l IH]; cbn; [easy|]. destruct (f v); [eauto|]. exact IH. Qed.
  Lemma unmanaged i : In i (body p) -> op i <> Init -> existsb mg (args i) = false -> mg (res i) = false.
  Proof.
    intros I O X. destruct (mg (res i)) eqn:M; [|easy]. destruct (managed_cases p i W I M) as [|(_ & _ & v & V & Mv)]; [easy|].
    assert (existsb mg (args i) = true) by (apply existsb_exists; eauto). congruence.
  Qed.
  Lemma init_managed i : In i (body p) -> op i = Init -> mg (res i) = true.
  Proof. intros I O. unfold managed. rewrite orb_true_iff. right. apply inits_In. eauto. Qed.
  Lemma sec_managed v : secret p v = true -> mg v = true.
  Proof. unfold managed. now intros ->. Qed.
  Lemma add_max i : In i (body p) -> (op i = Add \/ op i = Sub \/ op i = Ins) -> existsb mg (args i) = true ->
    forall x r, map b (filter mg (args i)) = x :: r -> max_scale x r = b (res i).
  Proof.
    intros I O X x r E. destruct (est_op _ _ _ _ _ _ Est i I) as (_ & H); [destruct O as [O|[O|O]]; now rewrite O|exact X|].
    assert (H' : (exists v, In v (args i) /\ mg v = true /\ b v = b (res i)) /\
      (forall v, In v (args i) -> mg v = true -> b v <= b (res i))) by (destruct O as [O|[O|O]]; rewrite O in H; tauto).
    destruct H' as ((v & V & Mv & Ev) & Le). apply max_scale_unique; rewrite <- E.
    - rewrite <- Ev. apply in_map. now apply filter_In.
    - intros y Y. apply in_map_iff in Y as (u & <- & U). apply filter_In in U as (U & Mu). now apply Le.
  Qed.
  Lemma quot2 x : 0 <= x -> Z.quot x 2 = x / 2.
  Proof. intros. apply Z.quot_div_nonneg; lia. Qed.
  Lemma f1_tf i : In i (body p) -> ckks_tf true P s0 lev (fun _ => None) p f1 i = f1 (res i).
  Proof.
    intros I. assert (F1 : operand_scales (adaptable p) f1 (filter mg (args i)) = Some (map b (filter mg (args i)))).
    { apply opsc. intros v _ M. unfold f1. now rewrite M. }
    destruct (op i) eqn:O.
    7: { unfold ckks_tf. rewrite O. cbn. unfold f1. rewrite (init_managed i I O). now rewrite (est_init _ _ _ _ _ _ Est i I O). }
    11: { destruct (est_none _ _ _ _ _ _ Est i id I O). }
    all: assert (O' : op i <> Init) by (rewrite O; easy).
    all: unfold ckks_tf; rewrite O; rewrite F1.
    all: destruct (existsb mg (args i)) eqn:X; [|rewrite (filter_nil _ _ X); cbn; unfold f1; now rewrite (unmanaged i I O' X)].
    all: destruct (est_op _ _ _ _ _ _ Est i I O' X) as (Sr & H); rewrite O in H;
      unfold f1; rewrite (sec_managed _ Sr);
      destruct (filter_some _ _ X) as (x & r & E).
    1,2,3: rewrite E; cbn [map]; f_equal; apply (add_max i I); [rewrite O; now auto|exact X|now rewrite E].
    - (* Mul *)
      clear F1. destruct H as (u & v & A & Mu & Mv & H). rewrite A. cbn [filter]. rewrite Mu, Mv. cbn [map hd andb].
      unfold target. cbv zeta in H |- *.
      assert (T0 : 0 <= D + lq_at P (lev (res i))) by (specialize (Hq (lev (res i))); lia).
      rewrite quot2 by lia.
      destruct (Z.ltb_spec (b u + b v) (D + lq_at P (lev (res i)))), (Nat.eqb_spec u v); f_equal; intuition (try lia; try congruence).
    - (* Slice *) rewrite E. cbn [map]. rewrite Sr. f_equal. apply H; [|]; apply (filter_In mg x (args i)); rewrite E; now left.
    - rewrite E. cbn [map]. rewrite Sr. f_equal. apply H; [|]; apply (filter_In mg x (args i)); rewrite E; now left.
    - (* ModReduce *) destruct H as (u & A & Su & H). rewrite A. cbn [filter]. rewrite (sec_managed _ Su). cbn [map hd]. f_equal. lia.
    - rewrite E. cbn [map]. rewrite Sr. f_equal. apply H; [|]; apply (filter_In mg x (args i)); rewrite E; now left.
    - rewrite E. cbn [map]. rewrite Sr. f_equal. apply H; [|]; apply (filter_In mg x (args i)); rewrite E; now left.
    - rewrite E. cbn [map]. rewrite Sr. f_equal. apply H; [|]; apply (filter_In mg x (args i)); rewrite E; now left.
  Qed.
  Notation st := (ckks_scales true P s0 lev (fun _ => None) p).
  Lemma st_f1 v : st v = f1 v.
  Proof.
    unfold ckks_scales. destruct W as (S & _ & Dj).
    destruct (in_dec Nat.eq_dec v ((sargs p ++ pargs p) ++ map res (body p))) as [K|K].
    - apply (flow_fix _ f1 (ckks_local true P s0 lev (fun _ => None) p) (body p) (sargs p ++ pargs p)); auto.
      + intros u U. unfold f1. destruct (mem u (sargs p)) eqn:M.
        * apply mem_iff in M. rewrite (est_input _ _ _ _ _ _ Est u M).
          replace (mg u) with true; [easy|]. symmetry. apply sec_managed. unfold secret.
          rewrite flow_other by (now apply (ssa_res_new _ _ _ S)). now apply mem_iff.
        * destruct (mg u) eqn:Mu; [|easy]. apply (input_managed p u W U) in Mu. apply mem_iff in Mu. congruence.
      + intros i I. now apply f1_tf.
    - rewrite flow_other by (rewrite in_app_iff in K; tauto).
      assert (mem v (sargs p) = false) as -> by (apply mem_false; rewrite !in_app_iff in K; tauto).
      unfold f1. destruct (mg v) eqn:M; [|easy]. apply managed_value in M. unfold values in M. rewrite app_assoc in M. easy.
  Qed.

  (** ** The targets of the adjust_scales *)
  Notation wanted := (want P (secret p) mg st lev).
  Definition goal (i : inst) (v : nat) : Z := match wanted i v with Some t => t | None => Z.max (b v) D end.
  Lemma add_want i v : In i (body p) -> (op i = Add \/ op i = Sub \/ op i = Ins) -> In v (args i) -> mg v = true ->
    wanted i v = if b v <? b (res i) then Some (b (res i)) else None.
  Proof.
    intros I O V M.
    assert (X : existsb mg (args i) = true) by (apply existsb_exists; eauto).
    assert (Hw : wanted i v = match filter mg (args i) with _ :: _ :: _ => match all_scales st (filter mg (args i)) with
       | Some (a :: l) => if mg v && match st v with Some x => x <? max_scale a l | None => false end then Some (max_scale a l) else None | _ => None end | _ => None end)
      by (unfold want; destruct O as [O|[O|O]]; now rewrite O).
    rewrite Hw. clear Hw. rewrite st_f1. unfold f1. rewrite M. cbn [andb].
    assert (K : all_scales st (filter mg (args i)) = Some (map b (filter mg (args i)))).
    { assert (H : forall u, In u (filter mg (args i)) -> st u = Some (b u)).
      { intros u U. apply filter_In in U as (_ & U). rewrite st_f1. unfold f1. now rewrite U. }
      induction (filter mg (args i)) as [|u r IH]; cbn; [easy|]. rewrite (H u) by now left. rewrite IH; [easy|]. intros; apply H; now right. }
    rewrite K. clear K.
    assert (Vf : In v (filter mg (args i))) by now apply filter_In.
    pose proof (add_max i I O X) as Mx.
    destruct (filter mg (args i)) as [|x [|y r]]; [easy| |].
    - destruct Vf as [<-|[]]. specialize (Mx _ _ eq_refl). cbn in Mx. rewrite Mx. destruct (Z.ltb_spec (b (res i)) (b (res i))); [lia|easy].
    - cbn [map]. rewrite (Mx (b x) (b y :: map b r) eq_refl). easy.
  Qed.
  Lemma goal_add i v : In i (body p) -> (op i = Add \/ op i = Sub \/ op i = Ins) -> In v (args i) -> mg v = true ->
    goal i v = Z.max (b (res i)) D.
  Proof.
    intros I O V M. unfold goal. rewrite (add_want i v I O V M).
    assert (X : existsb mg (args i) = true) by (apply existsb_exists; eauto).
    destruct (est_op _ _ _ _ _ _ Est i I) as (_ & H); [destruct O as [O|[O|O]]; now rewrite O|exact X|].
    assert (H' : (forall v, In v (args i) -> mg v = true -> b v <= b (res i)) /\
      (D <= b (res i) \/ forall v, In v (args i) -> mg v = true -> b v = b (res i))) by (destruct O as [O|[O|O]]; rewrite O in H; tauto).
    destruct H' as (Le & H'). specialize (Le v V M). destruct (Z.ltb_spec (b v) (b (res i))); [|lia].
    destruct H' as [H'|H']; [lia|]. specialize (H' v V M). lia.
  Qed.
  Lemma add_bound i v t : In i (body p) -> (op i = Add \/ op i = Sub \/ op i = Ins) -> In v (args i) -> wanted i v = Some t ->
    mg v = true /\ Z.max (b v) D <= t.
  Proof.
    intros I O V Wt. assert (M : mg v = true).
    { unfold want in Wt. destruct O as [O|[O|O]]; rewrite O in Wt; destruct (filter mg (args i)) as [|? [|? ?]]; try easy;
        destruct (all_scales _ _) as [[|? ?]|]; try easy; destruct (mg v); easy. }
    split; [exact M|]. pose proof (goal_add i v I O V M) as G. unfold goal in G. rewrite Wt in G.
    rewrite (add_want i v I O V M) in Wt. destruct (Z.ltb_spec (b v) (b (res i))); [|easy]. injection Wt as <-. lia.
  Qed.
  Lemma mul_want i u v : In i (body p) -> op i = Mul -> args i = [u; v] -> mg u = true -> mg v = true -> secret p (res i) = true ->
    forall w, wanted i w =
      let T := D + lq_at P (lev (res i)) in
      if b u + b v <? T then
        if (u =? v)%nat then if (w =? u)%nat then Some ((T + 1) / 2) else None
        else if b u <? b v then if (w =? u)%nat then Some (T - b v) else None
        else if (w =? v)%nat then Some (T - b u) else None
      else None.
  Proof.
    intros I O A Mu Mv Sr w. unfold want. rewrite O, A. rewrite !st_f1. unfold f1. rewrite Mu, Mv.
    rewrite (secret_res p i W I), A in Sr. cbn in Sr. rewrite orb_false_r in Sr. rewrite Sr. cbv zeta. unfold target.
    rewrite quot2; [easy|]. specialize (Hq (lev (res i))). lia.
  Qed.
  Lemma goal_mul i u v : In i (body p) -> op i = Mul -> args i = [u; v] -> mg u = true ->
    goal i u + goal i v = Z.max (b (res i)) D /\ b (res i) >= D.
  Proof.
    intros I O A Mu. destruct (est_op _ _ _ _ _ _ Est i I) as (Sr & H); [now rewrite O|rewrite A; cbn; now rewrite Mu|].
    rewrite O in H. destruct H as (u' & v' & A' & _ & Mv & H). rewrite A in A'. injection A' as <- <-.
    unfold goal. rewrite !(mul_want i u v I O A Mu Mv Sr). cbv zeta in *.
    pose proof (Hq (lev (res i))) as Q. set (T := D + lq_at P (lev (res i))) in *. rewrite !Nat.eqb_refl.
    pose proof (Z.div_mod (T + 1) 2 ltac:(lia)) as Dv. pose proof (Z.mod_pos_bound (T + 1) 2 ltac:(lia)) as Dm.
    destruct H as [(H1 & H2 & H3 & H4)|[(H1 & H2 & H3 & H4)|(H1 & H2 & H3 & H4 & H5)]].
    - destruct (Z.ltb_spec (b u + b v) T); lia.
    - subst v. rewrite !Nat.eqb_refl. destruct (Z.ltb_spec (b u + b u) T); lia.
    - assert ((u =? v)%nat = false) as -> by now apply Nat.eqb_neq. assert ((v =? u)%nat = false) as -> by now apply Nat.eqb_neq; auto.
      destruct (Z.ltb_spec (b u + b v) T); [|lia]. destruct (Z.ltb_spec (b u) (b v)); lia.
  Qed.
  Lemma red_want i u : In i (body p) -> op i = ModReduce -> args i = [u] -> secret p u = true ->
    wanted i u = if b u - lq_at P (lev u) <? D then Some (D + lq_at P (lev u)) else None.
  Proof.
    intros I O A Su. unfold want. rewrite O, A, Su. rewrite st_f1. unfold f1. rewrite (sec_managed u Su). now rewrite Nat.eqb_refl.
  Qed.
  Lemma goal_red i u : In i (body p) -> op i = ModReduce -> args i = [u] -> secret p u = true ->
    goal i u - lq_at P (lev u) = Z.max (b (res i)) D.
  Proof.
    intros I O A Su. unfold goal. rewrite (red_want i u I O A Su).
    destruct (est_op _ _ _ _ _ _ Est i I) as (_ & H); [now rewrite O|rewrite A; cbn; now rewrite (sec_managed u Su)|].
    rewrite O in H. destruct H as (u' & A' & _ & H). rewrite A in A'. injection A' as <-.
    pose proof (Hq (lev u)). destruct (Z.ltb_spec (b u - lq_at P (lev u)) D); lia.
  Qed.
  (** only managed operands are adjusted, never down *)
  Lemma want_bound i v t : In i (body p) -> In v (args i) -> wanted i v = Some t -> mg v = true /\ Z.max (b v) D <= t.
  Proof.
    intros I V Wt. destruct (op i) eqn:O; try (unfold want in Wt; rewrite O in Wt; discriminate Wt).
    1,2,3: apply (add_bound i v t); auto; rewrite O; tauto.
    - assert (X : existsb mg (args i) = true /\ exists u w, args i = [u; w]).
      { unfold want in Wt. rewrite O in Wt. destruct (args i) as [|u [|w [|]]]; try easy. destruct (secret p u || secret p w) eqn:S; [|easy].
        split; [|eauto]. cbn. apply orb_prop in S as [S|S]; rewrite (sec_managed _ S); [easy|apply orb_true_r]. }
      destruct X as (X & _). destruct (est_op _ _ _ _ _ _ Est i I) as (Sr & H); [now rewrite O|exact X|].
      rewrite O in H. destruct H as (u & w & A & Mu & Mw & H). rewrite A in V.
      split; [now destruct V as [<-|[<-|[]]]|]. rewrite (mul_want i u w I O A Mu Mw Sr) in Wt. cbv zeta in *.
      pose proof (Hq (lev (res i))) as Q. set (T := D + lq_at P (lev (res i))) in *.
      pose proof (Z.div_mod (T + 1) 2 ltac:(lia)) as Dv. pose proof (Z.mod_pos_bound (T + 1) 2 ltac:(lia)) as Dm.
      destruct (Z.ltb_spec (b u + b w) T); [|easy].
      destruct H as [H|[H|H]]; [lia| |].
      + destruct H as (_ & <- & H3 & H4). rewrite !Nat.eqb_refl in Wt. destruct (Nat.eqb_spec v u); [|easy]. injection Wt as <-. subst v. lia.
      + destruct H as (_ & H2 & H3 & H4 & H5). assert ((u =? w)%nat = false) as E by now apply Nat.eqb_neq. rewrite E in Wt.
        destruct (Z.ltb_spec (b u) (b w)).
        * destruct (Nat.eqb_spec v u); [|easy]. injection Wt as <-. subst v. lia.
        * destruct (Nat.eqb_spec v w); [|easy]. injection Wt as <-. subst v. lia.
    - assert (X : exists u, args i = [u] /\ secret p u = true).
      { unfold want in Wt. rewrite O in Wt. destruct (args i) as [|u [|]]; try easy. destruct (secret p u) eqn:S; [|easy]. eauto. }
      destruct X as (u & A & Su). rewrite A in V. destruct V as [<-|[]]. split; [now apply sec_managed|].
      rewrite (red_want i u I O A Su) in Wt. pose proof (Hq (lev u)). destruct (Z.ltb_spec (b u - lq_at P (lev u)) D); [|easy].
      injection Wt as <-. lia.
  Qed.
  Lemma want_other i v : match op i with Add | Sub | Ins | Mul | ModReduce => False | _ => True end -> wanted i v = None.
  Proof. intros H. unfold want. destruct (op i); easy. Qed.
  Lemma readables i : In i (body p) -> readable (secret p) mg st i.
  Proof.
    intros I. unfold readable. assert (K : forall v, mg v = true -> st v <> None) by (intros v M; rewrite st_f1; unfold f1; now rewrite M).
    destruct (op i) eqn:O; auto.
    - intros X v V. apply K. assert (X' : existsb mg (args i) = true).
      { apply existsb_exists in X as (u & U & S). apply existsb_exists. exists u. split; [easy|]. now apply sec_managed. }
      destruct (est_op _ _ _ _ _ _ Est i I) as (_ & H); [now rewrite O|exact X'|].
      rewrite O in H. destruct H as (u & w & A & Mu & Mw & _). rewrite A in V. now destruct V as [<-|[<-|[]]].
    - intros v V S. apply K. now apply sec_managed.
  Qed.

  (** ** The program with adjust_scales *)
  Notation N := (fresh p).
  Notation start := (Cs N 0 (fun _ => None) lev true).
  Notation bd := (fst (walk (adjust_op P (secret p) mg st) start (body p))).
  Notation sF := (snd (walk (adjust_op P (secret p) mg st) start (body p))).
  Definition q2 : prog := Prog (sargs p) (pargs p) (map (merge_init bd) bd) (outs p).
  Notation isad := (isadj lev N sF).
  Notation link := (linked P (secret p) mg st lev N sF bd).
  Lemma Wk : walked P (secret p) mg st lev N (body p) start bd sF.
  Proof. apply walk_spec; [apply below_fresh|easy|easy]. Qed.
  Lemma Wbd : wf (Prog (sargs p) (pargs p) bd (outs p)).
  Proof.
    apply (walk_wf_prog c_next (adjust_op P (secret p) mg st) start p); [|easy|exact W]. intros s i. apply step_emits.
  Qed.
  Lemma W2 : wf q2.
  Proof. apply merge_wf. exact Wbd. Qed.
  Lemma arg_N i v : In i (body p) -> In v (args i) -> (v < N)%nat.
  Proof. intros I V. now apply (below_fresh p i I). Qed.
  Lemma res_N i : In i (body p) -> (res i < N)%nat.
  Proof. intros I. destruct (below_fresh p i I) as (H & _). exact H. Qed.
  Lemma value_N v : In v (values p) -> (v < N)%nat.
  Proof.
    unfold values. rewrite !in_app_iff. intros [H|[H|H]]; [| |apply in_map_iff in H as (i & <- & I); now apply res_N];
    apply fresh_lt; rewrite !in_app_iff; tauto.
  Qed.
  Lemma bd_unique i j : In i bd -> In j bd -> res i = res j -> i = j.
  Proof. apply (ssa_unique (sargs p ++ pargs p)). apply Wbd. Qed.
  (** an operation that is not an adjust_scale *)
  Lemma keep_merge i l' : In i (body p) -> merge_init bd (Inst (op i) l' (res i)) = Inst (op i) l' (res i).
  Proof.
    intros I. unfold merge_init. cbn. destruct (op i) eqn:O; try easy. destruct (est_none _ _ _ _ _ _ Est i id I O).
  Qed.
  Lemma bd_init d : In d bd -> op d = Init -> In d (body p).
  Proof.
    intros J O. destruct (wk_each _ _ _ _ _ _ _ _ _ _ Wk d J) as [(i & v & t & I & V & Wt & (k & Ok) & _)|(i & l' & I & E & F)].
    - congruence.
    - subst d. cbn in O. enough (l' = args i) as -> by (now rewrite inst_eta).
      revert F. generalize (args i). clear -O. induction l' as [|v' l' IH]; intros l F; inversion F; subst; [easy|].
      f_equal; [|now apply IH]. unfold linked, want in H2. rewrite O in H2. easy.
  Qed.
  Lemma init_bd d : In d (body p) -> op d = Init -> In d bd.
  Proof.
    intros J O. destruct (wk_all _ _ _ _ _ _ _ _ _ _ Wk d J) as (l' & I & F).
    assert (E : l' = args d).
    { revert F. generalize (args d). clear -O. induction l' as [|v' l' IH]; intros l F; inversion F; subst; [easy|].
      f_equal; [|now apply IH]. unfold linked, want in H2. rewrite O in H2. easy. }
    subst l'. now rewrite inst_eta in I.
  Qed.
  (** merging of an adjust_scale *)
  Lemma adj_merge v t j : isad v t j ->
    (merge_init bd j = j /\ inits p v = false) \/
    (exists d, In d (body p) /\ op d = Init /\ res d = v /\ merge_init bd j = Inst Init (args d) (res j)).
  Proof.
    intros ((k & O) & A & _). unfold merge_init. rewrite O, A.
    destruct (find _ bd) as [d|] eqn:Fd.
    - right. apply find_some in Fd as (I & E). apply andb_prop in E as (E1 & E2). apply Nat.eqb_eq in E1.
      assert (Od : op d = Init) by (destruct (op d); easy). exists d. split; [now apply bd_init|]. easy.
    - left. split; [easy|]. destruct (inits p v) eqn:Iv; [|easy]. apply inits_In in Iv as (d & Id & Od & Rd).
      pose proof (find_none _ _ Fd d (init_bd d Id Od)) as X. cbn in X. rewrite Od, Rd, Nat.eqb_refl in X. easy.
  Qed.
  Lemma each2 j' : In j' (body q2) ->
    (exists i v t j, In i (body p) /\ In v (args i) /\ wanted i v = Some t /\ isad v t j /\ In j bd /\ j' = merge_init bd j) \/
    (exists i l', In i (body p) /\ j' = Inst (op i) l' (res i) /\ Forall2 (link i) (args i) l').
  Proof.
    intros J. cbn in J. apply in_map_iff in J as (j & <- & J).
    destruct (wk_each _ _ _ _ _ _ _ _ _ _ Wk j J) as [(i & v & t & I & V & Wt & X)|(i & l' & I & E & F)].
    - left. exists i, v, t, j. auto 10.
    - right. exists i, l'. subst j. rewrite (keep_merge i l' I). auto.
  Qed.
  Lemma all2 i : In i (body p) -> exists l', In (Inst (op i) l' (res i)) (body q2) /\ Forall2 (link i) (args i) l'.
  Proof.
    intros I. destruct (wk_all _ _ _ _ _ _ _ _ _ _ Wk i I) as (l' & J & F). exists l'. split; [|easy].
    cbn. apply in_map_iff. exists (Inst (op i) l' (res i)). split; [now apply keep_merge|easy].
  Qed.
  Lemma adj2 v t j : isad v t j -> In j bd -> In (merge_init bd j) (body q2).
  Proof. intros _ J. cbn. now apply in_map. Qed.
  Lemma values2 v : In v (values p) -> In v (values q2).
  Proof.
    unfold values. cbn [sargs pargs q2]. rewrite !in_app_iff. intros [H|[H|H]]; auto. right. right.
    apply in_map_iff in H as (i & <- & I). destruct (all2 i I) as (l' & J & _). apply in_map_iff. exists (Inst (op i) l' (res i)). auto.
  Qed.

  (** ** Secretness *)
  Definition src (w : nat) : nat := match find (fun j => (res j =? w)%nat) bd with Some j => hd 0%nat (args j) | None => 0%nat end.
  Lemma src_adj v t j : isad v t j -> In j bd -> src (res j) = v.
  Proof.
    intros (_ & A & _) J. unfold src. destruct (find _ bd) as [x|] eqn:F.
    - apply find_some in F as (X & E). apply Nat.eqb_eq in E. rewrite (bd_unique x j X J E). now rewrite A.
    - pose proof (find_none _ _ F j J) as X. cbn in X. now rewrite Nat.eqb_refl in X.
  Qed.
  Definition gs (v : nat) : bool := if (v <? N)%nat then secret p v else secret p (src v).
  Lemma gs_old v : (v < N)%nat -> gs v = secret p v.
  Proof. intros H. unfold gs. now apply Nat.ltb_lt in H as ->. Qed.
  Lemma gs_adj v t j : isad v t j -> In j bd -> gs (res j) = secret p v.
  Proof.
    intros X J. unfold gs. pose proof X as (_ & _ & Ge & _). apply Nat.ltb_ge in Ge as ->. now rewrite (src_adj v t j X J).
  Qed.
  Lemma link_gs i v v' : In i (body p) -> In v (args i) -> link i v v' -> gs v' = secret p v.
  Proof.
    intros I V. unfold linked. destruct (wanted i v) as [t|].
    - intros (j & J & <- & X). now apply (gs_adj v t).
    - intros ->. apply gs_old. now apply (arg_N i).
  Qed.
  Lemma sec2 v : In v (values q2) -> secret q2 v = gs v.
  Proof.
    unfold values. rewrite app_assoc. intros K. unfold secret at 1.
    apply (flow_fix sec_tf gs sec_local (body q2) (sargs q2 ++ pargs q2)); [apply W2| | |exact K].
    - cbn [q2 sargs pargs]. intros u U. rewrite gs_old by (apply fresh_lt; rewrite !in_app_iff in *; tauto).
      unfold secret. now rewrite flow_other by (destruct W as (S & _); now apply (ssa_res_new _ _ _ S)).
    - intros j' J. destruct (each2 j' J) as [(i & v0 & t & j & I & V & Wt & X & Jb & ->)|(i & l' & I & -> & F)].
      + rewrite merge_res. rewrite (gs_adj v0 t j X Jb). destruct (adj_merge v0 t j X) as [(-> & _)|(d & Id & Od & <- & ->)].
        * unfold sec_tf. pose proof X as (_ & A & _). rewrite A. cbn. rewrite orb_false_r. apply gs_old. now apply (arg_N i).
        * unfold sec_tf. cbn. rewrite (secret_res p d W Id).
          assert (H : forall u, In u (args d) -> gs u = secret p u) by (intros u U; apply gs_old; now apply (arg_N d)).
          induction (args d) as [|u l IH]; cbn; [easy|]. rewrite (H u) by now left. f_equal. apply IH. intros; apply H; now right.
      + cbn [res]. rewrite gs_old by now apply res_N. rewrite (secret_res p i W I). unfold sec_tf. cbn [args].
        assert (H : incl (args i) (args i)) by apply incl_refl. clear J. revert F H. generalize (args i) at 1 2 4.
        induction l' as [|v' l' IH]; intros l F H; inversion F; subst; [easy|]. cbn.
        rewrite (link_gs i x v' I (H x (or_introl eq_refl)) H3). f_equal. apply IH; [exact H4|]. intros u U; apply H; now right.
  Qed.
  Lemma mg_old v : In v (values p) -> managed q2 v = mg v.
  Proof.
    intros V. unfold managed. rewrite sec2 by now apply values2. rewrite gs_old by now apply value_N. f_equal.
    apply eq_true_iff_eq. rewrite !inits_In. split.
    - intros (j' & J & O & R). destruct (each2 j' J) as [(i & u & t & j & I & U & Wt & X & Jb & ->)|(i & l' & I & -> & F)].
      + rewrite merge_res in R. apply value_N in V. destruct X as (_ & _ & Ge & _). lia.
      + exists i. auto.
    - intros (i & I & O & R). destruct (all2 i I) as (l' & J & _). exists (Inst (op i) l' (res i)). auto.
  Qed.
  Lemma mg_adj i v t j : In i (body p) -> In v (args i) -> wanted i v = Some t -> isad v t j -> In j bd -> managed q2 (res j) = true.
  Proof.
    intros I V Wt X J. destruct (want_bound i v t I V Wt) as (M & _).
    destruct (adj_merge v t j X) as [(E & Ni)|(d & Id & Od & Rd & E)].
    - unfold managed in M. rewrite Ni, orb_false_r in M. unfold managed. rewrite sec2, (gs_adj v t j X J), M; [easy|].
      unfold values. rewrite !in_app_iff. right. right. apply in_map_iff. exists (merge_init bd j). split; [apply merge_res|now apply (adj2 v t)].
    - unfold managed. apply orb_true_iff. right. apply inits_In. exists (merge_init bd j). split; [now apply (adj2 v t)|]. rewrite E. easy.
  Qed.
  Lemma arg_values i v : In i (body p) -> In v (args i) -> In v (values p).
  Proof.
    intros I V. unfold values. rewrite app_assoc. destruct W as (S & _). now apply (ssa_incl _ _ _ S I).
  Qed.
  Lemma link_mg i v v' : In i (body p) -> In v (args i) -> link i v v' -> managed q2 v' = mg v.
  Proof.
    intros I V. unfold linked. destruct (wanted i v) as [t|] eqn:Wt.
    - intros (j & J & <- & X). rewrite (mg_adj i v t j I V Wt X J). symmetry. now apply (want_bound i v t).
    - intros ->. apply mg_old. now apply (arg_values i).
  Qed.

  (** ** The second analysis *)
  Definition f2 (v : nat) : option Z :=
    if (v <? N)%nat then if mg v then Some (Z.max (b v) D) else None else annotated (c_att sF) v.
  Lemma f2_old v : (v < N)%nat -> f2 v = if mg v then Some (Z.max (b v) D) else None.
  Proof. intros H. unfold f2. now apply Nat.ltb_lt in H as ->. Qed.
  Lemma att_adj i v t j : In i (body p) -> In v (args i) -> wanted i v = Some t -> isad v t j -> annotated (c_att sF) (res j) = Some t.
  Proof.
    intros I V Wt (_ & _ & _ & At & _). unfold annotated. rewrite At. destruct (want_bound i v t I V Wt) as (_ & B).
    destruct (Z.eqb_spec t (-1)); [lia|easy].
  Qed.
  Lemma f2_adj i v t j : In i (body p) -> In v (args i) -> wanted i v = Some t -> isad v t j -> f2 (res j) = Some t.
  Proof.
    intros I V Wt X. unfold f2. pose proof X as (_ & _ & Ge & _). apply Nat.ltb_ge in Ge as ->. now apply (att_adj i v t).
  Qed.
  Lemma link_f2 i v v' : In i (body p) -> In v (args i) -> mg v = true -> link i v v' -> f2 v' = Some (goal i v).
  Proof.
    intros I V M. unfold linked, goal. destruct (wanted i v) as [t|] eqn:Wt.
    - intros (j & J & <- & X). now apply (f2_adj i v).
    - intros ->. rewrite f2_old by now apply (arg_N i). now rewrite M.
  Qed.
  Lemma link_lev i v v' : In i (body p) -> In v (args i) -> link i v v' -> c_lev sF v' = lev v.
  Proof.
    intros I V. unfold linked. destruct (wanted i v) as [t|].
    - intros (j & _ & <- & (_ & _ & _ & _ & L)). exact L.
    - intros ->. destruct Wk as [(_ & L) _ _ _]. apply (L v). now apply (arg_N i).
  Qed.
  Lemma lev_old v : (v < N)%nat -> c_lev sF v = lev v.
  Proof. intros H. destruct Wk as [(_ & L) _ _ _]. now apply (L v). Qed.
  Lemma scales2 ad i l l' : In i (body p) -> incl l (args i) -> Forall2 (link i) l l' ->
    operand_scales ad f2 (filter (managed q2) l') = Some (map (goal i) (filter mg l)).
  Proof.
    intros I H F. revert H. induction F as [|v v' l l' K F IH]; intros H; [easy|]. cbn.
    assert (V : In v (args i)) by (apply H; now left). assert (H' : incl l (args i)) by (intros u U; apply H; now right).
    rewrite (link_mg i v v' I V K). destruct (mg v) eqn:M; [|now apply IH]. cbn.
    rewrite (link_f2 i v v' I V M K). now rewrite (IH H').
  Qed.
  Lemma const_max c l : l <> [] -> (forall x, In x l -> x = c) -> forall x r, l = x :: r -> max_scale x r = c.
  Proof.
    intros _ H x r ->. apply max_scale_unique.
    - rewrite <- (H x); now left.
    - intros y Y. rewrite (H y Y). lia.
  Qed.
  Lemma goal_other i v : In i (body p) -> match op i with Slice | Other _ | LevelReduce _ | LevelReduceMin | Relin => True | _ => False end ->
    In v (args i) -> mg v = true -> goal i v = Z.max (b (res i)) D.
  Proof.
    intros I O V M. unfold goal. rewrite want_other by (destruct (op i); easy).
    destruct (est_op _ _ _ _ _ _ Est i I) as (_ & H); [destruct (op i); easy|apply existsb_exists; eauto|].
    destruct (op i); try easy; now rewrite (H v V M).
  Qed.
  Lemma f2_tf j' : In j' (body q2) -> ckks_tf false P s0 (c_lev sF) (c_att sF) q2 f2 j' = f2 (res j').
  Proof.
    intros J'. destruct (each2 j' J') as [(i & v & t & j & I & V & Wt & X & Jb & ->)|(i & l' & I & -> & F)].
    - rewrite merge_res, (f2_adj i v t j I V Wt X). destruct (adj_merge v t j X) as [(-> & _)|(d & Id & Od & _ & ->)].
      + pose proof X as ((k & O) & _). unfold ckks_tf. rewrite O. now apply (att_adj i v t).
      + unfold ckks_tf. cbn. now rewrite (att_adj i v t j I V Wt X).
    - assert (Fs : operand_scales (adaptable q2) f2 (filter (managed q2) l') = Some (map (goal i) (filter mg (args i))))
        by (apply scales2; [easy|apply incl_refl|easy]).
      cbn [res]. rewrite (f2_old _ (res_N i I)).
      unfold ckks_tf; cbn [op args res]; rewrite Fs.
      destruct (op i) eqn:O.
      7: { rewrite (init_managed i I O). rewrite (est_init _ _ _ _ _ _ Est i I O).
           replace (annotated (c_att sF) (res i)) with (@None Z); [rewrite Z.max_l by apply s0_D; easy|].
           destruct Wk as [(_ & L) _ _ _]. destruct (L (res i) (res_N i I)) as (E & _). unfold annotated. now rewrite E. }
      11: { destruct (est_none _ _ _ _ _ _ Est i id I O). }
      all: assert (O' : op i <> Init) by (rewrite O; easy).
      all: destruct (existsb mg (args i)) eqn:E; [|rewrite (filter_nil _ _ E); cbn; now rewrite (unmanaged i I O' E)].
      all: destruct (est_op _ _ _ _ _ _ Est i I O' E) as (Sr & H); rewrite O in H; rewrite (sec_managed _ Sr);
        destruct (filter_some _ _ E) as (x & r & Ef).
      1,2,3: rewrite Ef; cbn [map]; f_equal; apply (const_max _ (map (goal i) (filter mg (args i)))); [rewrite Ef; easy| |now rewrite Ef];
        intros y Y; apply in_map_iff in Y as (u & <- & U); apply filter_In in U as (U & Mu); apply (goal_add i u I); auto; rewrite O; tauto.
      all: assert (Xr : In x (args i) /\ mg x = true) by (apply (filter_In mg x (args i)); rewrite Ef; now left).
      2,3,5,6,7: rewrite Ef; cbn [map]; rewrite sec2 by (apply values2; unfold values; rewrite !in_app_iff; right; right; now apply in_map);
        rewrite gs_old by (now apply res_N); rewrite Sr; f_equal; apply goal_other; [easy|now rewrite O|apply Xr|apply Xr].
      + destruct H as (u & v & A & Mu & Mv & _). rewrite A. cbn [filter]. rewrite Mu, Mv. cbn [map hd andb]. f_equal.
        now apply (goal_mul i u v).
      + destruct H as (u & A & Su & _). pose proof (goal_red i u I O A Su) as G. rewrite A. cbn [filter]. rewrite (sec_managed u Su). cbn [map].
        f_equal. rewrite A in F. inversion F as [|? u' ? ? L F']; subst. inversion F'; subst. cbn [hd].
        rewrite (link_lev i u u' I); [|rewrite A; now left|exact L]. exact G.
  Qed.
  Notation st2 := (ckks_scales false P s0 (c_lev sF) (c_att sF) q2).
  Lemma st_f2 v : In v (values q2) -> st2 v = f2 v.
  Proof.
    unfold values. rewrite app_assoc. intros K. unfold ckks_scales.
    apply (flow_fix _ f2 (ckks_local false P s0 (c_lev sF) (c_att sF) q2) (body q2) (sargs q2 ++ pargs q2)); [apply W2| | |exact K].
    - cbn [q2 sargs pargs]. intros u U. rewrite f2_old by (apply fresh_lt; rewrite !in_app_iff in *; tauto).
      destruct (mem u (sargs p)) eqn:M.
      + apply mem_iff in M. rewrite (est_input _ _ _ _ _ _ Est u M). replace (mg u) with true; [rewrite Z.max_l by apply s0_D; easy|].
        symmetry. apply sec_managed. unfold secret. destruct W as (S & _). rewrite flow_other by (now apply (ssa_res_new _ _ _ S)). now apply mem_iff.
      + destruct (mg u) eqn:Mu; [|easy]. apply (input_managed p u W U) in Mu. apply mem_iff in Mu. congruence.
    - intros j' J. now apply f2_tf.
  Qed.

  (** ** The pass *)
  Definition sc (v : nat) : Z := match f2 v with Some s => s | None => 0 end.
  Lemma f2_managed v : In v (values q2) -> managed q2 v = true -> f2 v = Some (sc v).
  Proof.
    intros V M. unfold sc. destruct (f2 v) eqn:E; [easy|]. exfalso. revert E.
    unfold values in V. cbn [q2 sargs pargs] in V. rewrite !in_app_iff in V.
    assert (K : In v (values p) -> f2 v = None -> False).
    { intros K. rewrite f2_old by now apply value_N. rewrite <- mg_old by easy. now rewrite M. }
    destruct V as [V|[V|V]].
    - apply K. unfold values. rewrite !in_app_iff. auto.
    - apply K. unfold values. rewrite !in_app_iff. auto.
    - apply in_map_iff in V as (j' & <- & J'). destruct (each2 j' J') as [(i & u & t & j & I & U & Wt & X & Jb & ->)|(i & l' & I & -> & F)].
      + rewrite merge_res, (f2_adj i u t j I U Wt X). easy.
      + apply K. cbn [res]. unfold values. rewrite !in_app_iff. right. right. now apply (in_map res).
  Qed.
  Lemma arg_values2 j v : In j (body q2) -> In v (args j) -> In v (values q2).
  Proof. intros I V. unfold values. rewrite app_assoc. destruct W2 as (S & _). now apply (ssa_incl _ _ _ S I). Qed.
  Lemma res_values2 j : In j (body q2) -> In (res j) (values q2).
  Proof. intros I. unfold values. rewrite !in_app_iff. right. right. now apply in_map. Qed.
  Lemma sc_old v : mg v = true -> sc v = Z.max (b v) D.
  Proof. intros M. unfold sc. rewrite f2_old by (apply value_N; now apply managed_value). now rewrite M. Qed.
  Lemma sc_adj i v t j : In i (body p) -> In v (args i) -> wanted i v = Some t -> isad v t j -> sc (res j) = t.
  Proof. intros I V Wt X. unfold sc. now rewrite (f2_adj i v t j I V Wt X). Qed.
  Lemma sc_link i v v' : In i (body p) -> In v (args i) -> mg v = true -> link i v v' -> sc v' = goal i v.
  Proof. intros I V M L. unfold sc. now rewrite (link_f2 i v v' I V M L). Qed.
  Lemma adj_case j' k : In j' (body q2) -> op j' = AdjustScale k ->
    exists i v t, In i (body p) /\ In v (args i) /\ wanted i v = Some t /\ isad v t j' /\ args j' = [v].
  Proof.
    intros J O. destruct (each2 j' J) as [(i & v & t & j & I & V & Wt & X & Jb & ->)|(i & l' & I & -> & F)].
    - destruct (adj_merge v t j X) as [(E & _)|(d & _ & _ & _ & E)].
      + rewrite E. exists i, v, t. repeat (split; [easy|]). apply X.
      + rewrite E in O. easy.
    - cbn in O. destruct (est_none _ _ _ _ _ _ Est i k I O).
  Qed.
  Lemma adj_delta j' k : In j' (body q2) -> op j' = AdjustScale k ->
    exists v, args j' = [v] /\ managed q2 v = true /\ sc v <= sc (res j') /\ managed q2 (res j') = true /\
      delta_of st2 j' = Some (if sc (res j') =? sc v then None else Some (sc (res j') - sc v)).
  Proof.
    intros J O. destruct (adj_case j' k J O) as (i & v & t & I & V & Wt & X & A). exists v. split; [easy|].
    destruct (want_bound i v t I V Wt) as (M & B).
    assert (Mv : managed q2 v = true) by (rewrite mg_old; [easy|now apply (arg_values i)]).
    assert (Sv : sc v = Z.max (b v) D) by now apply sc_old.
    assert (Sr : sc (res j') = t) by now apply (sc_adj i v).
    assert (Fr : f2 (res j') = Some t) by now apply (f2_adj i v).
    assert (Mr : managed q2 (res j') = true).
    { pose proof J as J0. cbn in J0. apply in_map_iff in J0 as (j & E & Jb).
      assert (Rj : res j = res j') by (rewrite <- E; now rewrite merge_res).
      destruct (wk_each _ _ _ _ _ _ _ _ _ _ Wk j Jb) as [(i' & v' & t' & I' & V' & Wt' & X')|(i' & l' & I' & E' & F')].
      - rewrite <- Rj. now apply (mg_adj i' v' t').
      - exfalso. destruct X as (_ & _ & Ge & _). rewrite <- Rj, E' in Ge. cbn in Ge. pose proof (res_N i' I'). lia. }
    repeat (split; [easy || lia|]). unfold delta_of. rewrite A.
    rewrite (st_f2 (res j')) by now apply res_values2. rewrite (st_f2 v) by (apply (arg_values2 j'); [easy|rewrite A; now left]).
    assert (Vv : In v (values q2)) by (apply (arg_values2 j'); [easy|rewrite A; now left]).
    rewrite Fr, (f2_managed v Vv Mv).
    unfold materialize, delta_ckks. rewrite Sr. destruct (Z.eqb_spec t (sc v)); [easy|].
    destruct (Z.ltb_spec (t - sc v) 0); [lia|easy].
  Qed.
  Definition final : result := Result q2 (c_lev sF) st2 (deltas st2 (body q2)).
  Lemma populate_some : populate P first lev p = Some final.
  Proof.
    unfold populate. cbv zeta. fold q2. pose proof (walk_ok P (secret p) mg st (body p) start readables) as Ok.
    rewrite Ok. cbn [c_ok andb].
    assert (C1 : forallb (fun v => negb (managed q2 v) || is_some (st2 v)) (values q2) = true).
    { apply forallb_forall. intros v V. destruct (managed q2 v) eqn:M; [|easy]. cbn [negb orb]. rewrite st_f2 by easy. now rewrite f2_managed. }
    assert (C2 : forallb (fun i => negb (is_adjust i) || is_some (delta_of st2 i)) (body q2) = true).
    { apply forallb_forall. intros j J. unfold is_adjust. destruct (op j) eqn:O; try easy. cbn [negb orb].
      destruct (adj_delta j id J O) as (v & _ & _ & _ & _ & ->). easy. }
    rewrite C1, C2. easy.
  Qed.
  Lemma delta2 j k : In j (body q2) -> op j = AdjustScale k -> exists v, args j = [v] /\ managed q2 v = true /\
    deltas st2 (body q2) (res j) = if sc (res j) =? sc v then None else Some (sc (res j) - sc v).
  Proof.
    intros J O. destruct (adj_delta j k J O) as (v & A & M & _ & _ & E). exists v. split; [easy|]. split; [easy|].
    unfold deltas. destruct (find _ (body q2)) as [x|] eqn:F.
    - apply find_some in F as (X & R). apply Nat.eqb_eq in R. destruct W2 as (S & _). rewrite (ssa_unique _ _ _ _ S X J R). now rewrite E.
    - pose proof (find_none _ _ F j J) as X. cbn in X. now rewrite Nat.eqb_refl in X.
  Qed.
  (** ** Rules *)
  Lemma sc_args i l' v' : In i (body p) -> Forall2 (link i) (args i) l' -> In v' l' ->
    exists v, In v (args i) /\ link i v v' /\ managed q2 v' = mg v.
  Proof.
    intros I F V. assert (X : exists v, In v (args i) /\ link i v v').
    { clear -F V. induction F; [easy|]. destruct V as [<-|V]; [eexists; split; [now left|easy]|]. destruct (IHF V) as (v & A & B). exists v. split; [now right|easy]. }
    destruct X as (v & Va & L). exists v. split; [easy|]. split; [easy|]. now apply (link_mg i).
  Qed.
  Lemma rules j : In j (body q2) -> managed q2 (res j) = true -> scale_rule (lq_at P) (c_lev sF) q2 sc j.
  Proof.
    intros J M. destruct (each2 j J) as [(i & v & t & jj & I & V & Wt & X & Jb & E)|(i & l' & I & E & F)].
    - destruct (adj_merge v t jj X) as [(Em & _)|(d & _ & _ & _ & Em)].
      + pose proof X as ((k & O) & _). rewrite Em in E. subst jj. unfold scale_rule. rewrite O.
        destruct (adj_delta j k J O) as (u & A & _ & Le & _). exists u. auto.
      + rewrite E, Em. exact Logic.I.
    - assert (Mr : mg (res i) = true).
      { rewrite <- mg_old; [rewrite E in M; exact M|]. unfold values. rewrite !in_app_iff. right. right. now apply in_map. }
      pose proof (sc_old _ Mr) as Sr. subst j. unfold scale_rule. cbn [op args res]. rewrite Sr.
      assert (Args : match op i with Init | AdjustScale _ => False | _ => True end -> existsb mg (args i) = true).
      { intros O. destruct (existsb mg (args i)) eqn:X; [easy|]. rewrite (unmanaged i I) in Mr; [easy| |easy]. destruct (op i); easy. }
      assert (Gen : (forall v, In v (args i) -> mg v = true -> goal i v = Z.max (b (res i)) D) ->
        forall v', In v' l' -> managed q2 v' = true -> sc v' = Z.max (b (res i)) D).
      { intros G v' V' M'. destruct (sc_args i l' v' I F V') as (v & V & L & E). rewrite E in M'. rewrite (sc_link i v v' I V M' L). now apply G. }
      destruct (op i) eqn:O; auto.
      1,2,3: apply Gen; intros v V Mv; apply goal_add; auto; rewrite O; tauto.
      2,3,5,6,7: apply Gen; intros v V Mv; apply goal_other; auto; now rewrite O.
      + destruct (est_op _ _ _ _ _ _ Est i I ltac:(now rewrite O) (Args Logic.I)) as (_ & H). rewrite O in H.
        destruct H as (u & v & A & Mu & Mv & _). pose proof (goal_mul i u v I O A Mu) as (G & _). rewrite A in F.
        inversion F as [|? u' ? ? Lu F1]; subst. inversion F1 as [|? v' ? ? Lv F2]; subst. inversion F2; subst. exists u', v'. split; [easy|].
        rewrite (sc_link i u u'), (sc_link i v v'); auto; rewrite A; cbn; auto.
      + destruct (est_op _ _ _ _ _ _ Est i I ltac:(now rewrite O) (Args Logic.I)) as (_ & H). rewrite O in H.
        destruct H as (u & A & Su & _). pose proof (goal_red i u I O A Su) as G. rewrite A in F.
        inversion F as [|? u' ? ? Lu F1]; subst. inversion F1; subst. exists u'. split; [easy|].
        rewrite (sc_link i u u'), (link_lev i u u'); auto; try (rewrite A; now left). now apply sec_managed.
      + destruct (est_none _ _ _ _ _ _ Est i id I O).
  Qed.
End Main.
