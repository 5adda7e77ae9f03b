From Coq Require Import List Bool Arith Lia.
From Verif Require Import Mgmt_Model Mgmt_Spec Mgmt_Proofs.
Import ListNotations.
Local Arguments Nat.ltb : simpl never.

(** * The numbers in the inserted code *)
Lemma replace_In a b l v : In v (replace a b l) -> v = b \/ In v l.
Proof.
  unfold replace. rewrite in_map_iff. intros (x & E & H). destruct (x =? a); subst; auto.
Qed.
Lemma replace_In2 a b l v : In v (replace a b l) -> v = b \/ (In v l /\ v <> a).
Proof.
  unfold replace. rewrite in_map_iff. intros (x & E & H).
  destruct (Nat.eqb_spec x a); subst; auto.
Qed.

Lemma init_args_chain sec isinit l n q l' n' d :
  init_args sec isinit n l = (q, l', n') -> incl l d ->
  chain d n q n' /\ forall v, In v l' -> In v l \/ n <= v < n'.
Proof.
  revert n q l' n' d. induction l as [|v l IH]; intros n q l' n' d E H; cbn in E.
  - injection E as <- <- <-. split; [easy|]. intros v [].
  - destruct (negb (sec v) && negb (isinit v)).
    + destruct (init_args _ _ (S n) l) as [[q1 l1] n1] eqn:E1. injection E as <- <- <-.
      destruct (IH _ _ _ _ (n :: d) E1) as (C & K).
      { intros x Hx. right. apply H. now right. }
      split.
      * cbn. split; [easy|]. split; [|easy]. intros x [<-|[]]. apply H. now left.
      * intros x [<-|Hx]; [right; apply chain_le in C; lia|].
        destruct (K _ Hx); [left; now right|right; lia].
    + destruct (init_args _ _ n l) as [[q1 l1] n1] eqn:E1. injection E as <- <- <-.
      destruct (IH _ _ _ _ d E1) as (C & K).
      { intros x Hx. apply H. now right. }
      split; [easy|]. intros x [<-|Hx]; [left; now left|].
      destruct (K _ Hx); [left; now right|right; lia].
Qed.

Lemma reduce_operands_chain vs n l q l' n' d :
  reduce_operands vs n l = (q, l', n') -> incl vs d ->
  chain d n q n' /\ forall v, In v l' -> In v l \/ n <= v < n'.
Proof.
  revert n l q l' n' d. induction vs as [|v vs IH]; intros n l q l' n' d E H; cbn in E.
  - injection E as <- <- <-. split; [easy|]. auto.
  - destruct (reduce_operands vs _ _) as [[q1 l1] n1] eqn:E1. injection E as <- <- <-.
    destruct (IH _ _ _ _ _ (n :: d) E1) as (C & K).
    { intros x Hx. right. apply H. now right. }
    split.
    + cbn. split; [easy|]. split; [|easy]. intros x [<-|[]]. apply H. now left.
    + intros x Hx. pose proof (chain_le _ _ _ _ C). destruct (K _ Hx) as [Hr|]; [|right; lia].
      apply replace_In in Hr as [->|]; [right; lia|auto].
Qed.

Lemma bridge_chain ckks n id v a b q v' n' id' d :
  bridge ckks n id v a b = (q, v', n', id') -> In v d ->
  chain d n q n' /\ n <= v' < n' /\ id <= id'.
Proof.
  intros E H. unfold bridge in E.
  destruct (1 <? b - a), ckks; injection E as <- <- <- <-; cbn; repeat split; try lia;
    intros x [<-|[]]; cbn; auto.
Qed.

Lemma match_operands_chain ckks lev r vs n id l q l' n' id' d :
  match_operands ckks lev r vs n id l = Some (q, l', n', id') -> incl vs d ->
  chain d n q n' /\ (forall v, In v l' -> In v l \/ n <= v < n') /\ id <= id'.
Proof.
  revert n id l q l' n' id' d. induction vs as [|v vs IH]; intros n id l q l' n' id' d E H; cbn in E.
  - injection E as <- <- <- <-. split; [easy|]. auto.
  - assert (Hvs : incl vs d) by (intros x Hx; apply H; now right).
    destruct (lev v) as [|a| |] eqn:La; [discriminate| | |];
      destruct r as [|b| |]; try (eapply IH; eauto; fail).
    + destruct (a <? b); [|eapply IH; eauto].
      destruct (bridge ckks n id v a b) as [[[q1 v1] n1] id1] eqn:Eb.
      destruct (match_operands _ _ _ vs _ _ _) as [[[[q2 l2] n2] id2]|] eqn:E2; [|discriminate].
      injection E as <- <- <- <-.
      destruct (bridge_chain _ _ _ _ _ _ _ _ _ _ d Eb (H v (or_introl eq_refl))) as (C1 & B1 & I1).
      destruct (IH _ _ _ _ _ _ _ (rev (map res q1) ++ d) E2) as (C2 & K & I2).
      { intros x Hx. apply in_or_app. auto. }
      split; [eapply chain_app; eauto|]. split; [|lia].
      intros x Hx. pose proof (chain_le _ _ _ _ C2). destruct (K _ Hx) as [Hr|]; [|right; lia].
      apply replace_In in Hr as [->|]; [right; lia|auto].
    + destruct (match_operands _ _ _ vs _ _ _) as [[[[q2 l2] n2] id2]|] eqn:E2; [|discriminate].
      injection E as <- <- <- <-.
      destruct (IH _ _ _ _ _ _ _ (n :: d) E2) as (C2 & K & I2).
      { intros x Hx. right. auto. }
      split; [|split; [|lia]].
      * cbn. split; [easy|]. split; [|easy]. intros x [<-|[]]. apply H. now left.
      * intros x Hx. pose proof (chain_le _ _ _ _ C2). destruct (K _ Hx) as [Hr|]; [|right; lia].
        apply replace_In in Hr as [->|]; [right; lia|auto].
Qed.

Lemma adjust_operands_chain dep vs n id l q l' n' id' d :
  adjust_operands dep vs n id l = (q, l', n', id') -> incl vs d ->
  chain d n q n' /\ (forall v, In v l' -> In v l \/ n <= v < n').
Proof.
  revert n id l q l' n' id' d. induction vs as [|v vs IH]; intros n id l q l' n' id' d E H; cbn in E.
  - injection E as <- <- <- <-. split; [easy|]. auto.
  - assert (Hvs : incl vs d) by (intros x Hx; apply H; now right).
    destruct (dep v) as [| |[|k]]; try (eapply IH; eauto; fail).
    destruct (adjust_operands _ vs _ _ _) as [[[q2 l2] n2] id2] eqn:E2. injection E as <- <- <- <-.
    destruct (IH _ _ _ _ _ _ _ (n :: d) E2) as (C2 & K).
    { intros x Hx. right. auto. }
    split.
    + cbn. split; [easy|]. split; [|easy]. intros x [<-|[]]. apply H. now left.
    + intros x Hx. pose proof (chain_le _ _ _ _ C2). destruct (K _ Hx) as [Hr|]; [|right; lia].
      apply replace_In in Hr as [->|]; [right; lia|auto].
Qed.

Lemma filter_incl {A} (f : A -> bool) l : incl (filter f l) l.
Proof. intros x H. apply filter_In in H. tauto. Qed.

Lemma init_op_emits sec isinit n i :
  emits n i (fst (init_op sec isinit n i)) (snd (init_op sec isinit n i)).
Proof.
  unfold init_op. destruct (takes_init _ && _); [|apply emits_self].
  destruct (init_args _ _ _ _) as [[q l] n'] eqn:E. cbn.
  destruct (init_args_chain _ _ _ _ _ _ _ (args i) E (incl_refl _)). now apply emits_before.
Qed.
Lemma mod_reduce_before_chain sec dep first n l q l' n' :
  mod_reduce_before sec dep first n l = (q, l', n') ->
  chain l n q n' /\ forall v, In v l' -> In v l \/ n <= v < n'.
Proof.
  unfold mod_reduce_before. destruct (effective_depth _ _) as [d|].
  - destruct (negb first && _).
    + intros [= <- <- <-]. split; [easy|auto].
    + intros E. eapply reduce_operands_chain; eauto using filter_incl.
  - intros [= <- <- <-]. split; [easy|auto].
Qed.
Lemma before_op_emits sec dep first n i :
  emits n i (fst (before_op sec dep first n i)) (snd (before_op sec dep first n i)).
Proof.
  unfold before_op. destruct (op i) eqn:Eo; try apply emits_self. destruct (sec (res i)); [|apply emits_self].
  destruct (mod_reduce_before _ _ _ _ _) as [[q l] n'] eqn:E. cbn.
  destruct (mod_reduce_before_chain _ _ _ _ _ _ _ _ E). now apply emits_before.
Qed.
Lemma after_op_emits sec n i : emits n i (fst (after_op sec n i)) (snd (after_op sec n i)).
Proof.
  unfold after_op. destruct (op i) eqn:Eo; try apply emits_self. destruct (sec (res i)); [|apply emits_self].
  cbn. rewrite <- Eo. apply emits_after.
Qed.
Lemma relin_op_emits sec n i : emits n i (fst (relin_op sec n i)) (snd (relin_op sec n i)).
Proof.
  unfold relin_op. destruct (op i) eqn:Eo; try apply emits_self. destruct (sec (res i) && _); [|apply emits_self].
  cbn. rewrite <- Eo. apply emits_after.
Qed.
(** the cases of MatchCrossLevel *)
Lemma cross_level_cases ckks sec s i :
  (cross_level ckks sec s i = ([i], s) /\
   (matched (op i) = true -> sec (res i) = true -> cl_lev s (res i) <> LUninit ->
    match match_operands ckks (cl_lev s) (cl_lev s (res i)) (filter sec (args i)) (cl_next s) (cl_id s) (args i) with
    | None => True | Some (q, l, n, id) => n <= cl_next s end)) \/
  (exists q l n id, matched (op i) = true /\ sec (res i) = true /\ cl_next s < n /\
     match_operands ckks (cl_lev s) (cl_lev s (res i)) (filter sec (args i)) (cl_next s) (cl_id s) (args i)
       = Some (q, l, n, id) /\
     cross_level ckks sec s i =
       (q ++ [Inst (op i) l (res i)],
        Cl n id (upd (cl_lev s) (res i)
                   (derive_level (op i) (map (fun v => if v <? cl_next s then cl_lev s v else LUninit) l))))).
Proof.
  unfold cross_level. destruct (matched (op i)) eqn:M, (sec (res i)) eqn:Sr; cbn [andb];
    try (left; split; [easy|congruence]).
  destruct (match_operands ckks (cl_lev s) (cl_lev s (res i)) (filter sec (args i)) (cl_next s) (cl_id s) (args i))
    as [[[[q l] n] id]|] eqn:E.
  - destruct (cl_next s <? n) eqn:Lt.
    + destruct (cl_lev s (res i)) eqn:Lr; [left; split; [easy|congruence]| | |];
        right; exists q, l, n, id; rewrite E, Lt; apply Nat.ltb_lt in Lt; auto.
    + apply Nat.ltb_ge in Lt. left. split; [|auto].
      destruct (cl_lev s (res i)); rewrite ?E; try easy; now rewrite (proj2 (Nat.ltb_ge _ _) Lt).
  - left. split; [|auto]. destruct (cl_lev s (res i)); now rewrite ?E.
Qed.
Lemma cross_level_emits ckks sec s i :
  emits (cl_next s) i (fst (cross_level ckks sec s i)) (cl_next (snd (cross_level ckks sec s i))).
Proof.
  destruct (cross_level_cases ckks sec s i) as [(-> & _)|(q & l & n & id & _ & _ & _ & E & ->)]; [apply emits_self|].
  destruct (match_operands_chain _ _ _ _ _ _ _ _ _ _ _ (args i) E (filter_incl _ _)) as (C & K & _).
  cbn. now apply emits_before.
Qed.
Lemma md_visit_next s q : md_next (fold_left md_visit q s) = md_next s.
Proof. revert s. induction q as [|i q IH]; intros s; cbn; [easy|]. now rewrite IH. Qed.
Lemma cross_depth_emits s i :
  emits (md_next s) i (fst (cross_depth s i)) (md_next (snd (cross_depth s i))).
Proof.
  unfold cross_depth.
  match goal with |- context [if ?b then _ else _] => destruct b end;
    cbn [fst snd]; rewrite md_visit_next; [|apply emits_self].
  destruct (adjust_operands _ _ _ _ _) as [[[q l] n] id] eqn:E. cbn.
  destruct (adjust_operands_chain _ _ _ _ _ _ _ _ _ (args i) E (filter_incl _ _)).
  now apply emits_before.
Qed.

(** * Well-formedness is kept, and the old values keep their numbers *)
Definition keeps (p q : prog) : Prop :=
  sargs q = sargs p /\ pargs q = pargs p /\ forall v, In v (map res (body p)) -> In v (map res (body q)).

Lemma walk_wf {S} (nxt : S -> nat) f s p :
  (forall s i, emits (nxt s) i (fst (f s i)) (nxt (snd (f s i)))) -> nxt s = fresh p -> wf p ->
  ssa (sargs p ++ pargs p) (fst (walk f s (body p))) /\ fresh p <= nxt (snd (walk f s (body p))) /\
  (forall v, In v (map res (fst (walk f s (body p)))) <->
             In v (map res (body p)) \/ fresh p <= v < nxt (snd (walk f s (body p)))).
Proof.
  intros H En (Sp & _). rewrite <- En.
  apply (walk_ssa nxt f (fresh p)) with (d := sargs p ++ pargs p); auto.
  - apply below_fresh.
  - lia.
  - intros v Hv. apply fresh_lt. rewrite !in_app_iff in *. tauto.
  - intros v. rewrite En. split; intros; [auto|]. destruct H0; [auto|lia].
Qed.
Lemma walk_wf_prog {S} (nxt : S -> nat) f s p :
  (forall s i, emits (nxt s) i (fst (f s i)) (nxt (snd (f s i)))) -> nxt s = fresh p -> wf p ->
  wf (Prog (sargs p) (pargs p) (fst (walk f s (body p))) (outs p)) /\
  keeps p (Prog (sargs p) (pargs p) (fst (walk f s (body p))) (outs p)).
Proof.
  intros H En W. destruct (walk_wf nxt f s p H En W) as (Sq & _ & R). destruct W as (Sp & O & Di).
  split; [split; [|split]; cbn|split; [|split]; cbn]; auto.
  - intros v Hv. apply O in Hv. rewrite !in_app_iff in *. rewrite R. tauto.
  - intros v Hv. rewrite R. auto.
Qed.

Lemma insert_init_wf p : wf p -> wf (insert_init p) /\ keeps p (insert_init p).
Proof. intros W. apply (walk_wf_prog (fun n => n)); auto. intros. apply init_op_emits. Qed.
Lemma insert_relin_wf p : wf p -> wf (insert_relin p) /\ keeps p (insert_relin p).
Proof. intros W. apply (walk_wf_prog (fun n => n)); auto. intros. apply relin_op_emits. Qed.
Lemma insert_mod_reduce_wf m p : wf p -> wf (insert_mod_reduce m p) /\ keeps p (insert_mod_reduce m p).
Proof.
  intros W. unfold insert_mod_reduce. destruct m as [|first].
  - apply (walk_wf_prog (fun n => n)); auto. intros. apply after_op_emits.
  - destruct (walk _ _ _) as [b n] eqn:Ew.
    destruct (mod_reduce_before _ _ _ _ _) as [[q o] n'] eqn:Em.
    destruct (walk_wf (fun n => n) (before_op (secret p) (depths p) first) (fresh p) p) as (Sb & Le & R); auto.
    { intros. apply before_op_emits. }
    rewrite Ew in Sb, Le, R. cbn in Sb, Le, R.
    destruct (mod_reduce_before_chain _ _ _ _ _ _ _ _ Em) as (C & K).
    destruct W as (Sp & O & Di).
    assert (Bo : forall v, In v (outs p) -> In v (rev (map res b) ++ sargs p ++ pargs p)).
    { intros v Hv. apply O in Hv. rewrite !in_app_iff, <- in_rev, R in *. tauto. }
    split; [split; [|split]; cbn|split; [|split]; cbn]; auto.
    + rewrite ssa_app. split; [easy|].
      eapply chain_ssa; [|eapply chain_mono; [|exact C]].
      * intros v Hv. rewrite in_app_iff, <- in_rev, R in Hv.
        assert (v < fresh p \/ fresh p <= v < n) as [|]; [|lia|lia].
        destruct Hv as [[Hv|Hv]|Hv]; auto.
        -- left. apply in_map_iff in Hv as (i & <- & Hi). apply below_fresh in Hi. tauto.
        -- left. apply fresh_lt. rewrite !in_app_iff in *. tauto.
      * exact Bo.
    + intros v Hv. apply K in Hv as [Hv|Hv].
      * apply Bo in Hv. rewrite map_app, !in_app_iff, <- in_rev in *. tauto.
      * rewrite map_app, !in_app_iff, (chain_res _ _ _ _ _ C). tauto.
    + intros v Hv. rewrite map_app, in_app_iff, R. auto.
Qed.
Lemma handle_cross_level_wf ckks budget p : wf p ->
  wf (fst (handle_cross_level ckks budget p)) /\ keeps p (fst (handle_cross_level ckks budget p)).
Proof.
  intros W. unfold handle_cross_level.
  destruct (walk_wf_prog cl_next (cross_level ckks (secret p)) (Cl (fresh p) 0 (levels budget p)) p) as (H1 & H2); auto.
  { intros. apply cross_level_emits. }
  destruct (walk _ _ _). auto.
Qed.
Lemma handle_cross_depth_wf ckks id p : wf p ->
  wf (handle_cross_depth ckks id p) /\ keeps p (handle_cross_depth ckks id p).
Proof.
  intros W. unfold handle_cross_depth. destruct ckks; [split; [easy|repeat split; auto]|].
  apply (walk_wf_prog md_next); auto. intros. apply cross_depth_emits.
Qed.
