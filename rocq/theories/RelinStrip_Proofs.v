(** Removing the relinearizations keeps the program and what it computes in the clear. *)
From Coq Require Import List Bool Arith Lia QArith Lqa.
From Verif Require Import Relin_Model Relin_Spec Relin_Proofs.
Import ListNotations.
Local Open Scope nat_scope.

Lemma lookups_rel {A} (e eQ : nat -> option A) s av vs : (forall v, In v av -> e v = eQ (s v)) -> incl vs av ->
  lookups e vs = lookups eQ (map s vs).
Proof.
  induction vs as [|v vs IH]; intros R I; cbn; auto. rewrite (R v) by (apply I; left; auto). rewrite IH; auto. intros u Hu; apply I; right; auto.
Qed.

Section Strip.
  Variable sec : nat -> bool.

  Record inv (av avQ : list nat) (s : nat -> nat) : Prop := {
    i_in : forall v, In v av -> In (s v) avQ;
    i_sec : forall v, In v av -> sec (s v) = sec v;
    i_sub : incl avQ av;
    i_id : forall v, ~ In v av -> s v = v
  }.
  Lemma inv_defs av avQ s res : inv av avQ s -> (forall r, In r res -> ~ In r av) -> inv (res ++ av) (res ++ avQ) s.
  Proof.
    intros [A B C E] F. split.
    - intros v Hv. apply in_or_app. apply in_app_or in Hv. destruct Hv as [Hv|Hv]; [left; rewrite E; auto|right; auto].
    - intros v Hv. apply in_app_or in Hv. destruct Hv as [Hv|Hv]; [rewrite E; auto|auto].
    - intros v Hv. apply in_or_app. apply in_app_or in Hv. destruct Hv as [Hv|Hv]; auto.
    - intros v Hv. apply E. intros H. apply Hv, in_or_app. auto.
  Qed.
  Lemma inv_relin av avQ s a r : inv av avQ s -> In a av -> ~ In r av -> sec r = sec a -> inv (r :: av) avQ (upd s r (s a)).
  Proof.
    intros [A B C E] Ha Hr Sr. unfold upd. split.
    - intros v [<-|Hv]; [rewrite Nat.eqb_refl; auto|]. destruct (Nat.eqb_spec v r); auto.
    - intros v [<-|Hv]; [rewrite Nat.eqb_refl, B; auto|]. destruct (Nat.eqb_spec v r); auto. subst; tauto.
    - intros v Hv. right; auto.
    - intros v Hv. destruct (Nat.eqb_spec v r); [subst; exfalso; apply Hv; left; auto|]. apply E. intros H. apply Hv. right; auto.
  Qed.
  Lemma incl_map av avQ s vs : inv av avQ s -> incl vs av -> incl (map s vs) avQ.
  Proof. intros I H v Hv. apply in_map_iff in Hv. destruct Hv as (u & <- & Hu). apply (i_in _ _ _ I); auto. Qed.
  Lemma subst_fst s args : map fst (subst s args) = map s (map fst args).
  Proof. unfold subst. rewrite !map_map. auto. Qed.
  Lemma existsb_subst av avQ s args : inv av avQ s -> incl (map fst args) av ->
    existsb (fun p => sec (fst p)) (subst s args) = existsb (fun p => sec (fst p)) args.
  Proof.
    intros I. unfold subst. induction args as [|[a fl] args IH]; intros H; cbn; auto.
    rewrite (i_sec _ _ _ I) by (apply H; left; auto). rewrite IH; auto. intros u Hu; apply H; right; auto.
  Qed.
  Lemma combine_map (s : nat -> nat) : forall l l' : list nat, combine (map s l) l' = map (fun p => (s (fst p), snd p)) (combine l l').
  Proof. induction l as [|a l IH]; intros [|b l']; cbn; auto. rewrite IH. auto. Qed.
  Lemma in_combine_map (s : nat -> nat) (a b : nat) (l l' : list nat) : In (a, b) (combine (map s l) l') -> exists a0, a = s a0 /\ In (a0, b) (combine l l').
  Proof. rewrite combine_map, in_map_iff. intros ([a0 b0] & [= <- <-] & H). eauto. Qed.

  Lemma strip_not_relin s k f args res c : k <> KRelin -> strip s (Do k f args res c) =
    (Do k f (subst s args) res (fst (strip s c)), snd (strip s c)).
  Proof. intros NK. cbn. destruct (strip s c). destruct k; try congruence; reflexivity. Qed.
  Lemma strip_relin s f a fl r c : strip s (Do KRelin f [(a, fl)] [r] c) = strip (upd s r (s a)) c.
  Proof. reflexivity. Qed.
  Lemma strip_for s t inits bargs body ys res c : strip s (For t inits bargs body ys res c) =
    (For t (map s inits) bargs (fst (strip s body)) (map (snd (strip s body)) ys) res (fst (strip s c)), snd (strip s c)).
  Proof. cbn. destruct (strip s body), (strip s c). reflexivity. Qed.

  Lemma strip_static c : forall av avQ s, wf av c -> secretness sec c -> inv av avQ s ->
    wf avQ (fst (strip s c)) /\ secretness sec (fst (strip s c)) /\ norelin (fst (strip s c)) /\
    inv (defs c ++ av) (defs (fst (strip s c)) ++ avQ) (snd (strip s c)).
  Proof.
    induction c as [|k f args res c IHc|t inits bargs body IHb ys res c IHc]; intros av avQ s W SC I; [cbn; auto|..].
    - cbn [wf secretness] in W, SC. destruct W as (W1 & W2 & W3 & W4 & W5). destruct SC as [SR SC].
      destruct (Bool.bool_dec (match k with KRelin => true | _ => false end) true) as [K|K].
      + destruct k; try discriminate. destruct W4 as [L1 L2]. destruct args as [|[a fl] [|]]; try discriminate. destruct res as [|r [|]]; try discriminate.
        rewrite strip_relin. assert (Ha : In a av) by (apply W1; left; auto). assert (Hr : ~ In r av) by (apply W3; left; auto).
        assert (Sr : sec r = sec a) by (rewrite (SR r) by (left; auto); cbn; apply orb_false_r).
        destruct (IHc _ _ _ W5 SC (inv_relin _ _ _ a r I Ha Hr Sr)) as (A & B & C & E).
        cbn [defs]. rewrite <- app_assoc. auto.
      + assert (NK : k <> KRelin) by (intros ->; auto). rewrite strip_not_relin by auto. cbn [fst snd wf secretness norelin defs].
        destruct (IHc _ _ _ W5 SC (inv_defs _ _ _ res I W3)) as (A & B & C & E). repeat split; auto.
        * rewrite subst_fst. eapply incl_map; eauto.
        * intros r Hr H. apply (W3 r Hr). apply (i_sub _ _ _ I); auto.
        * unfold subst. rewrite map_length. destruct k; auto.
        * intros r Hr. rewrite (SR r Hr). symmetry. eapply existsb_subst; eauto.
        * rewrite <- !app_assoc. auto. apply E.
        * rewrite <- !app_assoc. apply E.
        * rewrite <- !app_assoc. apply E.
        * rewrite <- !app_assoc. apply E.
    - cbn [wf secretness] in W, SC. destruct W as (W1 & W2 & W3 & W4 & W5 & W6 & W7 & W8 & W9 & W10 & W11). destruct SC as (SF & SB & SC).
      rewrite strip_for. cbn [fst snd wf secretness norelin defs]. rewrite !map_length.
      destruct (IHb _ _ _ W9 SB (inv_defs _ _ _ bargs I W7)) as (Ab & Bb & Cb & Eb).
      destruct (IHc _ _ _ W11 SC (inv_defs _ _ _ res I W8)) as (A & B & C & E).
      split; [|split; [|split]].
      + repeat split; auto.
        * eapply incl_map; eauto.
        * intros r Hr H. apply (W7 r Hr). apply (i_sub _ _ _ I); auto.
        * intros r Hr H. apply (W8 r Hr). apply (i_sub _ _ _ I); auto.
        * eapply incl_map; eauto.
      + repeat split; auto. intros a b Hab Sa. rewrite !in_app_iff in Hab.
        assert (INI : forall a0 l, In (a0, b) (combine inits l) -> In a0 inits) by (intros a0 l H; eapply in_combine_l; eauto).
        assert (INY : forall a0 l, In (a0, b) (combine ys l) -> In a0 ys) by (intros a0 l H; eapply in_combine_l; eauto).
        destruct Hab as [H|[H|[H|H]]]; apply in_combine_map in H; destruct H as (a0 & -> & H).
        * rewrite (i_sec _ _ _ I) in Sa by eauto. apply (SF a0 b); auto. rewrite !in_app_iff. auto.
        * rewrite (i_sec _ _ _ Eb) in Sa by (apply W10; eauto). apply (SF a0 b); auto. rewrite !in_app_iff. auto.
        * rewrite (i_sec _ _ _ I) in Sa by eauto. apply (SF a0 b); auto. rewrite !in_app_iff. auto.
        * rewrite (i_sec _ _ _ Eb) in Sa by (apply W10; eauto). apply (SF a0 b); auto. rewrite !in_app_iff. auto.
      + auto.
      + rewrite <- !app_assoc. auto.
  Qed.

  Variable D : Type.
  Variable ev : nat -> list D -> list D.
  Notation plain := (plain D ev).
  Definition same (av : list nat) (s : nat -> nat) (e eQ : nat -> option D) : Prop := forall v, In v av -> e v = eQ (s v).

  Lemma same_assign av avQ s res : forall xs e eQ e', inv av avQ s -> same av s e eQ -> NoDup res -> (forall r, In r res -> ~ In r av) ->
    assign res xs e = Some e' -> exists eQ', assign res xs eQ = Some eQ' /\ same (res ++ av) s e' eQ'.
  Proof.
    intros xs e eQ e' I S N F A. destruct (assign_some res xs eQ) as (eQ' & A'); [apply (assign_length _ _ _ _ A)|].
    exists eQ'. split; auto. destruct (assign_spec _ _ _ _ N A) as [A1 A2]. destruct (assign_spec _ _ _ _ N A') as [B1 B2].
    intros v Hv. destruct (in_dec Nat.eq_dec v res) as [H|H].
    - rewrite (i_id _ _ _ I) by auto. clear - A1 B1 H. revert H. induction A1; intros H'; [destruct H'|]. inversion B1; subst.
      destruct H' as [<-|H']; [congruence|auto].
    - apply in_app_or in Hv. destruct Hv as [Hv|Hv]; [tauto|]. rewrite A2, B2; auto.
      intros C. apply (F _ C). apply (i_sub _ _ _ I). apply (i_in _ _ _ I). auto.
  Qed.

  Lemma strip_plain c : forall av avQ s e eQ e', wf av c -> secretness sec c -> inv av avQ s -> same av s e eQ -> plain c e = Some e' ->
    exists eQ', plain (fst (strip s c)) eQ = Some eQ' /\ same (defs c ++ av) (snd (strip s c)) e' eQ'.
  Proof.
    induction c as [|k f args res c IHc|t inits bargs body IHb ys res c IHc]; intros av avQ s e eQ e' W SC I S P.
    - cbn in *. injection P as <-. eauto.
    - cbn [wf secretness] in W, SC. destruct W as (W1 & W2 & W3 & W4 & W5). destruct SC as [SR SC].
      cbn [Relin_Spec.plain] in P. destruct (lookups e (map fst args)) as [xs|] eqn:L; cbn [bind] in P; [|discriminate].
      pose proof (lookups_rel e eQ s av (map fst args) S W1) as LQ. rewrite L in LQ.
      destruct (Bool.bool_dec (match k with KRelin => true | _ => false end) true) as [K|K].
      + destruct k; try discriminate. destruct W4 as [L1 L2]. destruct args as [|[a fl] [|]]; try discriminate. destruct res as [|r [|]]; try discriminate.
        rewrite strip_relin. assert (Ha : In a av) by (apply W1; left; auto). assert (Hr : ~ In r av) by (apply W3; left; auto).
        assert (Sr : sec r = sec a) by (rewrite (SR r) by (left; auto); cbn; apply orb_false_r).
        cbn [map fst] in L. apply lookups_cons in L. destruct L as (y & ys & Ea & L & ->). cbn in L. injection L as <-.
        cbn [assign bind] in P.
        assert (S1 : same ([r] ++ av) (upd s r (s a)) (fun u => if u =? r then Some y else e u) eQ).
        { intros v Hv. unfold upd. destruct (Nat.eqb_spec v r).
          - rewrite <- S; auto.
          - apply S. destruct Hv as [Hv|Hv]; [congruence|auto]. }
        destruct (IHc _ _ _ _ _ _ W5 SC (inv_relin _ _ _ a r I Ha Hr Sr) S1 P) as (eQ' & P' & S').
        exists eQ'. cbn [defs]. rewrite <- app_assoc. auto.
      + assert (NK : k <> KRelin) by (intros ->; auto). rewrite strip_not_relin by auto. cbn [fst snd Relin_Spec.plain defs].
        rewrite subst_fst, <- LQ. cbn [bind].
        destruct (assign res (match k with KRelin => xs | _ => ev f xs end) e) as [e1|] eqn:A; cbn [bind] in P; [|discriminate].
        destruct (same_assign _ _ _ _ _ _ _ _ I S W2 W3 A) as (eQ1 & A' & S1). rewrite A'. cbn [bind].
        destruct (IHc _ _ _ _ _ _ W5 SC (inv_defs _ _ _ res I W3) S1 P) as (eQ' & P' & S'). exists eQ'. rewrite <- app_assoc. auto.
    - cbn [wf secretness] in W, SC. destruct W as (W1 & W2 & W3 & W4 & W5 & W6 & W7 & W8 & W9 & W10 & W11). destruct SC as (SF & SB & SC).
      rewrite strip_for. cbn [fst snd Relin_Spec.plain defs] in *.
      destruct (lookups e inits) as [xs|] eqn:L; cbn [bind] in P; [|discriminate].
      pose proof (lookups_rel e eQ s av inits S W1) as LQ. rewrite L in LQ. rewrite <- LQ. cbn [bind].
      pose proof (inv_defs _ _ _ bargs I W7) as Ib.
      assert (IT : forall t' zs, Nat.iter t' (fun o => bind o (fun ws => bind (assign bargs ws e) (fun e1 => bind (plain body e1) (fun e2 => lookups e2 ys)))) (Some xs) = Some zs ->
        Nat.iter t' (fun o => bind o (fun ws => bind (assign bargs ws eQ) (fun e1 => bind (plain (fst (strip s body)) e1) (fun e2 => lookups e2 (map (snd (strip s body)) ys))))) (Some xs) = Some zs).
      { clear P. induction t' as [|t' IHt]; intros zs P; [auto|]. rewrite iter_S in P. rewrite iter_S.
        match type of P with bind ?o _ = _ => destruct o as [zs0|] eqn:E0; cbn [bind] in P; [|discriminate] end.
        rewrite (IHt zs0 eq_refl). cbn [bind].
        destruct (assign bargs zs0 e) as [e1|] eqn:A1; cbn [bind] in P; [|discriminate].
        destruct (plain body e1) as [e2|] eqn:PB; cbn [bind] in P; [|discriminate].
        destruct (same_assign _ _ _ _ _ _ _ _ I S W2 W7 A1) as (eQ1 & A' & S1). rewrite A'. cbn [bind].
        destruct (IHb _ _ _ _ _ _ W9 SB Ib S1 PB) as (eQ2 & P' & S'). rewrite P'. cbn [bind].
        rewrite <- P. symmetry. eapply lookups_rel; eauto. }
      destruct (Nat.iter t _ (Some xs)) as [zs|] eqn:E0; cbn [bind] in P; [|discriminate].
      rewrite (IT t zs E0). cbn [bind].
      destruct (assign res zs e) as [e1|] eqn:A; cbn [bind] in P; [|discriminate].
      destruct (same_assign _ _ _ _ _ _ _ _ I S W3 W8 A) as (eQ1 & A' & S1). rewrite A'. cbn [bind].
      destruct (IHc _ _ _ _ _ _ W11 SC (inv_defs _ _ _ res I W8) S1 P) as (eQ' & P' & S'). exists eQ'. rewrite <- app_assoc. auto.
  Qed.
End Strip.
