(** Proofs about the range analysis. *)
From Coq Require Import List Bool ZArith QArith Qabs Lia Lqa.
From Verif Require Import Range_Spec Range_Model.
Import ListNotations.
Local Open Scope Q_scope.

Lemma max_l a b : a <= max a b.
Proof. unfold max. destruct (Qle_bool b a) eqn:E; [apply Qle_refl|]. destruct (Qlt_le_dec a b) as [H|H]; [now apply Qlt_le_weak|]. apply Qle_bool_iff in H. congruence. Qed.
Lemma max_r a b : b <= max a b.
Proof. unfold max. destruct (Qle_bool b a) eqn:E; [now apply Qle_bool_iff|apply Qle_refl]. Qed.
Lemma max_same a : max a a = a.
Proof. unfold max. now destruct (Qle_bool a a). Qed.
Lemma bounded_le a b v : a <= b -> bounded a v -> bounded b v.
Proof. intros H B q I. eapply Qle_trans; [now apply B|easy]. Qed.

Lemma max_float_ok l : forall acc m, max_float acc l = Some m -> (forall a, acc = Some a -> a <= m) /\ bounded m l.
Proof.
  induction l as [|q l IH]; intros acc m E; cbn in E.
  - subst acc. split; [intros a [= <-]; apply Qle_refl|intros q []].
  - apply IH in E. destruct E as [A B].
    assert (C : Qabs q <= m /\ forall a, acc = Some a -> a <= m).
    { destruct acc as [a|]; [|split; [now apply A|discriminate]]. destruct (Qle_bool (Qabs q) a) eqn:L.
      - apply Qle_bool_iff in L. specialize (A a eq_refl). split; [now apply Qle_trans with a|now intros b [= <-]].
      - specialize (A _ eq_refl). split; [easy|]. intros b [= <-]. destruct (Qlt_le_dec a (Qabs q)) as [H|H]; [apply Qle_trans with (Qabs q); [now apply Qlt_le_weak|easy]|].
        apply Qle_bool_iff in H. congruence. }
    split; [apply C|]. intros x [<-|I]; [exact (proj1 C)|now apply B].
Qed.
Lemma max_int_ok w l : forall acc m, max_int w acc l = Some m -> (forall a, acc = Some a -> (a <= m)%Z) /\ (forall z, In z l -> (clear_sign_bit w z <= m)%Z).
Proof.
  induction l as [|q l IH]; intros acc m E; cbn in E.
  - subst acc. split; [intros a [= <-]; lia|intros q []].
  - apply IH in E. destruct E as [A B].
    assert (C : (clear_sign_bit w q <= m)%Z /\ forall a, acc = Some a -> (a <= m)%Z).
    { destruct acc as [a|]; [|split; [now apply A|discriminate]]. destruct (Z.leb_spec a (clear_sign_bit w q)) as [L|L]; specialize (A _ eq_refl); split; try lia; intros b [= <-]; lia. }
    split; [apply C|]. intros x [<-|I]; [exact (proj1 C)|now apply B].
Qed.

Lemma constant_ok c q : harmless c -> constant_range c = Range q -> bounded q (constant_value c).
Proof.
  destruct c as [f|z|l|w l|l]; cbn [constant_range constant_value harmless]; intros H E.
  - injection E as <-. intros x [<-|[]]. apply Qle_refl.
  - destruct (z =? - 2 ^ 63)%Z; [discriminate E|]. injection E as <-. intros x [<-|[]]. unfold Qabs, inject_Z, Qle. cbn. lia.
  - destruct (max_float None l) as [m|] eqn:M; [|discriminate E]. injection E as <-. now apply max_float_ok in M.
  - destruct (max_int w None l) as [m|] eqn:M; [|discriminate E]. injection E as <-. apply max_int_ok in M. destruct M as [_ M].
    intros x I. apply in_map_iff in I. destruct I as (z & <- & I). specialize (M z I). specialize (H z I). unfold clear_sign_bit in M. rewrite Z.mod_small in M by easy.
    unfold Qabs, inject_Z, Qle. cbn. lia.
  - discriminate E.
Qed.

Lemma zip_plus p q : forall x y, bounded p x -> bounded q y -> bounded (0 + p + q) (zip_with Qplus x y).
Proof.
  induction x as [|a x IH]; intros [|b y] X Y z I; try easy. cbn in I. destruct I as [<-|I].
  - eapply Qle_trans; [apply Qabs_triangle|]. specialize (X a (or_introl eq_refl)). specialize (Y b (or_introl eq_refl)). lra.
  - apply (IH y); [intros c J; apply X; now right|intros c J; apply Y; now right|easy].
Qed.
Lemma zip_mult p q : forall x y, bounded p x -> bounded q y -> bounded (1 * p * q) (zip_with Qmult x y).
Proof.
  induction x as [|a x IH]; intros [|b y] X Y z I; try easy. cbn in I. destruct I as [<-|I].
  - rewrite Qabs_Qmult. specialize (X a (or_introl eq_refl)). specialize (Y b (or_introl eq_refl)).
    pose proof (Qabs_nonneg a). pose proof (Qabs_nonneg b). setoid_replace (1 * p * q) with (p * q) by ring.
    apply Qle_trans with (p * Qabs b); [now apply Qmult_le_compat_r|]. rewrite !(Qmult_comm p). apply Qmult_le_compat_r; [easy|]. lra.
  - apply (IH y); [intros c J; apply X; now right|intros c J; apply Y; now right|easy].
Qed.

(** States only gain ranges *)
Definition below (s t : states) : Prop := forall v, s v <> None -> t v <> None.
Lemma first_below s t l : below s t -> first_initialized s l <> None -> first_initialized t l <> None.
Proof.
  intros B. induction l as [|v l IH]; [easy|]. cbn. intros H. destruct (t v) eqn:T; [easy|]. destruct (s v) eqn:S; [|now apply IH].
  exfalso. apply (B v); [now rewrite S|easy].
Qed.
Lemma fold_join_none (s : states) l : forall a, fold_left (fun s0 v => join s0 (s v)) l a <> None <-> (a <> None \/ exists v, In v l /\ s v <> None).
Proof.
  induction l as [|v l IH]; intros a; cbn [fold_left].
  - split; [now left|]. now intros [H|(v & [] & _)].
  - rewrite IH. split.
    + intros [H|(w & I & N)]; [|right; exists w; split; [now right|easy]].
      destruct a as [q|]; [left; discriminate|]. right. exists v. split; [now left|]. cbn in H. easy.
    + intros [H|(w & [<-|I] & N)].
      * left. destruct a; [|easy]. cbn. destruct (s v); discriminate.
      * left. destruct a, (s v); cbn; easy.
      * right. now exists w.
Qed.
Definition gives_range (o : outcome) : Prop := match o with Range _ => True | _ => False end.
Lemma of_state_range s : gives_range (of_state s) <-> s <> None.
Proof. destruct s; cbn; easy. Qed.
Lemma transfer_below input s t o : below s t -> gives_range (transfer input s o) -> gives_range (transfer input t o).
Proof.
  intros B. destruct o as [|a b|a b|c|a|a b|l|l]; cbn [transfer]; try easy.
  - destruct (s a) eqn:A, (s b) eqn:C; try easy. intros _. pose proof (B a) as Ba. pose proof (B b) as Bb. rewrite A in Ba. rewrite C in Bb.
    destruct (t a), (t b); cbn; try easy; exfalso; (now apply Ba) || (now apply Bb).
  - destruct (s a) eqn:A, (s b) eqn:C; try easy. intros _. pose proof (B a) as Ba. pose proof (B b) as Bb. rewrite A in Ba. rewrite C in Bb.
    destruct (t a), (t b); cbn; try easy; exfalso; (now apply Ba) || (now apply Bb).
  - rewrite !of_state_range. apply B.
  - destruct (s a) eqn:A, (s b) eqn:C; try easy. intros _. pose proof (B a) as Ba. pose proof (B b) as Bb. rewrite A in Ba. rewrite C in Bb.
    destruct (t a), (t b); cbn; try easy; exfalso; (now apply Ba) || (now apply Bb).
  - rewrite !of_state_range. now apply first_below.
  - rewrite !of_state_range, !fold_join_none. intros [H|(v & I & N)]; [easy|]. right. exists v. split; [easy|]. now apply B.
Qed.
Lemma visit_below input s v o t : visit input s v o = Some t -> below s t.
Proof.
  unfold visit. destruct (transfer input s o); [discriminate| |]; intros [= <-]; intros w; [easy|]. destruct (Nat.eqb_spec w v) as [->|]; [|easy].
  intros H. destruct (s v); [discriminate|easy].
Qed.
Lemma visited_supported input program st : visited input program st -> forall v, st v <> None -> exists o, nth_error program v = Some o /\ gives_range (transfer input st o).
Proof.
  intros H. induction H as [|st st' v o H IH Eo Ev]; [easy|]. intros w N.
  pose proof (visit_below _ _ _ _ _ Ev) as B. destruct (st w) eqn:W.
  - destruct (IH w) as (o' & E' & G); [now rewrite W|]. exists o'. split; [easy|]. now apply (transfer_below input st).
  - destruct (Nat.eqb_spec w v) as [->|Nw].
    + exists o. split; [easy|]. apply (transfer_below input st); [easy|]. unfold visit in Ev. destruct (transfer input st o) eqn:T; [discriminate Ev| |easy].
      injection Ev as <-. congruence.
    + exfalso. apply N. unfold visit in Ev. destruct (transfer input st o); [discriminate Ev| |]; injection Ev as <-; [easy|].
      destruct (Nat.eqb_spec w v); easy.
Qed.
Lemma stable_bound input program st v o q : stable input program st -> nth_error program v = Some o -> transfer input st o = Range q -> exists b, st v = Some b /\ q <= b.
Proof.
  intros S E T. destruct (S v o E) as (st' & V & H). unfold visit in V. rewrite T in V. injection V as <-. specialize (H v). cbn in H. rewrite Nat.eqb_refl in H.
  destruct (st v) as [b|]; cbn in H; [|easy]. exists b. split; [easy|]. rewrite <- H. apply max_r.
Qed.

Lemma first_split st l q : first_initialized st l = Some q -> exists pre a post, l = pre ++ a :: post /\ (forall p, In p pre -> st p = None) /\ st a = Some q.
Proof.
  induction l as [|v l IH]; [discriminate|]. cbn. destruct (st v) as [p|] eqn:E.
  - intros [= ->]. exists [], v, l. split; [easy|]. now split.
  - intros H. destruct (IH H) as (pre & a & post & -> & N & A). exists (v :: pre), a, post. split; [easy|]. split; [|easy]. intros p [<-|I]; auto.
Qed.
Lemma values_nth e l : forall xs i a, values e l = Some xs -> nth_error l i = Some a -> e a = Some (nth i xs []).
Proof.
  induction l as [|v l IH]; intros xs i a E N; [destruct i; discriminate N|]. cbn in E. destruct (e v) as [x|] eqn:Ev; [|discriminate E].
  destruct (values e l) as [m|] eqn:El; [|discriminate E]. injection E as <-. destruct i as [|i]; cbn in N |- *; [congruence|]. now apply IH.
Qed.
Lemma fold_join_bound (st : states) l : forall acc b, fold_left (fun s v => join s (st v)) l acc = Some b ->
  (forall a, acc = Some a -> a <= b) /\ (forall v q, In v l -> st v = Some q -> q <= b).
Proof.
  induction l as [|v l IH]; intros acc b E; cbn in E.
  - subst acc. split; [intros a [= <-]; apply Qle_refl|easy].
  - apply IH in E. destruct E as [A B].
    assert (C : (forall a, acc = Some a -> a <= b) /\ (forall q, st v = Some q -> q <= b)).
    { destruct acc as [a|], (st v) as [q|]; cbn in A; split; intros x [= <-]; try (now apply A); (eapply Qle_trans; [|apply (A _ eq_refl)]); [apply max_l|apply max_r]. }
    split; [apply C|]. intros w q [<-|I] Eq; [now apply C|now apply (B w)].
Qed.

Section Sound.
  Variables (input : Q) (program : list op) (other : nat -> list value -> value -> Prop) (st : states).
  Hypothesis V : visited input program st.
  Hypothesis S : stable input program st.
  Hypothesis HC : forall v c, nth_error program v = Some (Const c) -> harmless c.
  Hypothesis HM : forall v l a, nth_error program v = Some (Merge l) -> In a l -> st a <> None.
  Hypothesis HO : forall v pre a post xs z b, nth_error program v = Some (Other (pre ++ a :: post)) -> (forall p, In p pre -> st p = None) -> st a <> None ->
    other v xs z -> bounded b (nth (length pre) xs []) -> bounded b z.
  Lemma sound e : reached program input other e -> forall v x b, e v = Some x -> st v = Some b -> bounded b x.
  Proof.
    intros R. induction R as [|e v o y R IH Eo G]; [discriminate|]. intros w x b Ew Sw. unfold store in Ew.
    destruct (Nat.eqb_spec w v) as [->|N]; [|now apply (IH w)]. injection Ew as <-.
    destruct (visited_supported input program st V v) as (o' & Eo' & Gr); [now rewrite Sw|]. rewrite Eo in Eo'. injection Eo' as <-.
    destruct (transfer input st o) as [| |q] eqn:T; [easy|easy|]. destruct (stable_bound input program st v o q S Eo T) as (b' & Sb & L). rewrite Sw in Sb. injection Sb as <-.
    apply bounded_le with q; [easy|]. clear L Gr Sw b.
    destruct G as [x Hx|a c x y Ea Ec|a c x y Ea Ec|c|a x Ea|s d x y z Es Ed Hz|l xs z Ev Hz|l a x I Ea]; cbn [transfer] in T.
    - injection T as <-. easy.
    - destruct (st a) as [p|] eqn:A, (st c) as [r|] eqn:C; try discriminate T. injection T as <-. apply zip_plus; [now apply (IH a)|now apply (IH c)].
    - destruct (st a) as [p|] eqn:A, (st c) as [r|] eqn:C; try discriminate T. injection T as <-. apply zip_mult; [now apply (IH a)|now apply (IH c)].
    - apply constant_ok; [now apply (HC v)|easy].
    - destruct (st a) eqn:A; [|discriminate T]. injection T as <-. now apply (IH a).
    - destruct (st s) as [p|] eqn:A, (st d) as [r|] eqn:C; try discriminate T. cbn in T. injection T as <-. intros u Iu. apply Hz in Iu. destruct Iu as [Iu|Iu].
      + eapply Qle_trans; [apply (IH s x p Es A u Iu)|apply max_l].
      + eapply Qle_trans; [apply (IH d y r Ed C u Iu)|apply max_r].
    - destruct (first_initialized st l) as [p|] eqn:F; [|discriminate T]. injection T as <-.
      destruct (first_split st l p F) as (pre & a & post & -> & Np & A).
      apply (HO v pre a post xs z p Eo Np); [now rewrite A|easy|]. apply (IH a); [|easy]. apply (values_nth e (pre ++ a :: post)); [easy|].
      rewrite nth_error_app2, Nat.sub_diag by lia. reflexivity.
    - destruct (fold_left (fun s v => join s (st v)) l None) as [p|] eqn:F; [|discriminate T]. injection T as <-. apply fold_join_bound in F. destruct F as [_ F].
      pose proof (HM v l a Eo I) as K. destruct (st a) as [r|] eqn:A; [|easy]. apply bounded_le with r; [now apply (F a)|now apply (IH a)].
  Qed.
End Sound.

(** ** A single pass *)
Lemma first_ext s t l : (forall v, In v l -> s v = t v) -> first_initialized s l = first_initialized t l.
Proof. induction l as [|v l IH]; intros H; [easy|]. cbn. rewrite (H v) by now left. destruct (t v); [easy|]. apply IH. intros w I. apply H. now right. Qed.
Lemma fold_ext (s t : states) l : (forall v, In v l -> s v = t v) -> forall a, fold_left (fun s0 v => join s0 (s v)) l a = fold_left (fun s0 v => join s0 (t v)) l a.
Proof. induction l as [|v l IH]; intros H a; [easy|]. cbn. rewrite (H v) by now left. apply IH. intros w I. apply H. now right. Qed.
Lemma transfer_ext input s t o : (forall v, In v (operands o) -> s v = t v) -> transfer input s o = transfer input t o.
Proof.
  intros H. destruct o as [|a b|a b|c|a|a b|l|l]; cbn [transfer operands] in *; try reflexivity.
  - rewrite (H a), (H b); [easy|right; now left|now left].
  - rewrite (H a), (H b); [easy|right; now left|now left].
  - rewrite (H a); [easy|now left].
  - rewrite (H a), (H b); [easy|right; now left|now left].
  - now rewrite (first_ext s t).
  - now rewrite (fold_ext s t).
Qed.
Lemma visit_other input s v o t w : visit input s v o = Some t -> w <> v -> t w = s w.
Proof. unfold visit. destruct (transfer input s o); [discriminate| |]; intros [= <-] N; [easy|]. destruct (Nat.eqb_spec w v); easy. Qed.
Lemma pass_ok input program : in_order program -> forall l done st st', program = done ++ l -> visited input program st ->
  (forall v, (length done <= v)%nat -> st v = None) ->
  (forall v o, (v < length done)%nat -> nth_error program v = Some o -> match transfer input st o with Crash => False | Nothing => st v = None | Range q => st v = Some q end) ->
  pass input st (length done) l = Some st' -> visited input program st' /\ stable input program st'.
Proof.
  intros O. induction l as [|o l IH]; intros done st st' E Vs Hn Hd P.
  - cbn in P. injection P as <-. split; [easy|]. rewrite app_nil_r in E. subst done. intros v o Ev. assert (Lv : (v < length program)%nat) by (apply nth_error_Some; congruence).
    specialize (Hd v o Lv Ev). unfold visit. destruct (transfer input st o) as [| |q]; [easy|exists st; split; [easy|]; intros w; destruct (st w); cbn; [apply Qeq_refl|easy]|].
    eexists. split; [reflexivity|]. intros w. cbn. destruct (Nat.eqb_spec w v) as [->|]; [rewrite Hd; cbn; rewrite max_same; apply Qeq_refl|].
    destruct (st w); cbn; [apply Qeq_refl|easy].
  - cbn [pass] in P. destruct (visit input st (length done) o) as [st1|] eqn:V1; [|discriminate P].
    assert (En : nth_error program (length done) = Some o) by (rewrite E, nth_error_app2, Nat.sub_diag by lia; reflexivity).
    replace (S (length done)) with (length (done ++ [o])) in P by (rewrite app_length; cbn; lia).
    apply (IH (done ++ [o]) st1 st'); [now rewrite <- app_assoc|now apply (visited_step input program st st1 (length done) o)| | |easy].
    + intros v Lv. rewrite app_length in Lv. cbn in Lv. rewrite (visit_other _ _ _ _ _ v V1) by lia. apply Hn. lia.
    + intros v o' Lv Ev. rewrite app_length in Lv. cbn in Lv.
      assert (T : transfer input st1 o' = transfer input st o').
      { apply transfer_ext. intros w Iw. apply (visit_other _ _ _ _ _ w V1). specialize (O v o' Ev w Iw). lia. }
      rewrite T. destruct (Nat.eq_dec v (length done)) as [->|Nv].
      * rewrite En in Ev. injection Ev as <-. unfold visit in V1. destruct (transfer input st o) as [| |q]; [discriminate V1|injection V1 as <-; now apply Hn|].
        injection V1 as <-. rewrite Nat.eqb_refl, Hn by lia. reflexivity.
      * specialize (Hd v o' ltac:(lia) Ev). now rewrite (visit_other _ _ _ _ _ v V1) by easy.
Qed.
