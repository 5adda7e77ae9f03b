(** Condensation of the strongly connected components. *)
From Coq Require Import List Bool Arith Lia Sorted Permutation Relations.
From Verif Require Import Graph_Model Graph_Proofs Graph5_Proofs Graph6_Proofs.
Import ListNotations.
Open Scope nat_scope.

Section Condense.
Variable g0 : graph.
Hypothesis W0 : wf g0.
Hypothesis loop_free : forall v, ~ In v (outE g0 v).
Notation E0 := (fun x y => In y (outE g0 x)).
Notation R0 := (clos_refl_trans nat E0).
Definition mutual (x y : nat) : Prop := R0 x y /\ R0 y x.
Lemma mutual_refl x : mutual x x. Proof. split; apply rt_refl. Qed.
Lemma mutual_sym x y : mutual x y -> mutual y x. Proof. unfold mutual. tauto. Qed.
Lemma mutual_trans x y z : mutual x y -> mutual y z -> mutual x z.
Proof. intros [A B] [C D]. split; eapply rt_trans; eauto. Qed.

(** the current graph is the quotient of the first by [rep] *)
Record quot (g : graph) (rep : nat -> nat) : Prop := {
  q_wf : wf g;
  q_verts : forall v, In v (verts g) <-> In v (verts g0) /\ rep v = v;
  q_rep : forall v, In v (verts g0) -> In (rep v) (verts g);
  q_mut : forall v, mutual v (rep v);
  q_edge : forall x y, In y (outE g x) <-> x <> y /\ exists u v, rep u = x /\ rep v = y /\ E0 u v }.
Lemma quot_id : quot g0 (fun v => v).
Proof.
  split; auto; try tauto; [intros; apply mutual_refl|]. intros x y. split.
  - intros H. split; [intros ->; apply (loop_free y H)|]. exists x, y. auto.
  - intros (_ & u & v & -> & -> & H). exact H.
Qed.
Lemma quot_contract g rep u v : quot g rep -> In v (outE g u) -> mutual u v ->
  quot (snd (contract_edge u v g)) (fun w => if rep w =? v then u else rep w).
Proof.
  intros Q He Hm. destruct (contract_ok u v g (q_wf _ _ Q) He) as (W' & V' & O').
  assert (Huv : u <> v) by (apply (q_edge _ _ Q) in He; tauto).
  destruct (wf_incl g (q_wf _ _ Q) _ _ He) as [Vu Vv]. assert (Vu' := Vu). assert (Vv' := Vv). apply (q_verts _ _ Q) in Vu, Vv.
  split; auto.
  - intros w. rewrite V', (q_verts _ _ Q). destruct (Nat.eqb_spec (rep w) v) as [Hw|Hw].
    + split; [intros [[_ A] B]; congruence|]. intros [A <-]. destruct Vu as [_ X]. congruence.
    + split; [tauto|]. intros [A B]. split; auto. congruence.
  - intros w Hw. apply V'. destruct (Nat.eqb_spec (rep w) v); [auto|]. split; auto. apply (q_rep _ _ Q); auto.
  - intros w. destruct (Nat.eqb_spec (rep w) v) as [<-|]; [|apply (q_mut _ _ Q)]. eapply mutual_trans; [apply (q_mut _ _ Q)|apply mutual_sym; auto].
  - assert (Er : forall w x, x <> v -> ((if rep w =? v then u else rep w) = x <-> rep w = x \/ (x = u /\ rep w = v))).
    { intros w x Hx. destruct (Nat.eqb_spec (rep w) v); intuition congruence. }
    intros x y. rewrite O', !(q_edge _ _ Q). split.
    + intros (Hx & Hy & [(Hne & a & b & A & B & C)|[(-> & Hne & Hvy & a & b & A & B & C)|(-> & Hne & Hxv & a & b & A & B & C)]]).
      * split; auto. exists a, b. rewrite !Er by auto. auto.
      * split; auto. exists a, b. rewrite !Er by auto. auto.
      * split; auto. exists a, b. rewrite !Er by auto. auto.
    + intros (Hne & a & b & A & B & C).
      assert (Hx : x <> v) by (intros ->; destruct (Nat.eqb_spec (rep a) v); congruence).
      assert (Hy : y <> v) by (intros ->; destruct (Nat.eqb_spec (rep b) v); congruence).
      split; auto. split; auto. apply Er in A; auto. apply Er in B; auto.
      destruct A as [A|[-> A]], B as [B|[-> B]].
      * left. split; auto. exists a, b. auto.
      * right. right. split; auto. split; auto. split; auto. exists a, b. auto.
      * right. left. split; auto. split; auto. split; auto. exists a, b. auto.
      * contradiction.
Qed.

(** one component *)
Section Component.
Variable C : list nat.
Hypothesis HC : comp g0 C.
Hypothesis CV : incl C (verts g0).
Lemma C_mutual x y : In x C -> (In y C <-> mutual x y).
Proof. intros Hx. destruct HC as (_ & _ & H). apply H. auto. Qed.
Record state (g : graph) (alive : list nat) (rep : nat -> nat) : Prop := {
  s_quot : quot g rep;
  s_sorted : StronglySorted lt alive;
  s_alive : forall v, In v alive <-> In v C /\ rep v = v }.
(** vertices outside are not moved *)
Definition outside (rep rep' : nat -> nat) : Prop := forall v, ~ In v C -> rep' v = rep v.
Lemma alive_in g alive rep v : state g alive rep -> In v C -> In (rep v) alive.
Proof.
  intros S Hv. pose proof (s_quot _ _ _ S) as Q. apply (s_alive _ _ _ S). split; [apply (C_mutual v); auto; apply (q_mut _ _ Q)|].
  pose proof (q_rep _ _ Q v (CV v Hv)) as X. apply (q_verts _ _ Q) in X. tauto.
Qed.
Lemma state_contract g alive rep u v : state g alive rep -> In u alive -> In v alive -> In v (outE g u) ->
  exists rep', state (snd (contract_edge u v g)) (set_erase v alive) rep' /\ outside rep rep' /\ u <> v.
Proof.
  intros S Hu Hv He. pose proof (s_quot _ _ _ S) as Q. assert (Hu' := Hu). assert (Hv' := Hv). apply (s_alive _ _ _ S) in Hu, Hv.
  assert (M : mutual u v) by (apply C_mutual; tauto).
  assert (Huv : u <> v) by (apply (q_edge _ _ Q) in He; tauto).
  exists (fun w => if rep w =? v then u else rep w). split; [|split; auto].
  - split; [apply quot_contract; auto|apply set_erase_sorted; apply (s_sorted _ _ _ S)|].
    intros w. rewrite set_erase_In, (s_alive _ _ _ S). destruct (Nat.eqb_spec (rep w) v) as [Hw|Hw].
    + split; [intros [[_ A] B]; congruence|]. intros [A <-]. destruct Hu as [_ X]. congruence.
    + split; [tauto|]. intros [A B]. split; auto. congruence.
  - intros w Hw. destruct (Nat.eqb_spec (rep w) v) as [Hr|]; auto. exfalso. apply Hw. apply (C_mutual v); [tauto|]. rewrite <- Hr. apply mutual_sym, (q_mut _ _ Q).
Qed.
Lemma outside_trans r r' r'' : outside r r' -> outside r' r'' -> outside r r''.
Proof. intros A B v Hv. rewrite B by auto. apply A; auto. Qed.
Lemma erase_length v l : StronglySorted lt l -> In v l -> S (length (set_erase v l)) = length l.
Proof.
  induction 1 as [|a l H IH HF]; intros Hv; [destruct Hv|]. cbn. destruct (Nat.eqb_spec a v) as [->|Hne]; cbn [negb].
  - f_equal. rewrite Forall_forall in HF. clear -HF. induction l as [|b l IH]; auto. cbn. destruct (Nat.eqb_spec b v) as [->|]; cbn [negb length]; [specialize (HF v (or_introl eq_refl)); lia|]. f_equal. apply IH. intros; apply HF; right; auto.
  - cbn [length]. f_equal. apply IH. destruct Hv; [congruence|auto].
Qed.
(** the loop over the edges out of u *)
Lemma absorb_ok u l : forall g alive rep, state g alive rep -> In u alive -> (forall v, In v l -> In v alive -> In v (outE g u)) ->
  let '(g', alive') := fold_left (absorb u) l (g, alive) in
  exists rep', state g' alive' rep' /\ outside rep rep' /\ In u alive' /\ incl alive' alive /\
    ((exists v, In v l /\ In v alive) -> length alive' < length alive).
Proof.
  induction l as [|v l IH]; intros g alive rep S Hu Hl; cbn [fold_left].
  - exists rep. split; auto. split; [intros ? ?; auto|]. split; auto. split; [apply incl_refl|]. intros (v & [] & _).
  - cbn [absorb]. destruct (set_count v alive) eqn:Ev.
    + apply set_count_In in Ev. destruct (state_contract g alive rep u v S Hu Ev (Hl v (or_introl eq_refl) Ev)) as (r1 & S1 & O1 & Huv).
      specialize (IH (snd (contract_edge u v g)) (set_erase v alive) r1 S1 ltac:(apply set_erase_In; auto)).
      assert (H1 : forall w, In w l -> In w (set_erase v alive) -> In w (outE (snd (contract_edge u v g)) u)).
      { intros w Hw Ha. apply set_erase_In in Ha. apply (contract_ok u v g (q_wf _ _ (s_quot _ _ _ S)) (Hl v (or_introl eq_refl) Ev)). split; auto. split; [tauto|]. left. apply Hl; [right; auto|tauto]. }
      specialize (IH H1). destruct (fold_left (absorb u) l _) as [g' alive']. destruct IH as (r' & S' & O' & U' & I' & _). exists r'. split; auto.
      split; [eapply outside_trans; eauto|]. split; auto. split; [intros x Hx; apply I' in Hx; apply set_erase_In in Hx; tauto|]. intros _.
      pose proof (erase_length v alive (s_sorted _ _ _ S) Ev). assert (length alive' <= length (set_erase v alive)) by (apply NoDup_incl_length; auto; apply sorted_nodup, (s_sorted _ _ _ S')). lia.
    + specialize (IH g alive rep S Hu ltac:(intros w Hw; apply Hl; right; auto)). destruct (fold_left (absorb u) l (g, alive)) as [g' alive']. destruct IH as (r' & S' & O' & U' & I' & D'). exists r'. split; auto. split; auto. split; auto. split; auto.
      intros (w & [<-|Hw] & Ha); [apply set_count_In in Ha; congruence|]. apply D'. eauto.
Qed.
Lemma absorb_all_ok l : forall g alive rep, state g alive rep ->
  let '(g', alive') := fold_left absorb_all l (g, alive) in
  exists rep', state g' alive' rep' /\ outside rep rep' /\ incl alive' alive /\ (alive <> [] -> alive' <> []).
Proof.
  induction l as [|u l IH]; intros g alive rep S; cbn [fold_left].
  - exists rep. split; auto. split; [intros ? ?; auto|]. split; [apply incl_refl|auto].
  - unfold absorb_all at 2. cbn [snd fst]. destruct (set_count u alive) eqn:Eu; [|apply IH; auto]. apply set_count_In in Eu.
    pose proof (absorb_ok u (edges_out_of g u) g alive rep S Eu) as A. rewrite edges_out_eq in * by apply (s_quot _ _ _ S). specialize (A ltac:(auto)).
    destruct (fold_left (absorb u) (outE g u) (g, alive)) as [g1 a1]. destruct A as (r1 & S1 & O1 & U1 & I1 & _).
    specialize (IH g1 a1 r1 S1). destruct (fold_left absorb_all l (g1, a1)) as [g' alive']. destruct IH as (r' & S' & O' & I' & N'). exists r'. split; auto.
    split; [eapply outside_trans; eauto|]. split; [eapply incl_tran; eauto|]. intros _. apply N'. intros ->. destruct U1.
Qed.
(** a live vertex has an edge to another one *)
Lemma live_edge g alive rep u : state g alive rep -> In u alive -> (exists w, In w alive /\ w <> u) -> exists v, In v (outE g u) /\ In v alive.
Proof.
  intros S Hu (w & Hw & Hne). pose proof (s_quot _ _ _ S) as Q. assert (Hu' := Hu). assert (Hw' := Hw). apply (s_alive _ _ _ S) in Hu, Hw.
  assert (M : mutual u w) by (apply C_mutual; tauto). destruct M as [P Pb].
  assert (K : forall x y, clos_refl_trans_1n nat E0 x y -> R0 u x -> y = w -> rep x = u -> exists v, In v (outE g u) /\ In v alive).
  { induction 1 as [x|x z y Hxz Hzy IH]; intros Ux -> Hx.
    - exfalso. apply Hne. destruct Hw as [_ X]. congruence.
    - assert (Uz : R0 u z) by (eapply rt_trans; [exact Ux|apply rt_step; auto]).
      destruct (Nat.eq_dec (rep z) u) as [Hz|Hz]; [apply IH; auto|].
      exists (rep z). split; [apply (q_edge _ _ Q); split; [auto|]; exists x, z; auto|].
      eapply alive_in; eauto. apply (C_mutual u); [tauto|]. split; auto. eapply rt_trans; [apply clos_rt1n_rt; exact Hzy|]. exact Pb. }
  apply (K u w); auto; [apply clos_rt_rt1n; auto|apply rt_refl|tauto].
Qed.
Lemma condense_component_ok fuel : forall g alive rep, state g alive rep -> alive <> [] -> length alive <= fuel ->
  exists g' rep' a, condense_component fuel g alive = Some g' /\ state g' [a] rep' /\ outside rep rep'.
Proof.
  induction fuel as [|fuel IH]; intros g alive rep S Hn Hf; [destruct alive; [contradiction|cbn in Hf; lia]|].
  cbn [condense_component]. destruct (Nat.leb_spec (length alive) 1) as [Hl|Hl].
  - destruct alive as [|a [|]]; [contradiction| |cbn in Hl; lia]. exists g, rep, a. split; auto. split; auto. intros ? ?; auto.
  - destruct alive as [|u alive0] eqn:Ea; [contradiction|]. rewrite <- Ea in *.
    assert (Hu : In u alive) by (rewrite Ea; left; auto).
    assert (Two : exists w, In w alive /\ w <> u).
    { rewrite Ea in *. destruct alive0 as [|w l]; [cbn in Hl; lia|]. exists w. split; [right; left; auto|]. pose proof (s_sorted _ _ _ S) as So. inversion So as [|? ? _ HF]; subst. rewrite Forall_forall in HF. specialize (HF w (or_introl eq_refl)). lia. }
    assert (Sh : let '(g', alive') := fold_left absorb_all alive (g, alive) in exists rep', state g' alive' rep' /\ outside rep rep' /\ alive' <> [] /\ length alive' < length alive).
    { replace (fold_left absorb_all alive (g, alive)) with (fold_left absorb_all (u :: alive0) (g, alive)) by (rewrite <- Ea; reflexivity). cbn [fold_left]. unfold absorb_all at 2. cbn [snd fst]. rewrite (proj2 (set_count_In u alive) Hu).
      pose proof (absorb_ok u (edges_out_of g u) g alive rep S Hu) as A. rewrite edges_out_eq in * by apply (s_quot _ _ _ S). specialize (A ltac:(auto)).
      destruct (fold_left (absorb u) (outE g u) (g, alive)) as [g1 a1]. destruct A as (r1 & S1 & O1 & U1 & I1 & D1). specialize (D1 (live_edge g alive rep u S Hu Two)).
      pose proof (absorb_all_ok alive0 g1 a1 r1 S1) as B. destruct (fold_left absorb_all alive0 (g1, a1)) as [g' alive']. destruct B as (r' & S' & O' & I' & N'). exists r'. split; auto.
      split; [eapply outside_trans; eauto|]. split; [apply N'; intros ->; destruct U1|].
      assert (length alive' <= length a1) by (apply NoDup_incl_length; auto; apply sorted_nodup, (s_sorted _ _ _ S')). lia. }
    destruct (fold_left absorb_all alive (g, alive)) as [g' alive']. destruct Sh as (r' & S' & O' & N' & L').
    destruct (IH g' alive' r' S' N' ltac:(lia)) as (g2 & r2 & a & -> & S2 & O2). exists g2, r2, a. split; auto. split; auto. eapply outside_trans; eauto.
Qed.
End Component.

(** all components *)
Lemma condense_steps sccs : forall g rep, quot g rep -> NoDup (concat sccs) -> (forall C, In C sccs -> comp g0 C /\ incl C (verts g0)) ->
  (forall C v, In C sccs -> In v C -> rep v = v) ->
  exists g' rep', fold_left condense_step sccs (Some g) = Some g' /\ quot g' rep' /\ (forall v, ~ In v (concat sccs) -> rep' v = rep v) /\
    forall C x y, In C sccs -> In x C -> In y C -> rep' x = rep' y.
Proof.
  induction sccs as [|C sccs IH]; intros g rep Q Nd HC Hid; cbn [fold_left].
  - exists g, rep. split; auto. split; auto. split; auto. intros C x y [].
  - cbn [concat] in Nd. apply nodup_app_iff in Nd. destruct Nd as (_ & Nd & Nx). destruct (HC C (or_introl eq_refl)) as [Cc CV].
    assert (St : state C g C rep).
    { split; auto; [apply Cc|]. intros v. split; [intros Hv; split; auto; apply (Hid C); auto; left; auto|tauto]. }
    assert (K : exists g1 r1, condense_step (Some g) C = Some g1 /\ quot g1 r1 /\ outside C rep r1 /\ forall x y, In x C -> In y C -> r1 x = r1 y).
    { cbn [condense_step]. destruct (Nat.leb_spec (length C) 1) as [Hl|Hl].
      - exists g, rep. split; auto. split; auto. split; [intros ? ?; auto|]. destruct C as [|a [|]]; [intros ? ? []|intros x y [<-|[]] [<-|[]]; auto|cbn in Hl; lia].
      - destruct (condense_component_ok C Cc CV (length C) g C rep St) as (g1 & r1 & a & F & S1 & O1); [destruct C; [cbn in Hl; lia|discriminate]|auto|].
        exists g1, r1. split; auto. split; [apply S1|]. split; auto. intros x y Hx Hy.
        pose proof (alive_in C Cc CV _ _ _ x S1 Hx) as [X|[]]. pose proof (alive_in C Cc CV _ _ _ y S1 Hy) as [Y|[]]. congruence. }
    destruct K as (g1 & r1 & -> & Q1 & O1 & U1).
    destruct (IH g1 r1 Q1 Nd) as (g' & r' & F & Q' & O' & U').
    + intros D HD. apply HC. right; auto.
    + intros D v HD Hv. rewrite O1; [apply (Hid D); auto; right; auto|]. intros Hc. apply (Nx v Hc). apply in_concat. eauto.
    + exists g', r'. split; auto. split; auto. split.
      * intros v Hv. cbn [concat] in Hv. rewrite in_app_iff in Hv. rewrite O' by tauto. apply O1. tauto.
      * intros D x y [<-|HD] Hx Hy; [|eapply U'; eauto]. rewrite !O' by (intros X; eapply Nx; [|exact X]; auto). apply U1; auto.
Qed.

Lemma quot_path g rep x y : quot g rep -> clos_refl_trans nat (fun x y => In y (outE g x)) x y -> R0 x y.
Proof.
  intros Q H. induction H as [x y H|x|x y z _ A _ B]; [|apply rt_refl|eapply rt_trans; eauto]. apply (q_edge _ _ Q) in H. destruct H as (_ & u & v & <- & <- & H).
  eapply rt_trans; [apply (q_mut _ _ Q)|]. eapply rt_trans; [apply rt_step; exact H|]. apply (q_mut _ _ Q).
Qed.
Lemma path_quot g rep x y : quot g rep -> R0 x y -> clos_refl_trans nat (fun x y => In y (outE g x)) (rep x) (rep y).
Proof.
  intros Q H. induction H as [x y H|x|x y z _ A _ B]; [|apply rt_refl|eapply rt_trans; eauto]. destruct (Nat.eq_dec (rep x) (rep y)) as [->|Hne]; [apply rt_refl|].
  apply rt_step. apply (q_edge _ _ Q). split; auto. exists x, y. auto.
Qed.
Theorem condense_ok : exists g' rep, condense g0 = Some g' /\ wf g' /\
  (forall v, In v (verts g') <-> In v (verts g0) /\ rep v = v) /\
  (forall v, In v (verts g0) -> In (rep v) (verts g')) /\
  (forall u v, In u (verts g0) -> In v (verts g0) -> (rep u = rep v <-> mutual u v)) /\
  (forall u v, In u (verts g0) -> In v (verts g0) -> (R0 u v <-> clos_refl_trans nat (fun x y => In y (outE g' x)) (rep u) (rep v))) /\
  (forall x y, In y (outE g' x) <-> x <> y /\ exists u v, rep u = x /\ rep v = y /\ E0 u v) /\
  forall v, ~ clos_trans nat (fun x y => In y (outE g' x)) v v.
Proof.
  unfold condense. destruct (tarjan_ok g0 W0) as (sccs & -> & Hc & Nd & Hv).
  assert (HC : forall C, In C sccs -> comp g0 C /\ incl C (verts g0)).
  { intros C HC. split; auto. intros v Hi. apply Hv. apply in_concat. eauto. }
  destruct (condense_steps sccs g0 (fun v => v) quot_id Nd HC ltac:(auto)) as (g' & rep & F & Q & _ & U). exists g', rep. split; auto.
  split; [apply Q|]. split; [apply (q_verts _ _ Q)|]. split; [apply (q_rep _ _ Q)|].
  assert (M : forall u v, In u (verts g0) -> In v (verts g0) -> (rep u = rep v <-> mutual u v)).
  { intros u v Hu Hw. split.
    - intros H. eapply mutual_trans; [apply (q_mut _ _ Q)|]. rewrite H. apply mutual_sym, (q_mut _ _ Q).
    - intros H. apply Hv in Hu. apply in_concat in Hu. destruct Hu as (C & HCi & Hu). apply (U C); auto. apply (proj2 (proj2 (Hc C HCi)) u Hu v). exact H. }
  split; auto. split.
  - intros u v Hu Hw. split; [apply path_quot; auto|]. intros H. apply (quot_path _ _ _ _ Q) in H. eapply rt_trans; [apply (q_mut _ _ Q)|]. eapply rt_trans; [exact H|]. apply (q_mut _ _ Q).
  - split; [apply (q_edge _ _ Q)|]. intros v H. apply clos_trans_t1n in H.
    assert (X : exists w, In w (outE g' v) /\ clos_refl_trans nat (fun x y => In y (outE g' x)) w v).
    { inversion H as [? S|w ? S T]; subst; [exists v; split; auto; apply rt_refl|]. exists w. split; auto. apply clos_t1n_trans in T. clear -T. induction T; [apply rt_step; auto|eapply rt_trans; eauto]. }
    destruct X as (w & S & T). assert (Hne : v <> w) by (apply (q_edge _ _ Q) in S; tauto).
    destruct (wf_incl g' (q_wf _ _ Q) _ _ S) as [Vv Vw]. apply (q_verts _ _ Q) in Vv, Vw. apply Hne. destruct Vv as [Vv Ev], Vw as [Vw Ew]. rewrite <- Ev, <- Ew. apply M; auto.
    split; apply (quot_path _ _ _ _ Q); auto. apply rt_step. exact S.
Qed.
End Condense.

(** the result is obtained by contractions *)
Lemma condense_pres (P : graph -> Prop) g g' : (forall s t g, P g -> P (snd (contract_edge s t g))) -> P g -> condense g = Some g' -> P g'.
Proof.
  intros HP.
  assert (A : forall u l st, P (fst st) -> P (fst (fold_left (absorb u) l st))).
  { induction l as [|v l IH]; intros [h a] H; auto. cbn [fold_left]. apply IH. cbn. destruct (set_count v a); auto. apply HP; auto. }
  assert (B : forall l st, P (fst st) -> P (fst (fold_left absorb_all l st))).
  { induction l as [|v l IH]; intros [h a] H; auto. cbn [fold_left]. apply IH. unfold absorb_all. cbn [fst snd]. destruct (set_count v a); auto. }
  assert (C : forall fuel h alive h', P h -> condense_component fuel h alive = Some h' -> P h').
  { induction fuel as [|fuel IH]; intros h alive h' H F; cbn [condense_component] in F; destruct (length alive <=? 1); try congruence.
    pose proof (B alive (h, alive) H) as Q. destruct (fold_left absorb_all alive (h, alive)) as [h1 a1]. eapply IH; eauto. }
  assert (D : forall l h h', P h -> fold_left condense_step l (Some h) = Some h' -> P h').
  { induction l as [|c l IH]; intros h h' H F; [cbn in F; congruence|]. cbn [fold_left] in F. destruct (condense_step (Some h) c) as [h1|] eqn:E1.
    - apply (IH h1); auto. cbn in E1. destruct (length c <=? 1); [congruence|eauto].
    - exfalso. clear -F. induction l; cbn in F; [discriminate|auto]. }
  intros H F. unfold condense in F. destruct (strongly_connected_components g); [eauto|discriminate].
Qed.
