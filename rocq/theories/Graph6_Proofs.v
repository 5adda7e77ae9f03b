(** Tarjan's algorithm. *)
From Coq Require Import List Bool Arith Lia Sorted Permutation Relations.
From Verif Require Import Graph_Model Graph_Proofs Graph5_Proofs.
Import ListNotations.
Open Scope nat_scope.

Lemma pop_until_ok v s r : ~ In v s -> forall scc, StronglySorted lt scc ->
  exists C, pop_until v (s ++ v :: r) scc = Some (C, r) /\ StronglySorted lt C /\ forall x, In x C <-> In x (s ++ [v]) \/ In x scc.
Proof.
  induction s as [|a s IH]; intros Hv scc Hs; cbn [app pop_until].
  - rewrite Nat.eqb_refl. eexists. split; [reflexivity|]. split; [apply set_insert_sorted; auto|]. intros x. rewrite set_insert_In. cbn. intuition.
  - destruct (Nat.eqb_spec a v) as [->|]; [destruct Hv; left; auto|].
    destruct (IH ltac:(intros X; apply Hv; right; auto) (set_insert a scc) (set_insert_sorted _ _ Hs)) as (C & -> & S & M).
    exists C. split; auto. split; auto. intros x. rewrite M, set_insert_In. cbn. intuition.
Qed.
Lemma nodup_app_iff (l m : list nat) : NoDup (l ++ m) <-> NoDup l /\ NoDup m /\ forall x, In x l -> ~ In x m.
Proof.
  induction l as [|a l IH]; cbn.
  - intuition. constructor.
  - rewrite !NoDup_cons_iff, IH, in_app_iff. intuition (subst; eauto). 
Qed.

Section Tarjan.
Variable g : graph.
Hypothesis W : wf g.
Notation E := (fun x y => In y (outE g x)).
Notation R := (clos_refl_trans nat E).

Definition comp (C : list nat) : Prop :=
  StronglySorted lt C /\ C <> [] /\ forall x, In x C -> forall y, In y C <-> R x y /\ R y x.
Record inv (gray : list nat) (st : tstate) : Prop := {
  i_nodup : NoDup (stack st ++ concat (comps st));
  i_index : forall x, index st x <> None <-> In x (stack st ++ concat (comps st));
  i_len : length (stack st ++ concat (comps st)) = current st;
  i_incl : incl (stack st ++ concat (comps st)) (verts g);
  i_lt : forall x, index st x <> None -> ix st x < current st;
  i_sorted : StronglySorted (fun a b => ix st b < ix st a) (stack st);
  i_gray : incl gray (stack st);
  i_black : forall x y, In x (concat (comps st)) -> E x y -> In y (concat (comps st));
  i_done : forall x y, In x (stack st) -> ~ In x gray -> E x y -> index st y <> None;
  i_comp : forall C, In C (comps st) -> comp C;
  i_up : forall x, In x (stack st) -> exists y, In y gray /\ ix st y <= ix st x /\ R x y;
  i_down : forall x y, In y gray -> In x (stack st) -> ix st y <= ix st x -> R y x }.

Lemma black_path st gray x y : inv gray st -> R x y -> In x (concat (comps st)) -> In y (concat (comps st)).
Proof. intros I H. apply clos_rt_rt1n in H. induction H as [|x z y H _ IH]; auto. intros Hx. apply IH. eapply i_black; eauto. Qed.
Lemma stack_not_black gray st x : inv gray st -> In x (stack st) -> ~ In x (concat (comps st)).
Proof. intros I. pose proof (i_nodup _ _ I) as N. apply nodup_app_iff in N. apply N. Qed.
Lemma stack_inj gray st x y : inv gray st -> In x (stack st) -> In y (stack st) -> ix st x = ix st y -> x = y.
Proof.
  intros I. pose proof (i_sorted _ _ I) as S. induction S as [|a l Hl IH HF]; [intros []|]. rewrite Forall_forall in HF.
  intros [<-|Hx] [<-|Hy] H; auto; [apply HF in Hy; lia|apply HF in Hx; lia].
Qed.

(** what a call for w does to the state *)
Record call (w : nat) (st st' : tstate) : Prop := {
  c_ext : forall x, index st x <> None -> index st' x = index st x /\ lowlink st' x = lowlink st x;
  c_idx : index st' w = Some (current st);
  c_cur : current st < current st';
  c_stack : exists s, stack st' = s ++ stack st /\
    (forall x, In x s -> index st x = None) /\
    (forall x y, In x s -> E x y -> In y (stack st) -> lowlink st' w <= ix st y) /\
    (lowlink st' w = current st \/ (lowlink st' w < current st /\ exists x, In x (stack st) /\ ix st x = lowlink st' w /\ R w x)) }.

(** inside the loop over the successors of v *)
Record loop (v : nat) (gray done stk0 : list nat) (st0 st : tstate) : Prop := {
  l_inv : inv (v :: gray) st;
  l_ext : forall x, index st0 x <> None -> index st x = index st0 x /\ lowlink st x = lowlink st0 x;
  l_idx : index st v = Some (current st0);
  l_cur : current st0 < current st;
  l_done : forall w, In w done -> index st w <> None /\ (In w stk0 -> lowlink st v <= ix st w);
  l_stack : exists s, stack st = s ++ v :: stk0 /\ (forall x, In x s -> index st0 x = None) /\
    (forall x y, In x s -> E x y -> In y stk0 -> lowlink st v <= ix st y) /\
    (lowlink st v = current st0 \/ (lowlink st v < current st0 /\ exists x, In x stk0 /\ ix st x = lowlink st v /\ R v x)) }.

Lemma ix_ext (st st' : tstate) x : index st' x = index st x -> ix st' x = ix st x.
Proof. unfold ix. intros ->. reflexivity. Qed.
Lemma stack_indexed gray st x : inv gray st -> In x (stack st) -> index st x <> None.
Proof. intros I H. apply (i_index _ _ I). apply in_or_app. auto. Qed.

(** entering v *)
Lemma enter_inv v gray st : inv gray st -> In v (verts g) -> index st v = None -> (forall y, In y gray -> R y v) -> inv (v :: gray) (enter v st).
Proof.
  intros I Hv Hn Hr.
  assert (Nv : ~ In v (stack st ++ concat (comps st))) by (intros X; apply (i_index _ _ I) in X; contradiction).
  assert (Ix : forall x, x <> v -> ix (enter v st) x = ix st x) by (intros x Hx; apply ix_ext; cbn; apply upd_other; auto).
  assert (Iv : ix (enter v st) v = current st) by (unfold ix; cbn; rewrite upd_same; auto).
  assert (Hne : forall x, In x (stack st) -> x <> v) by (intros x Hx ->; apply Nv, in_or_app; auto).
  assert (Lt : forall x, In x (stack st) -> ix (enter v st) x < current st) by (intros x Hx; rewrite Ix by auto; apply (i_lt _ _ I), (stack_indexed _ _ _ I Hx)).
  split; cbn [enter stack comps current index app].
  - constructor; [exact Nv|apply (i_nodup _ _ I)].
  - intros x. unfold upd. destruct (Nat.eqb_spec x v) as [->|Hx]; [split; [left; auto|discriminate]|]. rewrite (i_index _ _ I). cbn. intuition congruence.
  - cbn. f_equal. apply (i_len _ _ I).
  - intros x [<-|Hx]; auto. apply (i_incl _ _ I); auto.
  - intros x Hx. destruct (Nat.eq_dec x v) as [->|Hne']; [rewrite Iv; lia|]. rewrite upd_other in Hx by auto. rewrite Ix by auto. pose proof (i_lt _ _ I x Hx). lia.
  - constructor.
    + pose proof (i_sorted _ _ I) as S. clear -S Ix Hne. induction S as [|a l Hl IH HF]; constructor.
      * apply IH. intros; apply Hne; right; auto.
      * rewrite Forall_forall in *. intros x Hx. rewrite !Ix; [apply HF; auto|apply Hne; left; auto|apply Hne; right; auto].
    + rewrite Forall_forall. intros x Hx. rewrite Iv. auto.
  - intros x [<-|Hx]; [left; auto|right; apply (i_gray _ _ I); auto].
  - apply (i_black _ _ I).
  - intros x y [<-|Hx] Hg He; [destruct Hg; left; auto|]. unfold upd. destruct (y =? v); [discriminate|]. apply (i_done _ _ I x y); auto. intros X; apply Hg; right; auto.
  - apply (i_comp _ _ I).
  - intros x [<-|Hx]; [exists v; split; [left; auto|split; [auto|apply rt_refl]]|]. destruct (i_up _ _ I x Hx) as (y & A & B & C).
    exists y. split; [right; auto|]. rewrite !Ix; auto. apply Hne, (i_gray _ _ I); auto.
  - intros x y Hy [<-|Hx] H.
    + destruct Hy as [<-|Hy]; [apply rt_refl|auto].
    + destruct Hy as [<-|Hy]; [rewrite Iv in H; specialize (Lt x Hx); lia|]. apply (i_down _ _ I); auto. rewrite !Ix in H; auto. apply Hne, (i_gray _ _ I); auto.
Qed.
Lemma enter_loop v gray st : inv gray st -> In v (verts g) -> index st v = None -> (forall y, In y gray -> R y v) -> loop v gray [] (stack st) st (enter v st).
Proof.
  intros I Hv Hn Hr. split.
  - apply enter_inv; auto.
  - intros x Hx. cbn. rewrite !upd_other by congruence. auto.
  - cbn. apply upd_same.
  - cbn. lia.
  - intros w [].
  - exists []. split; auto. split; [intros x []|]. split; [intros x y []|]. left. cbn. apply upd_same.
Qed.

(** lowering does not touch anything but the low link of v *)
Lemma lower_inv gray v n st : inv gray st -> inv gray (lower v n st).
Proof. intros [A B C D F G H J K L M N]. split; auto. Qed.

(** one successor already seen *)
Lemma loop_seen v gray done stk0 st0 st w n : inv gray st0 -> stk0 = stack st0 -> loop v gray done stk0 st0 st -> E v w -> index st w = Some n ->
  loop v gray (w :: done) stk0 st0 (if set_count w (stack st) then lower v n st else st).
Proof.
  intros I0 -> L He Hw. destruct L as [I X Ix0 Cu D (s & S1 & S2 & S3 & S4)].
  assert (Vs : forall x, In x (stack st0) -> In x (stack st)) by (intros x Hx; rewrite S1; apply in_or_app; right; right; auto).
  destruct (set_count w (stack st)) eqn:Ew.
  - apply set_count_In in Ew.
    assert (Iw : ix st w = n) by (unfold ix; rewrite Hw; auto).
    split; cbn [lower index current lowlink stack]; auto.
    + apply lower_inv; auto.
    + intros x Hx. destruct (X x Hx) as [A B]. split; auto. unfold upd. destruct (Nat.eqb_spec x v) as [->|]; auto.
      assert (index st0 v <> None -> False); [|contradiction]. intros Q. destruct (X v Q) as [Q1 _]. rewrite Ix0 in Q1. pose proof (i_lt _ _ I0 v Q) as Q2. unfold ix in Q2. rewrite <- Q1 in Q2. lia.
    + intros w' [<-|Hw']; [split; [congruence|intros _; rewrite upd_same; unfold ix in *; cbn; rewrite Hw; lia]|]. destruct (D w' Hw') as [A B]. split; auto. intros Q. specialize (B Q). rewrite upd_same. unfold ix in *. cbn. lia.
    + exists s. split; auto. split; auto. rewrite upd_same. split.
      * intros x y Hx Hy Hs. specialize (S3 x y Hx Hy Hs). unfold ix in *. cbn. lia.
      * destruct (le_lt_dec (current st0) n) as [Hge|Hlt].
        -- replace (Nat.min (lowlink st v) n) with (lowlink st v) by lia. exact S4.
        -- destruct (le_lt_dec (lowlink st v) n) as [Hge'|Hlt']; [replace (Nat.min (lowlink st v) n) with (lowlink st v) by lia; exact S4|].
           right. replace (Nat.min (lowlink st v) n) with n by lia. split; auto. exists w. split; [|split; [exact Iw|apply rt_step; auto]].
           rewrite S1 in Ew. apply in_app_iff in Ew. destruct Ew as [Ew|[->|Ew]]; auto.
           ++ exfalso. pose proof (i_sorted _ _ I) as So. rewrite S1 in So. clear -So Ew Iw Hlt Ix0. assert (ix st v < ix st w); [|unfold ix at 1 in H; rewrite Ix0 in H; lia].
              induction s as [|a s IH]; [destruct Ew|]. inversion So as [|? ? So' HF]; subst. rewrite Forall_forall in HF. destruct Ew as [->|Ew]; [apply HF, in_or_app; right; left; auto|auto].
           ++ unfold ix in Iw. rewrite Ix0 in Iw. lia.
  - apply set_count_false in Ew. split; auto.
    + intros w' [<-|Hw']; auto. split; [congruence|]. intros Q. destruct Ew. auto.
    + exists s. auto.
Qed.

Lemma above v s stk0 st w : StronglySorted (fun a b => ix st b < ix st a) (s ++ v :: stk0) -> In w s -> ix st v < ix st w.
Proof.
  intros So Ew. induction s as [|a s IH]; [destruct Ew|]. inversion So as [|? ? So' HF]; subst. rewrite Forall_forall in HF.
  destruct Ew as [->|Ew]; [apply HF, in_or_app; right; left; auto|auto].
Qed.

(** one successor visited by a recursive call *)
Lemma loop_call v gray done stk0 st0 st w st' : inv gray st0 -> stk0 = stack st0 -> loop v gray done stk0 st0 st -> E v w -> index st w = None ->
  inv (v :: gray) st' -> call w st st' ->
  loop v gray (w :: done) stk0 st0 (lower v (lowlink st' w) st').
Proof.
  intros I0 -> L He Hw I' K. destruct L as [I X Ix0 Cu D (s & S1 & S2 & S3 & S4)]. destruct K as [Kx Ki Kc (s' & T1 & T2 & T3 & T4)].
  assert (Nv : index st0 v = None).
  { destruct (index st0 v) eqn:Q; auto. exfalso. destruct (X v) as [Q1 _]; [congruence|]. pose proof (i_lt _ _ I0 v ltac:(congruence)) as Q2. unfold ix in Q2. rewrite Q in Q2. rewrite Q, Ix0 in Q1. injection Q1 as <-. lia. }
  assert (Vv : index st v <> None) by congruence. destruct (Kx v Vv) as [Kv1 Kv2].
  assert (Cst : current st0 < current st) by exact Cu.
  assert (Pst : forall x, index st0 x <> None -> index st x <> None) by (intros x Hx; rewrite (proj1 (X x Hx)); auto).
  assert (Ixs : forall x, In x (stack st0) -> ix st' x = ix st x).
  { intros x Hx. apply ix_ext. apply Kx. apply Pst. apply (stack_indexed _ _ _ I0 Hx). }
  split; cbn [lower index current lowlink stack].
  - apply lower_inv; auto.
  - intros x Hx. destruct (X x Hx) as [A B]. destruct (Kx x (Pst x Hx)) as [A' B']. split; [congruence|]. rewrite upd_other by congruence. congruence.
  - congruence.
  - lia.
  - intros w' [<-|Hw'].
    + split; [congruence|]. intros Q. exfalso. apply Pst in Hw; [contradiction|]. apply (stack_indexed _ _ _ I0 Q).
    + destruct (D w' Hw') as [A B]. destruct (Kx w' A) as [A' _]. split; [congruence|]. intros Q. specialize (B Q). rewrite upd_same. rewrite Kv2. specialize (Ixs w' Q). unfold ix in *. cbn. lia.
  - exists (s' ++ s). split; [rewrite T1, S1, app_assoc; auto|]. split.
    + intros x Hx. apply in_app_iff in Hx. destruct Hx as [Hx|Hx]; auto. destruct (index st0 x) eqn:Q; auto. exfalso. apply T2 in Hx. apply Pst in Hx; auto. congruence.
    + rewrite upd_same. rewrite Kv2. split.
      * intros x y Hx Hy Hs. apply in_app_iff in Hx. change (ix (lower v (lowlink st' w) st') y) with (ix st' y). rewrite Ixs by auto. destruct Hx as [Hx|Hx].
        -- specialize (T3 x y Hx Hy). rewrite S1 in T3. specialize (T3 ltac:(apply in_or_app; right; right; auto)). lia.
        -- specialize (S3 x y Hx Hy Hs). lia.
      * destruct (le_lt_dec (lowlink st v) (lowlink st' w)) as [Hge|Hlt].
        -- replace (Nat.min (lowlink st v) (lowlink st' w)) with (lowlink st v) by lia. destruct S4 as [S4|(S4 & x & A & B & C)]; auto. right. split; auto. exists x. split; auto. split; auto.
           change (ix (lower v (lowlink st' w) st') x) with (ix st' x). rewrite Ixs; auto.
        -- replace (Nat.min (lowlink st v) (lowlink st' w)) with (lowlink st' w) by lia. right.
           assert (lowlink st v <= current st0) by (destruct S4 as [S4|[S4 _]]; lia).
           destruct T4 as [T4|(T4 & x & A & B & C)]; [lia|]. split; [lia|]. exists x.
           assert (Ivv : ix st v = current st0) by (unfold ix; rewrite Ix0; auto).
           assert (Hx : In x (stack st0)).
           { rewrite S1 in A. apply in_app_iff in A. destruct A as [A|[<-|A]]; auto; [|lia]. exfalso. pose proof (i_sorted _ _ I) as So. rewrite S1 in So. pose proof (above _ _ _ _ _ So A). lia. }
           split; auto. split; [change (ix (lower v (lowlink st' w) st') x) with (ix st' x); rewrite Ixs; auto|]. eapply rt_trans; [apply rt_step; exact He|exact C].
Qed.

(** leaving v *)
Lemma segment_path st gray v s stk0 x y : inv (v :: gray) st -> stack st = s ++ v :: stk0 ->
  (forall y, E v y -> index st y <> None) -> (forall a b, In a s \/ a = v -> E a b -> ~ In b stk0) -> (forall a, In a gray -> In a stk0) ->
  R x y -> In x s \/ x = v -> In y s \/ y = v \/ In y (concat (comps st)).
Proof.
  intros I S Hv Hx Hg H. apply clos_rt_rtn1 in H. induction H as [|y z Hyz _ IH]; intros Hs; [tauto|]. specialize (IH Hs).
  assert (N := i_nodup _ _ I). rewrite S in N. 
  destruct IH as [IH|[->|IH]]; [| |right; right; eapply i_black; eauto].
  - assert (index st z <> None).
    { eapply (i_done _ _ I y); auto; [rewrite S; apply in_or_app; auto|]. intros [<-|Q].
      - apply nodup_app_iff in N. destruct N as [N _]. apply nodup_app_iff in N. destruct N as (_ & _ & N). apply (N v IH). left; auto.
      - apply Hg in Q. apply nodup_app_iff in N. destruct N as [N _]. apply nodup_app_iff in N. destruct N as (_ & _ & N). apply (N y IH). right; auto. }
    apply (i_index _ _ I) in H. apply in_app_iff in H. destruct H as [H|H]; auto. rewrite S in H. apply in_app_iff in H. destruct H as [H|[<-|H]]; auto. exfalso. exact (Hx y z (or_introl IH) Hyz H).
  - assert (H : index st z <> None) by auto.
    apply (i_index _ _ I) in H. apply in_app_iff in H. destruct H as [H|H]; auto. rewrite S in H. apply in_app_iff in H. destruct H as [H|[<-|H]]; auto. exfalso. exact (Hx v z (or_intror eq_refl) Hyz H).
Qed.
Lemma leave_ok v gray st0 st : inv gray st0 -> index st0 v = None -> loop v gray (outE g v) (stack st0) st0 st ->
  exists st', leave v st = Some st' /\ inv gray st' /\ call v st0 st'.
Proof.
  intros I0 N0 L. destruct L as [I X Ix0 Cu D (s & S1 & S2 & S3 & S4)].
  assert (Ivv : ix st v = current st0) by (unfold ix; rewrite Ix0; auto).
  assert (Ixs : forall x, In x (stack st0) -> ix st x = ix st0 x) by (intros x Hx; apply ix_ext, X, (stack_indexed _ _ _ I0 Hx)).
  assert (Gs : forall a, In a gray -> In a (stack st0)) by (apply (i_gray _ _ I0)).
  assert (N := i_nodup _ _ I). rewrite S1 in N. assert (N1 := N). apply nodup_app_iff in N1. destruct N1 as (N1 & Nc & Nx). assert (N2 := N1). apply nodup_app_iff in N2. destruct N2 as (Ns & Nt & Nsv).
  assert (Vs : ~ In v s) by (intros Q; apply (Nsv v Q); left; auto).
  assert (Vg : ~ In v gray) by (intros Q; apply Gs in Q; inversion Nt; contradiction).
  assert (So := i_sorted _ _ I). rewrite S1 in So.
  assert (Hv : forall y, E v y -> index st y <> None) by (intros y Hy; apply D; auto).
  unfold leave. rewrite Ivv. destruct (Nat.eqb_spec (lowlink st v) (current st0)) as [HL|HL].
  - (* a component *)
    rewrite S1. destruct (pop_until_ok v s (stack st0) Vs [] ltac:(constructor)) as (C & -> & SC & MC). eexists. split; [reflexivity|].
    assert (MC' : forall x, In x C <-> In x s \/ x = v) by (intros x; rewrite MC, in_app_iff; cbn; intuition).
    assert (Ne : forall a b, In a s \/ a = v -> E a b -> ~ In b (stack st0)).
    { intros a b Ha Hb Hs. assert (Q : lowlink st v <= ix st b) by (destruct Ha as [Ha| ->]; [eapply S3; eauto|apply D; auto]). rewrite Ixs in Q by auto. pose proof (i_lt _ _ I0 b (stack_indexed _ _ _ I0 Hs)). lia. }
    assert (Dn : forall x, In x s \/ x = v -> R v x).
    { intros x Hx. apply (i_down _ _ I); [left; auto|rewrite S1; apply in_or_app; cbn; intuition|]. destruct Hx as [Hx| ->]; auto. pose proof (above _ _ _ _ _ So Hx). lia. }
    assert (Up : forall x, In x s \/ x = v -> R x v).
    { intros x Hx. destruct (i_up _ _ I x) as (y & Hy & _ & P); [rewrite S1; apply in_or_app; cbn; intuition|]. destruct Hy as [<-|Hy]; auto. exfalso.
      apply Gs in Hy. destruct (segment_path st gray v s (stack st0) x y I S1 Hv Ne Gs P Hx) as [Q|[->|Q]].
      - apply (Nsv y Q). right; auto.
      - inversion Nt; contradiction.
      - apply (Nx y); auto. apply in_or_app. right. right. auto. }
    assert (Perm : Permutation C (s ++ [v])).
    { apply NoDup_Permutation; [apply sorted_nodup; auto| |intros x; rewrite MC; cbn; intuition]. apply nodup_app_iff. split; auto. split; [repeat constructor; auto|]. intros x Hx [<-|[]]; contradiction. }
    assert (PA : Permutation (stack st0 ++ concat (comps st ++ [C])) ((s ++ v :: stack st0) ++ concat (comps st))).
    { rewrite concat_app. cbn [concat]. rewrite app_nil_r, Perm.
      replace (s ++ v :: stack st0) with ((s ++ [v]) ++ stack st0) by (rewrite <- app_assoc; auto).
      rewrite (Permutation_app_comm (s ++ [v]) (stack st0)). rewrite <- app_assoc. apply Permutation_app_head. apply Permutation_app_comm. }
    assert (Cc : comp C).
    { split; auto. split; [intros ->; apply (proj2 (MC' v)); auto|]. intros x Hx y. apply MC' in Hx. rewrite MC'. split.
      - intros Hy. split; eapply rt_trans; [apply Up; eauto|apply Dn; auto|apply Up; eauto|apply Dn; auto].
      - intros [P Q]. destruct (segment_path st gray v s (stack st0) x y I S1 Hv Ne Gs P Hx) as [H|[->|H]]; auto. exfalso.
        apply (black_path _ _ _ x I Q) in H. apply (Nx x); auto. apply in_or_app. cbn. intuition. }
    split.
    + split; cbn [stack comps current index].
      * eapply Permutation_NoDup; [apply Permutation_sym, PA|exact N].
      * intros x. rewrite (i_index _ _ I). rewrite S1. split; apply Permutation_in; [apply Permutation_sym|]; auto.
      * rewrite (Permutation_length PA), <- S1. apply (i_len _ _ I).
      * intros x Hx. apply (i_incl _ _ I). rewrite S1. eapply Permutation_in; eauto.
      * apply (i_lt _ _ I).
      * change (StronglySorted (fun a b => ix st b < ix st a) (stack st0)). clear -So. induction s as [|a s IH]; [inversion So; auto|inversion So; auto].
      * apply (i_gray _ _ I0).
      * intros x y Hx Hy. rewrite concat_app, in_app_iff in *. cbn [concat] in *. rewrite app_nil_r in *. destruct Hx as [Hx|Hx]; [left; eapply i_black; eauto|].
        apply MC' in Hx. destruct (segment_path st gray v s (stack st0) x y I S1 Hv Ne Gs (rt_step _ _ _ _ Hy) Hx) as [Q|[Q|Q]]; auto; right; apply MC'; auto.
      * intros x y Hx Hg Hy. apply (i_done _ _ I x y); auto; [rewrite S1; apply in_or_app; right; right; auto|]. intros [<-|Q]; auto. inversion Nt; contradiction.
      * intros C' HC. apply in_app_iff in HC. destruct HC as [HC|[<-|[]]]; auto. apply (i_comp _ _ I); auto.
      * intros x Hx. destruct (i_up _ _ I0 x Hx) as (y & A & B & P). exists y. split; auto. split; [|exact P]. change (ix st y <= ix st x). rewrite !Ixs; auto.
      * intros x y Hy Hx Hle. apply (i_down _ _ I0); auto. change (ix st y <= ix st x) in Hle. rewrite !Ixs in Hle; auto.
    + split; cbn [stack comps current index lowlink]; auto.
      exists []. split; auto. split; [intros x []|]. split; [intros x y []|]. left; auto.
  - (* v stays on the stack *)
    destruct S4 as [S4|(S4 & x0 & A0 & B0 & P0)]; [contradiction|]. exists st. split; auto.
    assert (U0 : exists y, In y gray /\ ix st y < ix st v /\ R v y).
    { destruct (i_up _ _ I0 x0 A0) as (y & A & B & P). exists y. split; auto. rewrite Ixs in B0 by auto. rewrite (Ixs y) by auto. split; [lia|]. eapply rt_trans; eauto. }
    split.
    + split.
      * rewrite S1; exact N.
      * apply (i_index _ _ I).
      * apply (i_len _ _ I).
      * apply (i_incl _ _ I).
      * apply (i_lt _ _ I).
      * rewrite S1. exact So.
      * intros x Hx. rewrite S1. apply in_or_app. right. right. auto.
      * apply (i_black _ _ I).
      * intros x y Hx Hg Hy. destruct (Nat.eq_dec x v) as [->|]; auto. apply (i_done _ _ I x y); auto. intros [Q|Q]; auto.
      * apply (i_comp _ _ I).
      * intros x Hx. destruct (i_up _ _ I x Hx) as (y & [<-|A] & B & P); [|exists y; auto].
        destruct U0 as (y & A & B' & P'). exists y. split; auto. split; [lia|]. eapply rt_trans; eauto.
      * intros x y Hy. apply (i_down _ _ I). right; auto.
    + split; auto. exists (s ++ [v]). split; [rewrite S1, <- app_assoc; auto|]. split; [|split].
      * intros x Hx. apply in_app_iff in Hx. destruct Hx as [Hx|[<-|[]]]; auto.
      * intros x y Hx Hy Hs. rewrite <- (Ixs y Hs). apply in_app_iff in Hx. destruct Hx as [Hx|[<-|[]]]; [eapply S3; eauto|apply D; auto].
      * right. split; auto. exists x0. split; auto. split; auto. rewrite <- Ixs; auto.
Qed.

Lemma current_bound gray st : inv gray st -> current st <= length (verts g).
Proof. intros I. rewrite <- (i_len _ _ I). apply NoDup_incl_length; [apply (i_nodup _ _ I)|apply (i_incl _ _ I)]. Qed.
Lemma current_room gray st v : inv gray st -> In v (verts g) -> index st v = None -> current st < length (verts g).
Proof.
  intros I Hv Hn. rewrite <- (i_len _ _ I). change (length (v :: (stack st ++ concat (comps st))) <= length (verts g)). apply NoDup_incl_length.
  - constructor; [intros Q; apply (i_index _ _ I) in Q; contradiction|apply (i_nodup _ _ I)].
  - intros x [<-|Hx]; auto. apply (i_incl _ _ I); auto.
Qed.
Theorem dfs_ok fuel : forall v gray st, length (verts g) <= fuel + current st -> inv gray st -> In v (verts g) -> index st v = None -> (forall y, In y gray -> R y v) ->
  exists st', dfs fuel g v st = Some st' /\ inv gray st' /\ call v st st'.
Proof.
  induction fuel as [|fuel IH]; intros v gray st Hf I Hv Hn Hr.
  - pose proof (current_room _ _ _ I Hv Hn). lia.
  - cbn [dfs]. rewrite edges_out_eq by auto.
    assert (K : forall todo done st1, (forall w, In w (done ++ todo) -> E v w) -> loop v gray done (stack st) st st1 ->
      exists st2, fold_left (successor (dfs fuel g) v) todo (Some st1) = Some st2 /\ loop v gray (rev todo ++ done) (stack st) st st2).
    { induction todo as [|w todo IHt]; intros done st1 Hd L; [exists st1; auto|]. cbn [fold_left successor].
      assert (He : E v w) by (apply Hd, in_or_app; right; left; auto).
      destruct (index st1 w) as [n|] eqn:Ew.
      - assert (L' := loop_seen _ _ _ _ _ _ w n I eq_refl L He Ew). destruct (IHt (w :: done) _ ltac:(intros x Hx; apply Hd; cbn in *; rewrite in_app_iff in *; cbn; intuition) L') as (st2 & F & L2).
        exists st2. split; auto. cbn [rev]. rewrite <- app_assoc. exact L2.
      - destruct L as [I1 X1 Ix1 Cu1 D1 S1] eqn:EL. clear EL.
        assert (Vin : In v (stack st1)) by (destruct S1 as (s & -> & _); apply in_or_app; right; left; auto).
        destruct (IH w (v :: gray) st1) as (st' & F & I' & C').
        + lia.
        + exact I1.
        + apply (wf_incl g W _ _ He).
        + exact Ew.
        + intros y [<-|Hy]; [apply rt_step; auto|]. eapply rt_trans; [apply Hr; auto|apply rt_step; auto].
        + rewrite F. assert (L0 : loop v gray done (stack st) st st1) by (split; auto).
          assert (L' := loop_call _ _ _ _ _ _ w st' I eq_refl L0 He Ew I' C').
          destruct (IHt (w :: done) _ ltac:(intros x Hx; apply Hd; cbn in *; rewrite in_app_iff in *; cbn; intuition) L') as (st2 & F2 & L2).
          exists st2. split; auto. cbn [rev]. rewrite <- app_assoc. exact L2. }
    destruct (K (outE g v) [] (enter v st) ltac:(auto) (enter_loop v gray st I Hv Hn Hr)) as (st2 & -> & L2).
    rewrite app_nil_r in L2. apply (leave_ok v gray st st2 I Hn).
    destruct L2 as [A B C D F G]. split; auto. intros w Hw. apply F. apply in_rev in Hw. auto.
Qed.

Lemma empty_stack st : inv [] st -> stack st = [].
Proof. intros I. destruct (stack st) as [|x l] eqn:Es; auto. destruct (i_up _ _ I x) as (y & [] & _). rewrite Es. left; auto. Qed.
Lemma concat_NoDup_each (l : list (list nat)) C D i j : NoDup (concat l) -> nth_error l i = Some C -> nth_error l j = Some D -> (exists x, In x C /\ In x D) -> i = j.
Proof.
  revert i j. induction l as [|A l IH]; intros i j Nd Hi Hj (x & Hc & Hd); [destruct i; discriminate|]. cbn in Nd. apply nodup_app_iff in Nd. destruct Nd as (_ & Nl & Nx).
  destruct i as [|i], j as [|j]; auto; cbn in Hi, Hj.
  - injection Hi as ->. exfalso. apply (Nx x Hc). apply in_concat. exists D. split; auto. eapply nth_error_In; eauto.
  - injection Hj as ->. exfalso. apply (Nx x Hd). apply in_concat. exists C. split; auto. eapply nth_error_In; eauto.
  - f_equal. eapply IH; eauto.
Qed.
Theorem tarjan_ok : exists sccs, strongly_connected_components g = Some sccs /\
  (forall C, In C sccs -> comp C) /\ NoDup (concat sccs) /\ (forall v, In v (concat sccs) <-> In v (verts g)).
Proof.
  unfold strongly_connected_components. set (st0 := {| index := _ |}).
  assert (I0 : inv [] st0).
  { split; cbn; try (intros; tauto); try constructor; try (intros ? []); try (intros x; split; [congruence|intros []]); intros x H; congruence. }
  assert (K : forall l st, inv [] st -> incl l (verts g) -> exists st', fold_left (tarjan_root (length (verts g)) g) l (Some st) = Some st' /\ inv [] st' /\
     (forall x, index st x <> None -> index st' x <> None) /\ (forall x, In x l -> index st' x <> None)).
  { induction l as [|v l IH]; intros st I Hl; [exists st; split; auto; split; auto; split; auto; intros x []|]. cbn [fold_left tarjan_root].
    destruct (index st v) as [n|] eqn:Ev.
    - destruct (IH st I ltac:(intros x Hx; apply Hl; right; auto)) as (st' & F & I' & A & B). exists st'. split; auto. split; auto. split; auto. intros x [<-|Hx]; auto. apply A. congruence.
    - destruct (dfs_ok (length (verts g)) v [] st ltac:(lia) I ltac:(apply Hl; left; auto) Ev ltac:(intros y [])) as (st1 & -> & I1 & C1).
      destruct (IH st1 I1 ltac:(intros x Hx; apply Hl; right; auto)) as (st' & F & I' & A & B). exists st'. split; auto. split; auto.
      assert (Q : forall x, index st x <> None -> index st1 x <> None) by (intros x Hx; rewrite (proj1 (c_ext _ _ _ C1 x Hx)); auto).
      split; auto. intros x [<-|Hx]; auto. apply A. rewrite (c_idx _ _ _ C1). discriminate. }
  destruct (K (verts g) st0 I0 (incl_refl _)) as (st & -> & I & _ & Al). exists (comps st). pose proof (empty_stack st I) as Es. split; auto.
  pose proof (i_nodup _ _ I) as Nd. pose proof (i_incl _ _ I) as Ic. rewrite Es in Nd, Ic. split; [apply (i_comp _ _ I)|]. split; auto.
  intros v. split; [apply Ic|]. intros Hv. apply Al in Hv. apply (i_index _ _ I) in Hv. rewrite Es in Hv. exact Hv.
Qed.
End Tarjan.
