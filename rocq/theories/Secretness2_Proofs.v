(** Lemmas for the secretness analysis: dependencies, termination and noninterference. *)
From Coq Require Import List Bool Arith Lia Relations.
From Verif Require Import Secretness_Model Secretness_Spec Secretness_Proofs.
Import ListNotations.

Section OpInd.
Variable P : op -> Prop.
Hypothesis Hpure : forall n i o, P (OpPure n i o).
Hypothesis Hregion : forall n i c o, P (OpRegion n i c o).
Hypothesis Hcall : forall n i o, P (OpCall n i o).
Hypothesis Hreveal : forall i o, P (OpReveal i o).
Hypothesis Halloc : forall m, P (OpAlloc m).
Hypothesis Hstore : forall v m i, P (OpStore v m i).
Hypothesis Hload : forall r m i, P (OpLoad r m i).
Hypothesis Hif : forall c tb ty eb ey o, Forall P tb -> Forall P eb -> P (OpIf c tb ty eb ey o).
Hypothesis Hfor : forall lb ub st i iv a b y o, Forall P b -> P (OpFor lb ub st i iv a b y o).
Hypothesis Hgen : forall i a b y o, Forall P b -> P (OpGeneric i a b y o).
Fixpoint op_ind2 (o : op) : P o :=
  let fix go (l : list op) : Forall P l :=
    match l with [] => Forall_nil P | x :: l' => Forall_cons x (op_ind2 x) (go l') end in
  match o with
  | OpPure n i o => Hpure n i o
  | OpRegion n i c o => Hregion n i c o
  | OpCall n i o => Hcall n i o
  | OpReveal i o => Hreveal i o
  | OpAlloc m => Halloc m
  | OpStore v m i => Hstore v m i
  | OpLoad r m i => Hload r m i
  | OpIf c tb ty eb ey o => Hif c tb ty eb ey o (go tb) (go eb)
  | OpFor lb ub st i iv a b y o => Hfor lb ub st i iv a b y o (go b)
  | OpGeneric i a b y o => Hgen i a b y o (go b)
  end.
End OpInd.

(** * Definitions are unique *)
Lemma joins_In u srcs dsts : In u (joins srcs dsts) <-> exists s d, u = UJoin s d /\ In (s, d) (combine srcs dsts).
Proof.
  unfold joins. rewrite in_map_iff. split.
  - intros ([s d] & <- & H). exists s, d. auto.
  - intros (s & d & -> & H). exists (s, d). auto.
Qed.
Definition is_op (u : unit_) : Prop := match u with UOp _ _ _ => True | _ => False end.
Lemma units_defs : forall o u v, In u (op_units o) -> In v (outs_of u) -> In v (defs o).
Proof.
  apply (op_ind2 (fun o => forall u v, In u (op_units o) -> In v (outs_of u) -> In v (defs o)));
    try (intros; cbn in *; intuition (subst; cbn in *; intuition); fail).
  - intros c tb ty eb ey o Ht He u v Hu Hv. cbn [op_units defs] in *. rewrite !in_app_iff in *. rewrite !joins_In in Hu. rewrite !in_flat_map in *.
    rewrite !Forall_forall in *.
    destruct Hu as [(s & d & -> & H)|[(s & d & -> & H)|[(x & Hx & H)|(x & Hx & H)]]];
      [destruct Hv as [<-|[]]; left; eapply in_combine_r; eauto|destruct Hv as [<-|[]]; left; eapply in_combine_r; eauto| |]; right; [left|right]; exists x; split; auto; eauto.
  - intros lb ub st i iv a b y o Hb u v Hu Hv. cbn [op_units defs] in *. rewrite !in_app_iff in *. rewrite !joins_In in Hu. rewrite !in_flat_map in *.
    rewrite !Forall_forall in *.
    destruct Hu as [Hu|[(s & d & -> & H)|[(s & d & -> & H)|[(s & d & -> & H)|[(s & d & -> & H)|(x & Hx & H)]]]]].
    + destruct Hu as [<-|[]]. cbn in *. intuition.
    + destruct Hv as [<-|[]]. right; left. eapply in_combine_r; eauto.
    + destruct Hv as [<-|[]]. right; left. eapply in_combine_r; eauto.
    + destruct Hv as [<-|[]]. right; right; left. eapply in_combine_r; eauto.
    + destruct Hv as [<-|[]]. right; right; left. eapply in_combine_r; eauto.
    + right; right; right. exists x. split; auto. eauto.
  - intros i a b y o Hb u v Hu Hv. cbn [op_units defs] in *. rewrite !in_app_iff in *. rewrite in_map_iff in Hu. rewrite !in_flat_map in *.
    rewrite !Forall_forall in *. destruct Hu as [[<-|[]]|[([k x] & <- & H)|(x & Hx & H)]].
    + cbn in Hv. auto.
    + destruct Hv as [<-|[]]. left. eapply in_combine_l; eauto.
    + right; right. exists x. split; auto. eauto.
Qed.
Lemma NoDup_app_l {A} (a b : list A) : NoDup (a ++ b) -> NoDup a.
Proof. induction a; cbn; intros H; constructor; inversion H; subst; [intros X; apply H2; apply in_or_app; auto|auto]. Qed.
Lemma NoDup_app_r {A} (a b : list A) : NoDup (a ++ b) -> NoDup b.
Proof. induction a; cbn; intros H; auto. inversion H; auto. Qed.
Lemma NoDup_app_disj {A} (a b : list A) x : NoDup (a ++ b) -> In x a -> In x b -> False.
Proof. induction a as [|y a IH]; intros H Ha Hb; [destruct Ha|]. cbn in H. inversion H; subst. destruct Ha as [<-|Ha]; auto. apply H2. apply in_or_app; auto. Qed.
Definition uniq_in (us : list unit_) : Prop :=
  forall u u' v, In u us -> In u' us -> In v (outs_of u) -> In v (outs_of u') -> is_op u -> u' = u.
Lemma uniq_list body : Forall (fun o => NoDup (defs o) -> uniq_in (op_units o)) body ->
  NoDup (flat_map defs body) -> uniq_in (flat_map op_units body).
Proof.
  induction 1 as [|o body Ho Hb IH]; cbn [flat_map]; intros N u u' v Hu Hu' Hv Hv' I; [destruct Hu|].
  assert (D : forall w, In w (flat_map op_units body) -> In v (outs_of w) -> In v (flat_map defs body)).
  { intros w Hw Hvw. apply in_flat_map in Hw. destruct Hw as (x & Hx & Hw). apply in_flat_map. exists x. split; auto. eapply units_defs; eauto. }
  apply in_app_or in Hu. apply in_app_or in Hu'.
  destruct Hu as [Hu|Hu], Hu' as [Hu'|Hu'].
  - eapply Ho; eauto. eapply NoDup_app_l; eauto.
  - exfalso. eapply NoDup_app_disj; eauto. eapply units_defs; eauto.
  - exfalso. eapply NoDup_app_disj; eauto. eapply units_defs; eauto.
  - eapply IH; eauto. eapply NoDup_app_r; eauto.
Qed.
Lemma list_units_defs body u v : In u (flat_map op_units body) -> In v (outs_of u) -> In v (flat_map defs body).
Proof.
  intros Hw Hvw. apply in_flat_map in Hw. destruct Hw as (x & Hx & Hw). apply in_flat_map. exists x. split; auto. eapply units_defs; eauto.
Qed.
Lemma uniq_op : forall o, NoDup (defs o) -> uniq_in (op_units o).
Proof.
  apply (op_ind2 (fun o => NoDup (defs o) -> uniq_in (op_units o))); try (intros; intros u u' v Hu Hu' Hv Hv' I; cbn in *; intuition (subst; cbn in *; intuition congruence)).
  - intros x m i _ u u' v Hu _ Hv. destruct Hu as [<-|[]]. destruct Hv.
  - intros c tb ty eb ey o Ht He N u u' v Hu Hu' Hv Hv' I. cbn [op_units defs] in *.
    pose proof (uniq_list tb Ht (NoDup_app_l _ _ (NoDup_app_r _ _ N))) as U1. pose proof (uniq_list eb He (NoDup_app_r _ _ (NoDup_app_r _ _ N))) as U2.
    assert (C : forall w, In w (joins ty o ++ joins ey o ++ flat_map op_units tb ++ flat_map op_units eb) -> In v (outs_of w) ->
       (~ is_op w /\ In v o) \/ (In w (flat_map op_units tb) /\ In v (flat_map defs tb)) \/ (In w (flat_map op_units eb) /\ In v (flat_map defs eb))).
    { intros w Hw Hvw. rewrite !in_app_iff, !joins_In in Hw.
      destruct Hw as [(s & d & -> & H)|[(s & d & -> & H)|[H|H]]].
      - left. split; [intros []|]. destruct Hvw as [<-|[]]. eapply in_combine_r; eauto.
      - left. split; [intros []|]. destruct Hvw as [<-|[]]. eapply in_combine_r; eauto.
      - right; left. split; auto. eapply list_units_defs; eauto.
      - right; right. split; auto. eapply list_units_defs; eauto. }
    destruct (C u Hu Hv) as [[X _]|[[A1 A2]|[A1 A2]]]; [contradiction| |].
    + destruct (C u' Hu' Hv') as [[_ X]|[[B1 B2]|[B1 B2]]].
      * exfalso. eapply NoDup_app_disj; eauto. apply in_or_app; auto.
      * eapply U1; eauto.
      * exfalso. eapply NoDup_app_disj; [eapply NoDup_app_r; eauto| |]; eauto.
    + destruct (C u' Hu' Hv') as [[_ X]|[[B1 B2]|[B1 B2]]].
      * exfalso. eapply NoDup_app_disj; eauto. apply in_or_app; auto.
      * exfalso. eapply NoDup_app_disj; [eapply NoDup_app_r; eauto| |]; eauto.
      * eapply U2; eauto.
  - intros lb ub st i iv a b y o Hb N u u' v Hu Hu' Hv Hv' I. cbn [op_units defs] in *.
    pose proof (uniq_list b Hb (NoDup_app_r _ _ (NoDup_app_r _ _ (NoDup_app_r _ _ N)))) as U.
    assert (C : forall w, In w ([UEntry iv false] ++ joins i a ++ joins y a ++ joins i o ++ joins y o ++ flat_map op_units b) -> In v (outs_of w) ->
       (~ is_op w /\ In v (iv :: a ++ o)) \/ (In w (flat_map op_units b) /\ In v (flat_map defs b))).
    { intros w Hw Hvw. rewrite !in_app_iff, !joins_In in Hw.
      destruct Hw as [Hu1|[(s & d & -> & H)|[(s & d & -> & H)|[(s & d & -> & H)|[(s & d & -> & H)|H]]]]].
      - destruct Hu1 as [<-|[]]. left. split; [intros []|]. cbn in *. intuition.
      - left. split; [intros []|]. destruct Hvw as [<-|[]]. right. apply in_or_app. left. eapply in_combine_r; eauto.
      - left. split; [intros []|]. destruct Hvw as [<-|[]]. right. apply in_or_app. left. eapply in_combine_r; eauto.
      - left. split; [intros []|]. destruct Hvw as [<-|[]]. right. apply in_or_app. right. eapply in_combine_r; eauto.
      - left. split; [intros []|]. destruct Hvw as [<-|[]]. right. apply in_or_app. right. eapply in_combine_r; eauto.
      - right. split; auto. eapply list_units_defs; eauto. }
    destruct (C u Hu Hv) as [[X _]|[A1 A2]]; [contradiction|]. destruct (C u' Hu' Hv') as [[_ X]|[B1 B2]]; [|eapply U; eauto].
    exfalso. replace ([iv] ++ a ++ o ++ flat_map defs b) with ((iv :: a ++ o) ++ flat_map defs b) in N by (cbn; rewrite app_assoc; reflexivity).
    eapply NoDup_app_disj; eauto.
  - intros i a b y o Hb N u u' v Hu Hu' Hv Hv' I. cbn [op_units defs] in *.
    pose proof (uniq_list b Hb (NoDup_app_r _ _ (NoDup_app_r _ _ N))) as U.
    assert (C : forall w, In w ([UOp (map fst i) o true] ++ map (fun p : nat * (nat * bool) => UEntry (fst p) (snd (snd p))) (combine a i) ++ flat_map op_units b) -> In v (outs_of w) ->
       (w = UOp (map fst i) o true /\ In v o) \/ (~ is_op w /\ In v a) \/ (In w (flat_map op_units b) /\ In v (flat_map defs b))).
    { intros w Hw Hvw. rewrite !in_app_iff, in_map_iff in Hw. destruct Hw as [[<-|[]]|[([k x] & <- & H)|H]].
      - left. auto.
      - right; left. split; [intros []|]. destruct Hvw as [<-|[]]. eapply in_combine_l; eauto.
      - right; right. split; auto. eapply list_units_defs; eauto. }
    destruct (C u Hu Hv) as [[-> A]|[[X _]|[A1 A2]]]; [|contradiction|].
    + destruct (C u' Hu' Hv') as [[-> B]|[[_ B]|[B1 B2]]]; auto; exfalso.
      * eapply NoDup_app_disj; eauto. apply in_or_app; auto.
      * eapply NoDup_app_disj; [eapply NoDup_app_r; eauto| |]; eauto.
    + destruct (C u' Hu' Hv') as [[-> B]|[[_ B]|[B1 B2]]]; [exfalso|exfalso|eapply U; eauto].
      * eapply NoDup_app_disj; [eapply NoDup_app_r; eauto| |]; eauto.
      * eapply NoDup_app_disj; eauto. apply in_or_app; auto.
Qed.
Lemma uniq_func f : ssa f -> uniq_in (func_units f).
Proof.
  intros N u u' v Hu Hu' Hv Hv' I. unfold func_units, ssa in *.
  pose proof (uniq_list (f_body f) ltac:(apply Forall_forall; intros; apply uniq_op; auto) (NoDup_app_r _ _ N)) as U.
  rewrite in_app_iff in Hu, Hu'. rewrite in_map_iff in Hu, Hu'.
  destruct Hu as [([k x] & <- & H)|Hu]; [destruct I|]. destruct Hu' as [([k x] & <- & H)|Hu']; [|eapply U; eauto].
  exfalso. destruct Hv' as [<-|[]]. eapply NoDup_app_disj; eauto; [apply in_map_iff; eauto|eapply list_units_defs; eauto].
Qed.

(** * Local facts about a solution *)
Section Facts.
Variables (f : func) (st : state).
Hypothesis S : solution f st.
Hypothesis N : ssa f.
Lemma public_op ins outs rg r : In (UOp ins outs rg) (func_units f) -> In r outs -> public st r ->
  rg = false /\ forall i, In i ins -> public st i.
Proof.
  intros Hu Hr Hp. apply visit_op_false. fold (public st). pose proof (solution_above f st _ r S Hu Hr) as A. cbn [value_of] in A. rewrite Hp in A.
  destruct (solution_below f st S r) as [Z|(u & Hu' & Hr' & B)]; [rewrite Hp in Z; discriminate|].
  assert (u = UOp ins outs rg) by (eapply (uniq_func f N); eauto; exact I). subst u. cbn [value_of] in B. rewrite Hp in B.
  apply rank_inj. cbn in *. lia.
Qed.
Lemma public_entry v b : In (UEntry v b) (func_units f) -> public st v -> b = false.
Proof.
  intros Hu Hp. pose proof (solution_above f st _ v S Hu ltac:(left; auto)) as A. rewrite Hp in A. destruct b; auto. cbn in A. lia.
Qed.
Lemma public_join s d : In (UJoin s d) (func_units f) -> public st d -> known st s -> public st s.
Proof.
  intros Hu Hp Hk. pose proof (solution_above f st _ d S Hu ltac:(left; auto)) as A. rewrite Hp in A. cbn in A.
  unfold public, known in *. destruct (st s) as [[|]|]; cbn in *; auto; try lia. congruence.
Qed.
Lemma public_call ins outs r : In (UCall ins outs) (func_units f) -> In r outs -> public st r -> Forall (known st) ins ->
  forall i, In i ins -> public st i.
Proof.
  intros Hu Hr Hp Hk i Hi. pose proof (solution_above f st _ r S Hu Hr) as A. cbn [value_of] in A. rewrite Hp in A.
  rewrite Forall_forall in Hk. specialize (Hk i Hi). unfold public, known in *.
  destruct (st i) as [[|]|] eqn:E; auto; [|congruence].
  assert (X : rank (visit_call st ins) >= 2) by (apply visit_call_rank; right; exists i; rewrite E; auto). cbn in A. lia.
Qed.
End Facts.

(** * Noninterference *)
Section NI.
Variables (f : func) (st : state).
Hypothesis S : solution f st.
Hypothesis N : ssa f.
Variable V : Type.
Variable dflt : V.
Variable sem : nat -> list V -> list V -> list V.
Variable truth : V -> bool.
Variable ivs : V -> V -> V -> list V.
Variable idx : V -> nat.
Notation exec := (exec V dflt sem truth ivs idx).
Notation execs := (fold_left (fun s o => exec o s)).

Definition agree_env (e1 e2 : nat -> V) : Prop := forall v, public st v -> e1 v = e2 v.
Definition agree (s1 s2 : mstate V) : Prop :=
  agree_env (env s1) (env s2) /\ (forall m i, mem s1 m i = mem s2 m i) /\ trace s1 = trace s2.
Definition agree_vals (outs : list nat) (v1 v2 : list V) : Prop :=
  length v1 = length v2 /\
  forall k o x y, nth_error outs k = Some o -> public st o -> nth_error v1 k = Some x -> nth_error v2 k = Some y -> x = y.

Lemma assign_agree outs : forall v1 v2 e1 e2, agree_vals outs v1 v2 -> agree_env e1 e2 ->
  agree_env (assign V outs v1 e1) (assign V outs v2 e2).
Proof.
  unfold assign. induction outs as [|o outs IH]; intros v1 v2 e1 e2 (L & H) E; [exact E|].
  destruct v1 as [|x v1], v2 as [|y v2]; try discriminate; [exact E|]. cbn [combine fold_left fst snd]. apply IH.
  - split; [cbn in L; lia|]. intros k. apply (H (Datatypes.S k)).
  - intros v Hv. unfold upd. destruct (Nat.eqb_spec v o) as [->|]; auto. apply (H 0 o x y); auto.
Qed.
Lemma assign_other outs : forall v1 v2 e1 e2, (forall o, In o outs -> ~ public st o) -> agree_env e1 e2 ->
  agree_env (assign V outs v1 e1) (assign V outs v2 e2).
Proof.
  assert (K : forall outs v1 (e1 e2 : nat -> V), (forall o, In o outs -> ~ public st o) -> agree_env e1 e2 -> agree_env (assign V outs v1 e1) e2).
  { clear outs. unfold assign. induction outs as [|o outs IH]; intros v1 e1 e2 H E; [exact E|]. destruct v1 as [|x v1]; [exact E|]. cbn [combine fold_left].
    apply IH; [intros o' Ho'; apply H; right; auto|]. intros v Hv. cbn [fst snd]. unfold upd. destruct (Nat.eqb_spec v o) as [->|]; auto.
    exfalso. apply (H o); auto. left; auto. }
  intros v1 v2 e1 e2 H E. apply K; auto. intros v Hv. symmetry. apply K; auto. intros w Hw. symmetry. apply E; auto.
Qed.
Lemma pub_dec outs : (forall o, In o outs -> ~ public st o) \/ exists o, In o outs /\ public st o.
Proof.
  induction outs as [|o outs [IH|(p & Hp & IH)]]; [left; intros o []| |right; exists p; split; auto; right; auto].
  destruct (st o) as [[|]|] eqn:E; [left|right|left].
  - intros p [<-|Hp]; auto. unfold public. congruence.
  - exists o. split; auto. left; auto.
  - intros p [<-|Hp]; auto. unfold public. congruence.
Qed.
Lemma assign_same ins outs (g : list V -> list V) s1 s2 :
  (forall o, In o outs -> public st o -> forall i, In i ins -> public st i) -> agree s1 s2 ->
  agree_env (assign V outs (g (map (env s1) ins)) (env s1)) (assign V outs (g (map (env s2) ins)) (env s2)).
Proof.
  intros H (E & _). destruct (pub_dec outs) as [D|(o & Ho & Hp)].
  - apply assign_other; auto.
  - assert (M : map (env s1) ins = map (env s2) ins) by (apply map_ext_in; intros i Hi; apply E; eauto). rewrite M.
    apply assign_agree; auto. split; auto. intros k o' x y _ _ A B. congruence.
Qed.
(** values forwarded by control flow *)
Lemma forward_vals srcs dsts e1 e2 : incl (joins srcs dsts) (func_units f) -> Forall (known st) srcs -> agree_env e1 e2 ->
  agree_vals dsts (map e1 srcs) (map e2 srcs).
Proof.
  intros I K E. split; [rewrite !map_length; auto|]. intros k d x y Hd Hp Hx Hy.
  rewrite nth_error_map in Hx, Hy. destruct (nth_error srcs k) as [s|] eqn:Es; [|discriminate]. cbn in Hx, Hy. injection Hx as <-. injection Hy as <-.
  apply E. apply (public_join f st S s d); auto.
  - apply I. apply joins_In. exists s, d. split; auto. clear - Hd Es. revert dsts k Hd Es. induction srcs as [|a srcs IH]; intros [|b dsts] [|k] Hd Es; cbn in *; try discriminate.
    + injection Hd as ->. injection Es as ->. left; auto.
    + right. eapply IH; eauto.
  - rewrite Forall_forall in K. apply K. eapply nth_error_In; eauto.
Qed.
Lemma trace_grows : forall o s, exists t, trace (exec o s) = trace s ++ t.
Proof.
  assert (L : forall body, Forall (fun o => forall s, exists t, trace (exec o s) = trace s ++ t) body -> forall s, exists t, trace (execs body s) = trace s ++ t).
  { induction 1 as [|o body Ho Hb IH]; intros s; [exists []; cbn; rewrite app_nil_r; auto|]. cbn [fold_left].
    destruct (Ho s) as [t1 E1]. destruct (IH (exec o s)) as [t2 E2]. exists (t1 ++ t2). rewrite E2, E1, app_assoc. auto. }
  apply (op_ind2 (fun o => forall s, exists t, trace (exec o s) = trace s ++ t)); try (intros; exists []; cbn; rewrite app_nil_r; reflexivity).
  - intros i o s. cbn. eauto.
  - intros c tb ty eb ey o Ht He s. cbn. destruct (truth (env s c)); cbn; auto.
  - intros lb ub s0 i iv a b y o Hb s. cbn. generalize (map (env s) i).
    generalize (ivs (env s lb) (env s ub) (env s s0)) as is. intros is. revert s. induction is as [|x is IH]; intros s vals; [cbn; exists []; rewrite app_nil_r; auto|].
    cbn [fold_left fst snd]. set (s0' := set_env V (assign V a vals (upd iv x (env s))) s). destruct (L b Hb s0') as [t1 E1].
    destruct (IH (execs b s0') (map (env (execs b s0')) y)) as [t2 E2]. exists (t1 ++ t2). rewrite app_assoc. change (trace s ++ t1) with (trace s0' ++ t1). rewrite <- E1. exact E2.
  - intros i a b y o Hb s. cbn. apply (L b Hb (results V a (map (fun p => env s (fst p)) i) s)).
Qed.
Lemma traces_grow body s : exists t, trace (execs body s) = trace s ++ t.
Proof.
  revert s. induction body as [|o body IH]; intros s; [exists []; cbn; rewrite app_nil_r; auto|]. cbn [fold_left].
  destruct (trace_grows o s) as [t1 E1]. destruct (IH (exec o s)) as [t2 E2]. exists (t1 ++ t2). rewrite E2, E1, app_assoc. auto.
Qed.

Definition NIop (o : op) : Prop := incl (op_units o) (func_units f) -> data_flow_only st o ->
  forall s1 s2 r1 r2, agree s1 s2 -> trace (exec o s1) ++ r1 = trace (exec o s2) ++ r2 -> agree (exec o s1) (exec o s2).
Lemma ni_list body : Forall NIop body -> incl (flat_map op_units body) (func_units f) -> fold_right and True (map (data_flow_only st) body) ->
  forall s1 s2 r1 r2, agree s1 s2 -> trace (execs body s1) ++ r1 = trace (execs body s2) ++ r2 -> agree (execs body s1) (execs body s2).
Proof.
  induction 1 as [|o body Ho Hb IH]; intros I D s1 s2 r1 r2 A T; [exact A|]. cbn [fold_left flat_map map fold_right] in *. destruct D as [D1 D2].
  destruct (traces_grow body (exec o s1)) as [t1 E1]. destruct (traces_grow body (exec o s2)) as [t2 E2].
  eapply IH; eauto.
  - intros u Hu. apply I. apply in_or_app; auto.
  - eapply Ho; eauto; [intros u Hu; apply I; apply in_or_app; auto|]. rewrite E1, E2, <- !app_assoc in T. exact T.
Qed.
Lemma agree_results outs v1 v2 s1 s2 : agree_vals outs v1 v2 -> agree s1 s2 -> agree (results V outs v1 s1) (results V outs v2 s2).
Proof. intros H (E & M & T). unfold results, set_env. split; [|split]; cbn; auto. apply assign_agree; auto. Qed.
Lemma ni_op : forall o, NIop o.
Proof.
  apply (op_ind2 NIop); unfold NIop.
  - (* pure *) intros n ins outs I _ s1 s2 r1 r2 A T. cbn in *. unfold results, set_env. split; [|split; cbn; apply A].
    cbn [env]. apply (assign_same ins outs (fun l => sem n l []) s1 s2); auto. intros o Ho Hp. eapply (public_op f st S N ins outs false o); auto. apply I; left; auto.
  - (* region *) intros n ins caps outs I _ s1 s2 r1 r2 A T. cbn in *. unfold results, set_env. split; [|split; cbn; apply A].
    cbn [env]. apply assign_other; [|apply A]. intros o Ho Hp. destruct (public_op f st S N ins outs true o) as [X _]; auto; [apply I; left; auto|discriminate].
  - (* call *) intros n ins outs I K s1 s2 r1 r2 A T. cbn in *. unfold results, set_env. split; [|split; cbn; apply A].
    cbn [env]. apply (assign_same ins outs (fun l => sem n l []) s1 s2); auto. intros o Ho Hp. eapply (public_call f st S ins outs o); auto. apply I; left; auto.
  - (* reveal *) intros i o I _ s1 s2 r1 r2 A T. cbn in *. destruct A as (E & M & Tr). rewrite Tr, <- !app_assoc in T. apply app_inv_head in T. injection T as T1 T2.
    split; [|split]; cbn; auto; [|rewrite Tr, T1; auto]. intros v Hv. unfold upd. destruct (Nat.eqb v o); auto.
  - (* alloc *) intros m I _ s1 s2 r1 r2 (E & M & Tr) T. split; [|split]; cbn; auto. intros m' i. unfold upd. destruct (Nat.eqb m' m); auto.
  - (* store *) intros v m i I (Pv & Pi) s1 s2 r1 r2 (E & M & Tr) T. split; [|split]; cbn; auto. intros m' j. unfold upd.
    rewrite (E v Pv), (E i Pi). destruct (Nat.eqb m' m); auto. destruct (Nat.eqb j _); auto.
  - (* load *) intros r m i I _ s1 s2 r1 r2 (E & M & Tr) T. split; [|split]; cbn; auto. intros v Hv. unfold upd. destruct (Nat.eqb_spec v r) as [->|]; auto.
    destruct (public_op f st S N [m; i] [r] false r) as [_ X]; auto; [apply I; left; auto|left; auto|]. rewrite (E i); [apply M|]. apply X. right; left; auto.
  - (* if *) intros c tb ty eb ey outs Ht He I (Pc & K1 & K2 & D1 & D2) s1 s2 r1 r2 A T. cbn [Secretness_Spec.exec op_units] in *.
    rewrite (proj1 A c Pc) in *. destruct (truth (env s2 c)).
    + assert (A' : agree (execs tb s1) (execs tb s2)) by (eapply ni_list; eauto; intros u Hu; apply I; rewrite !in_app_iff; auto).
      apply agree_results; auto. apply forward_vals; auto; [|apply A']. intros u Hu; apply I; rewrite !in_app_iff; auto.
    + assert (A' : agree (execs eb s1) (execs eb s2)) by (eapply ni_list; eauto; intros u Hu; apply I; rewrite !in_app_iff; auto).
      apply agree_results; auto. apply forward_vals; auto; [|apply A']. intros u Hu; apply I; rewrite !in_app_iff; auto.
  - (* for *) intros lb ub s0 inits iv args body yields outs Hb I (P1 & P2 & P3 & K1 & K2 & D) s1 s2 r1 r2 A T. cbn [Secretness_Spec.exec op_units] in *.
    rewrite (proj1 A lb P1), (proj1 A ub P2), (proj1 A s0 P3) in *.
    pose proof (forward_vals inits args (env s1) (env s2) ltac:(intros u Hu; apply I; rewrite !in_app_iff; auto) K1 (proj1 A)) as W1.
    pose proof (forward_vals inits outs (env s1) (env s2) ltac:(intros u Hu; apply I; rewrite !in_app_iff; auto 8) K1 (proj1 A)) as W2.
    revert A W1 W2 T. generalize (map (env s1) inits) (map (env s2) inits). generalize (ivs (env s2 lb) (env s2 ub) (env s2 s0)) as is.
    intros is. revert s1 s2. induction is as [|x is IH]; intros s1 s2 v1 v2 A W1 W2 T.
    + cbn [fold_left fst snd]. apply agree_results; auto.
    + cbn [fold_left fst snd] in *.
      set (t1 := set_env V (assign V args v1 (upd iv x (env s1))) s1) in *. set (t2 := set_env V (assign V args v2 (upd iv x (env s2))) s2) in *.
      assert (B : agree t1 t2).
      { destruct A as (E & M & Tr). split; [|split]; cbn; auto. apply assign_agree; auto. intros v Hv. unfold upd. destruct (Nat.eqb v iv); auto. }
      assert (G : forall is s vals, exists t, trace (results V outs (snd (fold_left (fun sv i =>
           let s0 := set_env V (assign V args (snd sv) (upd iv i (env (fst sv)))) (fst sv) in
           let s1 := execs body s0 in (s1, map (env s1) yields)) is (s, vals)))
           (fst (fold_left (fun sv i =>
           let s0 := set_env V (assign V args (snd sv) (upd iv i (env (fst sv)))) (fst sv) in
           let s1 := execs body s0 in (s1, map (env s1) yields)) is (s, vals)))) = trace s ++ t).
      { clear. intros is. induction is as [|x is IH]; intros s vals; [cbn; exists []; rewrite app_nil_r; auto|].
        cbn [fold_left fst snd]. set (s0' := set_env V (assign V args vals (upd iv x (env s))) s). destruct (traces_grow body s0') as [t1 E1].
        destruct (IH (execs body s0') (map (env (execs body s0')) yields)) as [t2 E2]. exists (t1 ++ t2). rewrite app_assoc. change (trace s ++ t1) with (trace s0' ++ t1). rewrite <- E1. exact E2. }
      destruct (G is (execs body t1) (map (env (execs body t1)) yields)) as [u1 U1].
      destruct (G is (execs body t2) (map (env (execs body t2)) yields)) as [u2 U2].
      assert (C : agree (execs body t1) (execs body t2)).
      { eapply ni_list; eauto; [intros u Hu; apply I; rewrite !in_app_iff; auto 8|]. cbv zeta in U1, U2. rewrite U1, U2, <- !app_assoc in T. exact T. }
      apply IH; auto.
      * apply forward_vals; auto; [|apply C]. intros u Hu; apply I; rewrite !in_app_iff; auto 8.
      * apply forward_vals; auto; [|apply C]. intros u Hu; apply I; rewrite !in_app_iff; auto 8.
  - (* generic *) intros ins args body yields outs Hb I (K & D) s1 s2 r1 r2 A T. cbn [Secretness_Spec.exec op_units] in *.
    set (t1 := results V args (map (fun p => env s1 (fst p)) ins) s1) in *. set (t2 := results V args (map (fun p => env s2 (fst p)) ins) s2) in *.
    assert (B : agree t1 t2).
    { apply agree_results; auto. split; [rewrite !map_length; auto|]. intros k d x y Hd Hp Hx Hy. rewrite nth_error_map in Hx, Hy.
      destruct (nth_error ins k) as [[i b]|] eqn:Ei; [|discriminate]. cbn in Hx, Hy. injection Hx as <-. injection Hy as <-. apply (proj1 A).
      assert (Hin : In (d, (i, b)) (combine args ins)).
      { clear - Hd Ei. revert ins k Hd Ei. induction args as [|a args IH]; intros [|c ins] [|k] Hd Es; cbn in *; try discriminate.
        - injection Hd as ->. injection Es as ->. left; auto.
        - right. eapply IH; eauto. }
      assert (b = false).
      { apply (public_entry f st S d b); auto. apply I. rewrite !in_app_iff. right. left. apply in_map_iff. exists (d, (i, b)). auto. }
      rewrite Forall_forall in K. apply (K (i, b)); auto. eapply nth_error_In; eauto. }
    assert (C : agree (execs body t1) (execs body t2)).
    { eapply ni_list; eauto. intros u Hu; apply I; rewrite !in_app_iff; auto. }
    unfold results, set_env. split; [|split; cbn; apply C]. cbn [env]. apply assign_other; [|apply C].
    intros o Ho Hp. destruct (public_op f st S N (map fst ins) outs true o) as [X _]; auto; [apply I; left; auto|discriminate].
Qed.
Lemma ni_func : Forall (data_flow_only st) (f_body f) ->
  forall s1 s2, agree s1 s2 -> trace (exec_func V dflt sem truth ivs idx f s1) = trace (exec_func V dflt sem truth ivs idx f s2) ->
  agree (exec_func V dflt sem truth ivs idx f s1) (exec_func V dflt sem truth ivs idx f s2).
Proof.
  intros D s1 s2 A T. unfold exec_func in *. eapply (ni_list (f_body f)) with (r1 := []) (r2 := []); auto.
  - apply Forall_forall. intros; apply ni_op.
  - intros u Hu. unfold func_units. apply in_or_app. auto.
  - clear - D. induction D; cbn; auto.
  - rewrite !app_nil_r. auto.
Qed.
End NI.

(** * Secret values are the ones that depend on a source *)
Lemma all_to_all_In a b ins outs : In (a, b) (all_to_all ins outs) <-> In a ins /\ In b outs.
Proof.
  unfold all_to_all. rewrite in_flat_map. split.
  - intros (i & Hi & H). apply in_map_iff in H. destruct H as (o & [= <- <-] & Ho). auto.
  - intros [Ha Hb]. exists a. split; auto. apply in_map_iff. eauto.
Qed.
(** the edges and sources read off the steps *)
Definition u_edge (u : unit_) (a b : nat) : Prop :=
  match u with UOp ins outs _ | UCall ins outs => In a ins /\ In b outs | UJoin s d => a = s /\ b = d | _ => False end.
Lemma edges_units : forall o a b, In (a, b) (dep_edges o) <-> exists u, In u (op_units o) /\ u_edge u a b.
Proof.
  assert (L : forall body, Forall (fun o => forall a b, In (a, b) (dep_edges o) <-> exists u, In u (op_units o) /\ u_edge u a b) body ->
     forall a b, In (a, b) (flat_map dep_edges body) <-> exists u, In u (flat_map op_units body) /\ u_edge u a b).
  { intros body H a b. rewrite in_flat_map. rewrite Forall_forall in H. split.
    - intros (o & Ho & E). apply H in E; auto. destruct E as (u & Hu & E). exists u. split; auto. apply in_flat_map. eauto.
    - intros (u & Hu & E). apply in_flat_map in Hu. destruct Hu as (o & Ho & Hu). exists o. split; auto. apply H; eauto. }
  assert (J : forall srcs dsts a b, In (a, b) (combine srcs dsts) <-> exists u, In u (joins srcs dsts) /\ u_edge u a b).
  { intros srcs dsts a b. split.
    - intros H. exists (UJoin a b). split; [apply joins_In; eauto|cbn; auto].
    - intros (u & Hu & E). apply joins_In in Hu. destruct Hu as (s & d & -> & H). cbn in E. destruct E as [-> ->]. auto. }
  assert (X : forall us ws a b, (exists u, In u (us ++ ws) /\ u_edge u a b) <-> (exists u, In u us /\ u_edge u a b) \/ (exists u, In u ws /\ u_edge u a b)).
  { intros us ws a b. split.
    - intros (u & Hu & E). apply in_app_or in Hu. destruct Hu; [left|right]; eauto.
    - intros [(u & Hu & E)|(u & Hu & E)]; exists u; split; auto; apply in_or_app; auto. }
  apply (op_ind2 (fun o => forall a b, In (a, b) (dep_edges o) <-> exists u, In u (op_units o) /\ u_edge u a b)).
  - intros n ins outs a b. cbn [dep_edges op_units]. rewrite all_to_all_In. split; [intros H; eexists; split; [left; reflexivity|exact H]|intros (u & [<-|[]] & H); exact H].
  - intros n ins c outs a b. cbn [dep_edges op_units]. rewrite all_to_all_In. split; [intros H; eexists; split; [left; reflexivity|exact H]|intros (u & [<-|[]] & H); exact H].
  - intros n ins outs a b. cbn [dep_edges op_units]. rewrite all_to_all_In. split; [intros H; eexists; split; [left; reflexivity|exact H]|intros (u & [<-|[]] & H); exact H].
  - intros i o a b. cbn. split; [intros []|intros (u & [<-|[]] & [])].
  - intros m a b. cbn. split; [intros []|intros (u & [<-|[]] & [[] _])].
  - intros v m i a b. cbn. split; [intros []|intros (u & [<-|[]] & [_ []])].
  - intros r m i a b. cbn [dep_edges op_units]. split.
    + intros [[= <- <-]|[[= <- <-]|[]]]; eexists; (split; [left; reflexivity|]); cbn; auto.
    + intros (u & [<-|[]] & [[<-|[<-|[]]] [<-|[]]]); cbn; auto.
  - intros c tb ty eb ey o Ht He a b. cbn [dep_edges op_units]. rewrite !in_app_iff, !X, <- !J, <- !L by auto. tauto.
  - intros lb ub st i iv ar bd y o Hb a b. cbn [dep_edges op_units]. rewrite !in_app_iff, !X, <- !J, <- !L by auto.
    split; [tauto|]. intros [(u & [<-|[]] & [])|H]; tauto.
  - intros i ar bd y o Hb a b. cbn [dep_edges op_units]. rewrite !in_app_iff, !X, all_to_all_In, <- !L by auto. split.
    + intros [H|H]; auto. left. eexists. split; [left; reflexivity|]. exact H.
    + intros [(u & [<-|[]] & H)|[(u & Hu & H)|H]]; auto. apply in_map_iff in Hu. destruct Hu as (p & <- & _). destruct H.
Qed.
Lemma sources_units : forall o v, In v (secret_block_args o) <-> In (UEntry v true) (op_units o).
Proof.
  assert (L : forall body, Forall (fun o => forall v, In v (secret_block_args o) <-> In (UEntry v true) (op_units o)) body ->
     forall v, In v (flat_map secret_block_args body) <-> In (UEntry v true) (flat_map op_units body)).
  { intros body H v. rewrite !in_flat_map. rewrite Forall_forall in H. split; intros (o & Ho & E); exists o; split; auto; apply H; auto. }
  assert (J : forall srcs dsts v, ~ In (UEntry v true) (joins srcs dsts)).
  { intros srcs dsts v H. apply joins_In in H. destruct H as (s & d & E & _). discriminate. }
  apply (op_ind2 (fun o => forall v, In v (secret_block_args o) <-> In (UEntry v true) (op_units o)));
    try (intros; cbn; split; [intros []|intros [E|[]]; discriminate]).
  - intros c tb ty eb ey o Ht He v. cbn [secret_block_args op_units]. rewrite !in_app_iff, (L tb Ht), (L eb He). pose proof (J ty o v). pose proof (J ey o v). tauto.
  - intros lb ub st i iv a b y o Hb v. cbn [secret_block_args op_units]. rewrite !in_app_iff, (L b Hb).
    pose proof (J i a v). pose proof (J y a v). pose proof (J i o v). pose proof (J y o v). cbn [In]. split; [tauto|]. intros [[E|[]]|E]; [discriminate|tauto].
  - intros i a b y o Hb v. cbn [secret_block_args op_units]. rewrite !in_app_iff, (L b Hb), !in_map_iff. cbn [In]. split.
    + intros [(p & <- & H)|H]; auto. apply filter_In in H. destruct H as [H E]. right; left. exists p. rewrite E. auto.
    + intros [[E|[]]|[(p & E & H)|H]]; auto; [discriminate|]. injection E as <- E. left. exists p. split; auto. apply filter_In; auto.
Qed.
Lemma func_edges f a b : In (a, b) (flat_map dep_edges (f_body f)) <-> exists u, In u (func_units f) /\ u_edge u a b.
Proof.
  unfold func_units. rewrite in_flat_map. split.
  - intros (o & Ho & E). apply edges_units in E. destruct E as (u & Hu & E). exists u. split; auto. apply in_or_app. right. apply in_flat_map. eauto.
  - intros (u & Hu & E). apply in_app_or in Hu. destruct Hu as [Hu|Hu].
    + apply in_map_iff in Hu. destruct Hu as (p & <- & _). destruct E.
    + apply in_flat_map in Hu. destruct Hu as (o & Ho & Hu). exists o. split; auto. apply edges_units. eauto.
Qed.
Lemma func_sources f v : In v (sources f) <-> In (UEntry v true) (func_units f).
Proof.
  unfold sources, func_units, secret_args. rewrite !in_app_iff, !in_map_iff, !in_flat_map. split.
  - intros [(p & <- & H)|(o & Ho & H)].
    + apply filter_In in H. destruct H as [H E]. left. exists p. split; auto. f_equal. destruct p as [x [[|] [|]]]; cbn in *; auto; discriminate.
    + right. exists o. split; auto. apply sources_units; auto.
  - intros [(p & E & H)|(o & Ho & H)].
    + left. exists p. injection E as <- E. split; auto. apply filter_In. split; auto. destruct p as [x [[|] [|]]]; cbn in *; auto; discriminate.
    + right. exists o. split; auto. apply sources_units; auto.
Qed.
Lemma value_true st u : rank (value_of st u) >= 2 <-> (exists v, u = UEntry v true) \/ (exists a, st a = Some true /\ exists b, u_edge u a b) \/ (outs_of u = [] /\ rank (value_of st u) >= 2).
Proof.
  assert (R : forall x, rank x >= 2 <-> x = Some true) by (intros [[|]|]; cbn; split; intros; try lia; auto; discriminate).
  split.
  - intros H. destruct u as [v b|ins outs rg|o|ins outs|s d]; cbn [value_of outs_of] in *.
    + left. exists v. apply R in H. congruence.
    + destruct outs as [|b outs]; auto. right; left. pose proof H as H'. apply R in H'. apply visit_op_true in H'. destruct H' as (i & Hi & E). exists i. split; auto. exists b. cbn. auto.
    + cbn in H. lia.
    + destruct outs as [|b outs]; auto. right; left. pose proof H as H'. apply visit_call_rank in H'. destruct H' as [H'|(i & Hi & E)]; [lia|]. exists i. apply R in E. split; auto. exists b. cbn. auto.
    + right; left. exists s. apply R in H. split; auto. exists d. cbn; auto.
  - intros [(v & ->)|[(a & Ha & b & E)|[_ H]]]; auto.
    destruct u as [v b'|ins outs rg|o|ins outs|s d]; cbn in E; try contradiction; cbn [value_of].
    + apply R. apply visit_op_true. exists a. tauto.
    + apply visit_call_rank. right. exists a. rewrite Ha. cbn. split; [tauto|lia].
    + destruct E as [-> ->]. rewrite Ha. auto.
Qed.
Lemma u_edge_out u a b : u_edge u a b -> In b (outs_of u).
Proof. destruct u; cbn; intuition. Qed.
Lemma u_edge_any u a b b' : u_edge u a b -> In b' (outs_of u) -> u_edge u a b'.
Proof. destruct u; cbn; intuition. Qed.
Lemma secret_iff f st v : solution f st -> is_secret st v = true <-> exists s, In s (sources f) /\ depends f s v.
Proof.
  intros S. assert (T : forall v, is_secret st v = true <-> st v = Some true).
  { intros w. unfold is_secret. destruct (st w) as [[|]|]; split; congruence. }
  rewrite T. split.
  - (* along the run *)
    destruct (proj1 S) as (us & I & E). rewrite E. unfold run.
    assert (G : forall s0, (forall w, s0 w = Some true -> exists s, In s (sources f) /\ depends f s w) -> incl us (func_units f) ->
       forall w, fold_left (fun st u => visit u st) us s0 w = Some true -> exists s, In s (sources f) /\ depends f s w).
    { clear. intros s0. revert s0. induction us as [|u us IH]; intros s0 H I w; cbn [fold_left]; auto. apply IH; [|intros x Hx; apply I; right; auto].
      clear w. intros w Hw. apply (f_equal rank) in Hw. rewrite visit_rank in Hw. destruct (in_dec Nat.eq_dec w (outs_of u)) as [K|K].
      - destruct (Nat.max_spec (rank (s0 w)) (rank (value_of s0 u))) as [[_ M]|[_ M]]; rewrite M in Hw.
        + cbn in Hw. assert (G : rank (value_of s0 u) >= 2) by lia. apply value_true in G. destruct G as [(x & ->)|[(a & Ha & b & Eb)|[Z _]]].
          * destruct K as [<-|[]]. exists x. split; [apply func_sources; apply I; left; auto|apply rt_refl].
          * destruct (H a Ha) as (s & Hs & D). exists s. split; auto. eapply rt_trans; [exact D|]. apply rt_step. apply func_edges. exists u. split; [apply I; left; auto|].
            eapply u_edge_any; eauto.
          * rewrite Z in K. destruct K.
        + apply H. apply rank_inj. auto.
      - apply H. apply rank_inj. auto. }
    intros Hv. apply G with (s0 := fun _ => None); auto. discriminate.
  - intros (s & Hs & D). apply func_sources in Hs.
    assert (Z : st s = Some true).
    { pose proof (solution_above f st _ s S Hs ltac:(left; auto)) as A. cbn in A. destruct (st s) as [[|]|]; cbn in A; auto; lia. }
    clear Hs. induction D as [a b E|a|a b c D1 IH1 D2 IH2]; auto.
    apply func_edges in E. destruct E as (u & Hu & E). pose proof (u_edge_out _ _ _ E) as O.
    pose proof (solution_above f st u b S Hu O) as A.
    assert (B : rank (value_of st u) >= 2) by (apply value_true; right; left; exists a; eauto).
    destruct (st b) as [[|]|]; cbn in A; auto; lia.
Qed.

(** * Termination *)
Definition weight (vs : list nat) (st : state) : nat := fold_right (fun v a => rank (st v) + a) 0 vs.
Lemma weight_le vs st : weight vs st <= 2 * length vs.
Proof. induction vs as [|v vs IH]; [cbn; auto|]. unfold weight in *. cbn [fold_right length]. destruct (st v) as [[|]|]; cbn [rank]; lia. Qed.
Lemma weight_mono vs s t : (forall v, rank (s v) <= rank (t v)) -> weight vs s <= weight vs t.
Proof. intros H. induction vs as [|v vs IH]; unfold weight in *; cbn [fold_right]; auto. specialize (H v). lia. Qed.
Lemma weight_lt vs s t v : (forall v, rank (s v) <= rank (t v)) -> In v vs -> rank (s v) < rank (t v) -> weight vs s < weight vs t.
Proof.
  intros H. induction vs as [|w vs IH]; intros Hv L; [destruct Hv|]. pose proof (weight_mono vs s t H). unfold weight in *. cbn [fold_right]. destruct Hv as [->|Hv]; [lia|].
  specialize (IH Hv L). specialize (H w). lia.
Qed.
Definition all_defs (f : func) : list nat := map fst (f_args f) ++ flat_map defs (f_body f).
Lemma func_units_defs f u v : In u (func_units f) -> In v (outs_of u) -> In v (all_defs f).
Proof.
  unfold func_units, all_defs. rewrite !in_app_iff. intros [H|H] Hv.
  - apply in_map_iff in H. destruct H as (p & <- & Hp). destruct Hv as [<-|[]]. left. apply in_map. auto.
  - right. eapply list_units_defs; eauto.
Qed.
Lemma step_weight f u st v : In u (func_units f) -> visit u st v <> st v -> weight (all_defs f) st < weight (all_defs f) (visit u st).
Proof.
  intros Hu H. apply weight_lt with (v := v); [apply visit_up| |].
  - pose proof (visit_rank u st v) as R. destruct (in_dec Nat.eq_dec v (outs_of u)); [eapply func_units_defs; eauto|]. exfalso. apply H. apply rank_inj. auto.
  - pose proof (visit_up u st v). destruct (Nat.eq_dec (rank (st v)) (rank (visit u st v))) as [E|E]; [exfalso; apply H; apply rank_inj; auto|lia].
Qed.
(** every step of the run changes something *)
Fixpoint changing (us : list unit_) (st : state) : Prop :=
  match us with [] => True | u :: us' => (exists v, visit u st v <> st v) /\ changing us' (visit u st) end.
Lemma changing_bound f us : forall st, incl us (func_units f) -> changing us st -> length us + weight (all_defs f) st <= 2 * length (all_defs f).
Proof.
  induction us as [|u us IH]; intros st I C; [cbn; apply weight_le|]. cbn [changing length] in *. destruct C as [(v & Hv) C].
  pose proof (step_weight f u st v ltac:(apply I; left; auto) Hv). specialize (IH (visit u st) ltac:(intros x Hx; apply I; right; auto) C). lia.
Qed.
Lemma stable_dec us st : (forall u, In u us -> forall v, visit u st v = st v) \/ exists u v, In u us /\ visit u st v <> st v.
Proof.
  induction us as [|u us IH]; [left; intros u []|]. destruct IH as [IH|(u' & v & A & B)]; [|right; exists u', v; split; auto; right; auto].
  assert (D : (forall v, In v (outs_of u) -> visit u st v = st v) \/ exists v, visit u st v <> st v).
  { induction (outs_of u) as [|v vs IHv]; [left; intros v []|]. destruct IHv as [A|A]; auto.
    destruct (Nat.eq_dec (rank (visit u st v)) (rank (st v))) as [E|E].
    - left. intros w [<-|Hw]; auto. apply rank_inj; auto.
    - right. exists v. intros X. apply E. rewrite X. auto. }
  destruct D as [D|(v & D)]; [|right; exists u, v; split; auto; left; auto].
  left. intros w [<-|Hw] v; auto. destruct (in_dec Nat.eq_dec v (outs_of u)) as [K|K]; auto.
  apply rank_inj. rewrite visit_rank. destruct (in_dec Nat.eq_dec v (outs_of u)); [contradiction|auto].
Qed.
Lemma solution_exists f : exists st, solution f st.
Proof.
  assert (G : forall n st us, incl us (func_units f) -> (forall v, st v = run us v) -> 2 * length (all_defs f) - weight (all_defs f) st <= n -> exists st, solution f st).
  { induction n as [|n IH]; intros st us I E L; (destruct (stable_dec (func_units f) st) as [D|(u & v & Hu & D)]; [exists st; split; eauto|]).
    - exfalso. pose proof (step_weight f u st v Hu D). pose proof (weight_le (all_defs f) (visit u st)). lia.
    - apply (IH (visit u st) (us ++ [u])).
      + intros x Hx. apply in_app_or in Hx. destruct Hx as [Hx|[<-|[]]]; auto.
      + intros w. unfold run. rewrite fold_left_app. cbn [fold_left]. fold (run us). apply rank_inj. rewrite !visit_rank. rewrite E.
        rewrite (value_ext st (run us) u E). reflexivity.
      + pose proof (step_weight f u st v Hu D). lia. }
  apply (G (2 * length (all_defs f)) (fun _ => None) []); auto; [intros x []|]. lia.
Qed.
