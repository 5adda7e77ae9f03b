(** The OpenFHE pass keeps what a block computes when the mutated operands have no second name. *)
From Coq Require Import List Bool Arith Lia.
From Verif Require Import InPlace_Model InPlace_Spec InPlace_Proofs InPlaceLattigo_Proofs InPlaceLattigo2_Proofs.
Import ListNotations.

Section Pass.
  Variable D : Type.
  Variable ev : nat -> list D -> D.
  Variable b0 : block.
  Variable s0 : state D.
  Hypothesis ssa0 : ssa b0 s0.
  Hypothesis frag0 : openfhe_fragment b0.
  Notation ret := (rets b0).
  Notation n0 := (length (heap s0)).

  Definition private (v : nat) : Prop :=
    (exists j k' f' args', In j (code b0) /\ res j = v /\ def j = INew k' f' args') /\
    (forall j, In j (code b0) -> ~ captured_by v (def j)).
  Definition owned (s : state D) (v : nat) : Prop :=
    exists l, n0 <= l < length (heap s) /\ env s v = Some (Ptr l) /\
      (forall u x, env s u = Some x -> reach x l -> u = v) /\ ~ in_bufs D s l.
  Definition oinv (pre : list instr) (s : state D) : Prop := forall v, private v -> In v (map res pre) -> owned s v.

  Lemma oinv_step pre i rest s s' : code b0 = pre ++ i :: rest -> good_state s -> n0 <= length (heap s) ->
    (forall j, In j (i :: rest) -> env s (res j) = None) ->
    oinv pre s -> step D ev false i s = Some s' -> oinv (pre ++ [i]) s'.
  Proof.
    intros C0 G HN E1 OI S v PV Hv. rewrite map_app in Hv. apply in_app_or in Hv. cbn in Hv.
    pose proof (i_in b0 pre rest i C0) as HI.
    destruct (Nat.eq_dec v (res i)) as [->|NE].
    - (* just allocated *)
      destruct PV as [(j & k & f & args & Hj & Rj & Dj) NC].
      assert (j = i) by (apply (same_instr D b0 s0 ssa0 pre rest i C0); auto). subst j.
      unfold step in S. rewrite Dj in S. destruct (all (read D s) args) as [xs|]; cbn [bind] in S; [|discriminate].
      injection S as <-. exists (length (heap s)). cbn. rewrite app_length. cbn. repeat split; try lia.
      + unfold set. rewrite Nat.eqb_refl. auto.
      + intros u x. unfold set. destruct (Nat.eqb_spec u (res i)); auto. intros E R.
        pose proof (good_reach D ev s u x _ G E R). lia.
      + intros H. pose proof (good_in_bufs D s _ G H). lia.
    - destruct Hv as [Hv|[Hv|[]]]; [|congruence]. destruct (OI v PV Hv) as (l & Hl & El & Ul & Bl).
      destruct PV as [_ NC]. specialize (NC i HI).
      assert (X : forall x e, set (res i) x e v = e v).
      { intros. unfold set. destruct (Nat.eqb_spec v (res i)); [congruence|auto]. }
      assert (ALLOC : forall c, owned (alloc D s (res i) c) v).
      { intros c. exists l. cbn. rewrite app_length, X. cbn. repeat split; auto; try lia.
        intros u x. unfold set. destruct (Nat.eqb_spec u (res i)); [|apply Ul]. intros [= <-] R. cbn in R. lia. }
      assert (DEF : forall x, ~ reach x l -> owned (define D s (res i) x) v).
      { intros x NR. exists l. cbn. rewrite X. repeat split; auto; try lia.
        intros u y. unfold set. destruct (Nat.eqb_spec u (res i)); [|apply Ul]. intros [= <-] R. tauto. }
      unfold step in S. destruct (def i) as [k f args|f args dst|tt k|c tt k|cs|n|mm k|c mm k|init trips f args|w] eqn:Di; cbn in NC.
      + destruct (all (read D s) args); cbn [bind] in S; [|discriminate]. injection S as <-. apply ALLOC.
      + destruct (all (read D s) args) as [xs|]; cbn [bind] in S; [|discriminate].
        destruct (ptr D s dst) as [l'|] eqn:P; cbn [bind] in S; [|discriminate].
        destruct (nth_error (heap s) l') as [c|] eqn:C; cbn [bind] in S; [|discriminate]. cbn in S. injection S as <-.
        apply ptr_env in P. exists l. cbn. rewrite length_put, X. repeat split; auto; try lia.
        intros u x. unfold set. destruct (Nat.eqb_spec u (res i)); [|apply Ul]. intros [= <-] R. cbn in R. subst l'.
        exfalso. apply NC. apply (Ul dst (Ptr l)); auto. reflexivity.
      + destruct (vec D s tt) as [ls|] eqn:V; cbn [bind] in S; [|discriminate].
        destruct (nth_error ls k) as [l'|] eqn:N; cbn [bind] in S; [|discriminate]. injection S as <-.
        apply vec_env in V. apply DEF. cbn. intros ->. apply nth_error_In in N. pose proof (Ul tt (Vec ls) V N). congruence.
      + destruct (ptr D s c) as [l'|] eqn:P; cbn [bind] in S; [|discriminate].
        destruct (vec D s tt) as [ls|] eqn:V; cbn [bind] in S; [|discriminate]. injection S as <-.
        apply vec_env in V. apply ptr_env in P. apply DEF. cbn. intros I. apply in_put in I. destruct I as [->|I].
        * apply NC. apply (Ul c (Ptr l')); auto. reflexivity.
        * pose proof (Ul tt (Vec ls) V I). congruence.
      + destruct (all (ptr D s) cs) as [ls|] eqn:P; cbn [bind] in S; [|discriminate]. injection S as <-.
        apply DEF. cbn. intros I. destruct (all_in _ _ _ _ P I) as (c & Hc & Pc). apply ptr_env in Pc.
        apply NC. rewrite <- (Ul c (Ptr l) Pc); auto. reflexivity.
      + injection S as <-. exists l. cbn. rewrite X. repeat split; auto; try lia.
        * intros u x. unfold set. destruct (Nat.eqb_spec u (res i)); [|apply Ul]. intros [= <-] R. cbn in R. tauto.
        * intros (cs & H & I). cbn in H. apply in_app_or in H. destruct H as [H|[<-|[]]]; [apply Bl; exists cs; auto|].
          apply repeat_spec in I. discriminate.
      + destruct (buf D s mm) as [bb|] eqn:V; cbn [bind] in S; [|discriminate].
        destruct (nth_error (bufs s) bb) as [cs|] eqn:N; cbn [bind] in S; [|discriminate].
        destruct (nth_error cs k) as [o|] eqn:N2; cbn [bind] in S; [|discriminate].
        destruct o as [l'|]; cbn [bind] in S; [|discriminate]. injection S as <-.
        apply DEF. cbn. intros ->. apply Bl. exists cs. split; eapply nth_error_In; eauto.
      + destruct (ptr D s c) as [l'|] eqn:P; cbn [bind] in S; [|discriminate].
        destruct (buf D s mm) as [bb|] eqn:V; cbn [bind] in S; [|discriminate].
        destruct (nth_error (bufs s) bb) as [cs|] eqn:N; cbn [bind] in S; [|discriminate]. injection S as <-.
        apply ptr_env in P. exists l. cbn. repeat split; auto; try lia.
        intros (cs' & H & I). cbn in H. apply in_put in H. destruct H as [->|H]; [|apply Bl; exists cs'; auto].
        apply in_put in I. destruct I as [[= ->]|I]; [|apply Bl; exists cs; split; auto; eapply nth_error_In; eauto].
        apply NC. apply (Ul c (Ptr l')); auto. reflexivity.
      + destruct (all (read D s) args) as [xs|]; cbn [bind] in S; [|discriminate].
        destruct (ptr D s init) as [l'|] eqn:P; cbn [bind] in S; [|discriminate].
        destruct (nth_error (heap s) l') as [c|] eqn:C; cbn [bind] in S; [|discriminate].
        apply ptr_env in P. destruct trips as [|n]; injection S as <-; [|apply ALLOC].
        apply DEF. cbn. intros ->. apply NC. apply (Ul init (Ptr l)); auto. reflexivity.
      + destruct (env s w) as [x|]; cbn [bind] in S; [|discriminate]. injection S as <-.
        exists l. cbn. repeat split; auto; try lia.
  Qed.

  Lemma of_walk_sim rest : forall pre done vs s t phi,
    code b0 = pre ++ rest -> Forall2 inplace_of pre done -> steps D ev false done s0 = Some t ->
    rel D n0 ret phi s t rest -> oinv pre s ->
    (forall j, In j rest -> env s (res j) = None) ->
    forall s', steps D ev false rest s = Some s' ->
    exists t' phi', steps D ev false (fst (of_walk done rest ret vs)) s0 = Some t' /\ rel D n0 ret phi' s' t' [] /\
      Forall2 inplace_of (code b0) (fst (of_walk done rest ret vs)).
  Proof.
    induction rest as [|i rest IH]; intros pre done vs s t phi C0 FD SD R OI E1 s' SS.
    { cbn in SS. injection SS as <-. cbn. rewrite app_nil_r in C0. exists t, phi. rewrite C0. auto. }
    cbn [steps] in SS. destruct (step D ev false i s) as [s1|] eqn:S1s; cbn [bind] in SS; [|discriminate].
    assert (C1 : code b0 = (pre ++ [i]) ++ rest) by (rewrite <- app_assoc; auto).
    assert (OI1 : oinv (pre ++ [i]) s1).
    { apply (oinv_step pre i rest s); auto; [apply (r_good _ _ _ _ _ _ _ R)|apply (r_n0 _ _ _ _ _ _ _ R)]. }
    assert (E1' : forall j, In j rest -> env s1 (res j) = None).
    { intros j Hj. rewrite (env_frame D ev false i s s1); auto; [apply E1; right; auto|].
      apply (fresh_rest D b0 s0 ssa0 pre rest i C0 j Hj). }
    assert (KEEP : exists t' phi', steps D ev false (fst (of_walk (done ++ [i]) rest ret vs)) s0 = Some t' /\ rel D n0 ret phi' s' t' [] /\
      Forall2 inplace_of (code b0) (fst (of_walk (done ++ [i]) rest ret vs))).
    { destruct (sim_same D ev false _ _ _ _ _ _ _ R s1 S1s) as (t1 & phi1 & St & R1 & _).
      apply (IH (pre ++ [i]) (done ++ [i]) vs s1 t1 phi1); auto.
      - apply Forall2_app; auto. constructor; auto. left; auto.
      - rewrite (steps_snoc D ev false done i s0 t SD). auto. }
    cbn [of_walk]. destruct (def i) as [k f args| | | | | | | | |] eqn:Di; auto. destruct args as [|v args]; auto.
    destruct (convertible k && safe_to_mutate (Block (done ++ i :: rest) ret) rest vs v) eqn:CH; auto.
    apply andb_prop in CH. destruct CH as [CK CS].
    assert (NK : k <> KOther) by (intros ->; discriminate).
    unfold safe_to_mutate in CS. apply andb_prop in CS. destruct CS as [CS _]. unfold dead_after in CS. cbn [rets] in CS.
    rewrite andb_true_iff, !negb_true_iff in CS. destruct CS as [CS1 CS2].
    pose proof (i_in b0 pre rest i C0) as HI.
    pose proof (frag0 i k f v args HI Di NK) as PV. fold (private v) in PV.
    (* the operand has been read *)
    assert (exists l0, env s v = Some (Ptr l0)) as (l0 & Ev).
    { unfold step in S1s. rewrite Di in S1s. cbn [all] in S1s. unfold read at 1 in S1s.
      destruct (ptr D s v) as [l0|] eqn:P; cbn [bind] in S1s; [|discriminate]. apply ptr_env in P. eauto. }
    assert (Hp : In v (map res pre)).
    { destruct PV as [(j & k' & f' & args' & Hj & Rj & Dj) _]. rewrite C0 in Hj. apply in_app_or in Hj.
      destruct Hj as [Hj|Hj]; [rewrite <- Rj; apply in_map; auto|]. specialize (E1 j Hj). rewrite Rj in E1. congruence. }
    destruct (OI v PV Hp) as (l1 & Hl & El & Ul & Bl). assert (l1 = l0) by congruence. subst l1.
    assert (LL : live D n0 (i :: rest) ret s l0).
    { right; right. exists v, (Ptr l0). repeat split; auto. apply needed_here; rewrite Di; cbn; auto. }
    pose proof (r_env _ _ _ _ _ _ _ R v) as ET. rewrite Ev in ET. cbn in ET.
    assert (exists c, nth_error (heap t) (phi l0) = Some c) as (c & Hc).
    { rewrite (r_heap _ _ _ _ _ _ _ R l0 LL). destruct (nth_error (heap s) l0) eqn:E; eauto.
      apply nth_error_None in E. lia. }
    destruct (sim_inplace D ev false _ _ _ _ _ _ _ R k f (v :: args) v (phi l0) c s1 Di S1s ET Hc ltac:(discriminate)) as (t1 & phi1 & xs & St & Et & R1 & _).
    { intros l Hlive E.
      assert (live D n0 (i :: rest) ret s l).
      { destruct Hlive as [H|[H|(u & x & Nu & Eu & Ru)]]; [left; auto|right; left; auto|].
        right; right. exists u, x. repeat split; auto. apply needed_cons; auto. }
      assert (l = l0) by (apply (r_inj _ _ _ _ _ _ _ R); auto). subst l.
      destruct Hlive as [H'|[H'|(u & x & Nu & Eu & Ru)]]; [lia|tauto|].
      assert (u = v) by (eapply Ul; eauto). subst u. destruct Nu as [Nu|(j & Hj & _ & Uj)].
      - apply mem_nat_spec in Nu. congruence.
      - apply mem_nat_spec in Uj. assert (existsb (fun i => mem_nat v (all_uses (def i))) rest = true) by (apply existsb_exists; eauto).
        congruence. }
    apply (IH (pre ++ [i]) _ _ s1 t1 phi1); auto.
    - apply Forall2_app; auto. constructor; auto. right. exists k, f, (v :: args), v. auto.
    - rewrite (steps_snoc D ev false done _ s0 t SD). auto.
  Qed.
End Pass.

Lemma openfhe_whole D ev b0 (s0 : state D) o : good_state s0 -> ssa b0 s0 -> openfhe_fragment b0 ->
  run D ev false b0 s0 = Some o ->
  run D ev false (openfhe_inplace b0) s0 = Some o /\ Forall2 inplace_of (code b0) (code (openfhe_inplace b0)).
Proof.
  intros G SA FR H. unfold run in *. destruct (steps D ev false (code b0) s0) as [s'|] eqn:S; cbn [bind] in H; [|discriminate].
  destruct (of_walk_sim D ev b0 s0 SA FR (code b0) [] [] [] s0 s0 (fun l => l)) with (s' := s')
    as (t' & phi' & A & B & C); auto.
  - apply rel_start; auto.
  - intros v _ [].
  - intros j Hj. apply SA; auto.
  - unfold openfhe_inplace. cbn [code rets]. rewrite A. cbn [bind]. rewrite (rel_observe _ _ _ _ _ _ B). auto.
Qed.
