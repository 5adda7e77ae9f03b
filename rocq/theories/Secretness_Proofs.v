(** Lemmas for the secretness analysis. *)
From Coq Require Import List Bool Arith Lia Relations.
From Verif Require Import Secretness_Model Secretness_Spec.
Import ListNotations.

Definition rank (x : secretness) : nat := match x with None => 0 | Some false => 1 | Some true => 2 end.
Lemma rank_join a b : rank (join a b) = Nat.max (rank a) (rank b).
Proof. destruct a as [[|]|], b as [[|]|]; reflexivity. Qed.
Lemma rank_inj a b : rank a = rank b -> a = b.
Proof. destruct a as [[|]|], b as [[|]|]; cbn; congruence. Qed.

(** * One step *)
Definition outs_of (u : unit_) : list nat :=
  match u with UEntry v _ => [v] | UOp _ o _ => o | UReveal o => [o] | UCall _ o => o | UJoin _ d => [d] end.
Definition value_of (st : state) (u : unit_) : secretness :=
  match u with
  | UEntry _ b => Some b | UOp ins _ rg => visit_op st ins rg | UReveal _ => Some false
  | UCall ins _ => visit_call st ins | UJoin s _ => st s
  end.
Lemma join_into_fold x outs : forall st v,
  rank (fold_left (join_into x) outs st v) = if in_dec Nat.eq_dec v outs then Nat.max (rank (st v)) (rank x) else rank (st v).
Proof.
  induction outs as [|o outs IH]; intros st v; [reflexivity|].
  cbn [fold_left]. rewrite IH. unfold join_into at 1 2, upd.
  destruct (Nat.eqb_spec v o) as [->|N].
  - rewrite rank_join. destruct (in_dec Nat.eq_dec o outs), (in_dec Nat.eq_dec o (o :: outs)); cbn in *; try lia; exfalso; intuition.
  - destruct (in_dec Nat.eq_dec v outs), (in_dec Nat.eq_dec v (o :: outs)); cbn in *; try lia; exfalso; intuition congruence.
Qed.
Lemma visit_rank u st v :
  rank (visit u st v) = if in_dec Nat.eq_dec v (outs_of u) then Nat.max (rank (st v)) (rank (value_of st u)) else rank (st v).
Proof.
  assert (E : visit u st = fold_left (join_into (value_of st u)) (outs_of u) st) by (destruct u; reflexivity).
  rewrite E. apply join_into_fold.
Qed.

(** * The value of an operation *)
Definition is_st (b : secretness) (x : secretness) : bool := Nat.eqb (rank x) (rank b).
Lemma operand_loop_spec st ins : forall res un, rank res <> 2 ->
  let r := operand_loop st ins res un in
  (fst r = Some true /\ exists i, In i ins /\ st i = Some true) \/
  (rank (fst r) <> 2 /\ (forall i, In i ins -> st i <> Some true) /\
   snd r = un || existsb (fun i => is_st None (st i)) ins /\
   fst r = if existsb (fun i => is_st (Some false) (st i)) ins then Some false else res).
Proof.
  induction ins as [|v ins IH]; intros res un Hr; cbn [operand_loop existsb].
  - right. cbn. rewrite orb_false_r. auto.
  - destruct (st v) as [[|]|] eqn:E.
    + assert (J : join res (Some true) = Some true) by (destruct res as [[|]|]; reflexivity). rewrite J. cbn. left. split; auto. exists v. auto.
    + assert (J : join res (Some false) = Some false) by (destruct res as [[|]|]; cbn in *; congruence). rewrite J.
      destruct (IH (Some false) un ltac:(cbn; lia)) as [(A & i & Hi & Ei)|(A & B & C & D)].
      * left. split; auto. exists i. split; auto. right; auto.
      * right. split; auto. split; [intros i [<-|Hi]; auto; congruence|]. cbn [is_st rank Nat.eqb orb]. split; [exact C|].
        rewrite D. destruct (existsb (fun i => is_st (Some false) (st i)) ins); reflexivity.
    + assert (J : join res None = res) by (destruct res as [[|]|]; reflexivity). rewrite J.
      destruct res as [[|]|]; [cbn in Hr; lia| |].
      * destruct (IH (Some false) true ltac:(cbn; lia)) as [(A & i & Hi & Ei)|(A & B & C & D)].
        -- left. split; auto. exists i. split; auto. right; auto.
        -- right. split; auto. split; [intros i [<-|Hi]; auto; congruence|]. cbn [is_st rank Nat.eqb orb]. split; [rewrite C; cbn; rewrite orb_true_r; reflexivity|exact D].
      * destruct (IH None true ltac:(cbn; lia)) as [(A & i & Hi & Ei)|(A & B & C & D)].
        -- left. split; auto. exists i. split; auto. right; auto.
        -- right. split; auto. split; [intros i [<-|Hi]; auto; congruence|]. cbn [is_st rank Nat.eqb orb]. split; [rewrite C; cbn; rewrite orb_true_r; reflexivity|exact D].
Qed.
Lemma visit_op_true st ins rg : visit_op st ins rg = Some true <-> exists i, In i ins /\ st i = Some true.
Proof.
  unfold visit_op. set (res0 := match ins with [] => Some false | _ => None end).
  assert (R : rank res0 <> 2) by (unfold res0; destruct ins; cbn; lia).
  pose proof (operand_loop_spec st ins res0 false R) as H. cbv zeta in H.
  destruct (operand_loop st ins res0 false) as [res un]. cbn [fst snd] in H.
  destruct H as [(-> & X)|(A & B & C & D)].
  - split; auto. intros _. destruct (un || rg); reflexivity.
  - split.
    + intros E. exfalso. destruct (un || rg); [destruct res as [[|]|]; cbn in *; try discriminate; lia|]. subst res. rewrite E in A. cbn in A. lia.
    + intros (i & Hi & Ei). exfalso. eapply B; eauto.
Qed.
Lemma visit_op_false st ins rg : visit_op st ins rg = Some false <-> rg = false /\ forall i, In i ins -> st i = Some false.
Proof.
  unfold visit_op. set (res0 := match ins with [] => Some false | _ => None end).
  assert (R : rank res0 <> 2) by (unfold res0; destruct ins; cbn; lia).
  pose proof (operand_loop_spec st ins res0 false R) as H. cbv zeta in H.
  destruct (operand_loop st ins res0 false) as [res un]. cbn [fst snd] in H.
  destruct H as [(-> & i & Hi & Ei)|(A & B & C & D)].
  - split; [destruct (un || rg); discriminate|]. intros (_ & X). rewrite (X i Hi) in Ei. discriminate.
  - cbn [orb] in C. split.
    + intros E. destruct rg; [rewrite orb_true_r in E; destruct res as [[|]|]; discriminate|]. split; auto. rewrite orb_false_r in E.
      destruct un; [destruct res as [[|]|]; discriminate|]. intros i Hi. specialize (B i Hi).
      symmetry in C. assert (X : is_st None (st i) = false).
      { destruct (is_st None (st i)) eqn:Y; auto. rewrite <- C. symmetry. apply existsb_exists. eauto. }
      destruct (st i) as [[|]|]; cbn in *; congruence.
    + intros (-> & X). assert (un = false).
      { rewrite C. destruct (existsb (fun i => is_st None (st i)) ins) eqn:Y; auto. apply existsb_exists in Y. destruct Y as (i & Hi & Y). rewrite (X i Hi) in Y. discriminate. }
      rewrite H. cbn [orb]. rewrite D. unfold res0. destruct ins as [|i ins]; [reflexivity|]. cbn [existsb]. rewrite (X i) by (left; auto). reflexivity.
Qed.
Lemma visit_call_rank st ins k : rank (visit_call st ins) >= k <-> k = 0 \/ exists i, In i ins /\ rank (st i) >= k.
Proof.
  unfold visit_call. assert (G : forall acc, rank (fold_left (fun acc v => join acc (st v)) ins acc) >= k <-> rank acc >= k \/ exists i, In i ins /\ rank (st i) >= k).
  { induction ins as [|v ins IH]; intros acc; cbn [fold_left].
    - split; auto. intros [H|(i & [] & _)]; auto.
    - rewrite IH, rank_join. split.
      + intros [H|(i & Hi & H)]; [|right; exists i; split; auto; right; auto].
        destruct (Nat.max_spec (rank acc) (rank (st v))) as [[_ E]|[_ E]]; rewrite E in H; [right; exists v; split; auto; left; auto|auto].
      + intros [H|(i & [<-|Hi] & H)]; [left; lia|left; lia|right; eauto]. }
  rewrite G. cbn. split; intros [H|H]; auto; left; lia.
Qed.
Lemma value_mono u st st' : (forall v, rank (st v) <= rank (st' v)) -> rank (value_of st u) <= rank (value_of st' u).
Proof.
  intros H. destruct u as [v b|ins outs rg|o|ins outs|s d]; cbn [value_of]; auto.
  - destruct (visit_op st ins rg) as [[|]|] eqn:E; [| |cbn; lia].
    + apply visit_op_true in E. destruct E as (i & Hi & E). specialize (H i). rewrite E in H.
      assert (X : visit_op st' ins rg = Some true) by (apply visit_op_true; exists i; split; auto; destruct (st' i) as [[|]|]; cbn in *; auto; lia). rewrite X. auto.
    + apply visit_op_false in E. destruct E as [-> E]. cbn [rank]. destruct (visit_op st' ins false) as [[|]|] eqn:E'; cbn; auto. exfalso.
      assert (X : visit_op st' ins false <> None); [|congruence]. clear E'.
      destruct (existsb (fun i => is_st (Some true) (st' i)) ins) eqn:Y.
      * apply existsb_exists in Y. destruct Y as (i & Hi & Y). rewrite (proj2 (visit_op_true st' ins false)); [discriminate|].
        exists i. split; auto. destruct (st' i) as [[|]|]; cbn in *; congruence.
      * rewrite (proj2 (visit_op_false st' ins false)); [discriminate|]. split; auto. intros i Hi. specialize (H i). rewrite (E i Hi) in H.
        assert (Z : is_st (Some true) (st' i) = false) by (destruct (is_st (Some true) (st' i)) eqn:Z; auto; rewrite <- Y; symmetry; apply existsb_exists; eauto).
        destruct (st' i) as [[|]|]; cbn in *; try congruence; lia.
  - apply visit_call_rank. destruct (proj1 (visit_call_rank st ins (rank (visit_call st ins))) (le_n _)) as [E|(i & Hi & E)]; auto.
    right. exists i. split; auto. specialize (H i). lia.
Qed.

(** * Solutions *)
Definition below (us : list unit_) (st : state) : Prop :=
  forall v, rank (st v) = 0 \/ exists u, In u us /\ In v (outs_of u) /\ rank (st v) <= rank (value_of st u).
Lemma visit_up u st v : rank (st v) <= rank (visit u st v).
Proof. rewrite visit_rank. destruct (in_dec _ _ _); lia. Qed.
Lemma below_visit us u st : In u us -> below us st -> below us (visit u st).
Proof.
  intros Hu H v. assert (M : forall u', rank (value_of st u') <= rank (value_of (visit u st) u')) by (intros u'; apply value_mono; intros; apply visit_up).
  rewrite visit_rank. destruct (in_dec Nat.eq_dec v (outs_of u)) as [I|I].
  - destruct (Nat.max_spec (rank (st v)) (rank (value_of st u))) as [[_ E]|[_ E]]; rewrite E.
    + right. exists u. auto.
    + destruct (H v) as [Z|(u' & A & B & C)]; auto. right. exists u'. split; auto. split; auto. specialize (M u'). lia.
  - destruct (H v) as [Z|(u' & A & B & C)]; auto. right. exists u'. split; auto. split; auto. specialize (M u'). lia.
Qed.
Lemma below_run us vs : incl vs us -> below us (run vs).
Proof.
  unfold run. assert (G : forall st, below us st -> incl vs us -> below us (fold_left (fun st u => visit u st) vs st)).
  { induction vs as [|u vs IH]; intros st H I; auto. cbn [fold_left]. apply IH; [apply below_visit; auto; apply I; left; auto|intros x Hx; apply I; right; auto]. }
  intros I. apply G; auto. intros v. left. reflexivity.
Qed.
Lemma visit_op_ext st st' ins rg : (forall v, st v = st' v) -> visit_op st ins rg = visit_op st' ins rg.
Proof.
  intros H. unfold visit_op. assert (E : forall r un, operand_loop st ins r un = operand_loop st' ins r un); [|rewrite E; auto].
  induction ins as [|v ins IH]; intros r un; cbn [operand_loop]; auto. rewrite H. destruct (join r (st' v)) as [[|]|]; auto.
Qed.
Lemma value_ext st st' u : (forall v, st v = st' v) -> rank (value_of st u) = rank (value_of st' u).
Proof. intros H. apply Nat.le_antisymm; apply value_mono; intros v; rewrite H; auto. Qed.
Lemma solution_below f st : solution f st -> below (func_units f) st.
Proof.
  intros ((us & I & E) & _) v. destruct (below_run _ _ I v) as [Z|(u & A & B & C)]; rewrite E; auto.
  right. exists u. split; auto. split; auto. rewrite (value_ext st (run us) u E). auto.
Qed.
Lemma solution_above f st u v : solution f st -> In u (func_units f) -> In v (outs_of u) -> rank (value_of st u) <= rank (st v).
Proof.
  intros (_ & S) Hu Hv. specialize (S u Hu v). apply (f_equal rank) in S. rewrite visit_rank in S. destruct (in_dec _ _ _); [lia|contradiction].
Qed.
Lemma run_le_solution f st us : solution f st -> incl us (func_units f) -> forall v, rank (run us v) <= rank (st v).
Proof.
  intros S I. unfold run. assert (G : forall s, (forall v, rank (s v) <= rank (st v)) -> incl us (func_units f) -> forall v, rank (fold_left (fun st u => visit u st) us s v) <= rank (st v)).
  { induction us as [|u us IH]; intros s H J v; auto. cbn [fold_left]. apply IH; [intros x Hx; apply I; right; auto| |intros x Hx; apply J; right; auto].
    intros w. rewrite visit_rank. destruct (in_dec Nat.eq_dec w (outs_of u)) as [K|K]; auto.
    pose proof (value_mono u s st H). pose proof (solution_above f st u w S ltac:(apply J; left; auto) K). specialize (H w). lia. }
  apply G; auto. intros v; cbn; lia.
Qed.
Lemma solution_unique f s t : solution f s -> solution f t -> forall v, s v = t v.
Proof.
  intros S T v. apply rank_inj. destruct (proj1 S) as (us & I & E). destruct (proj1 T) as (ws & J & F).
  pose proof (run_le_solution f t us T I v). pose proof (run_le_solution f s ws S J v). rewrite E, F in *. lia.
Qed.
