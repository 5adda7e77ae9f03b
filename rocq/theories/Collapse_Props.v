(** C35: collapsing a chain of insertions into a rotation. *)
From Coq Require Import ZArith List Bool Lia.
From Verif Require Import Rotate_Spec Collapse_Model Collapse_Proofs.
Import ListNotations.
Open Scope Z_scope.

(** Every operation keeps its value, for any number of applications of the
    pattern, when no tensor is the destination of two insertions of extracted
    elements. *)
Theorem C35_collapse_partial (E : Type) (args : nat -> list E) scal idx alen p p' vals :
  (forall x, Z.of_nat (length (args x)) = alen x) ->
  unforked p ->
  run E args scal idx [] p = Some vals ->
  collapses alen p p' ->
  run E args scal idx [] p' = Some vals.
Proof. apply collapses_ok. Qed.
Print Assumptions C35_collapse_partial.

(** The walk along the chain ends. *)
Theorem C35_ends alen p users src shift acc cur :
  ssa p -> users_of p users -> (cur < length p)%nat ->
  follow alen users (S (length p)) p src shift acc cur <> None.
Proof. intros Hs Hu Hc. apply follow_ends; auto. lia. Qed.
Print Assumptions C35_ends.

(** Four insertions, in another order than the indices: out[j] = in[j + 1]. *)
Definition ex_chain : program :=
  [ Insert (Extract (Arg 0) (Cst 3)) (Arg 1) (Cst 2);
    Insert (Extract (Arg 0) (Cst 0)) (Res 0) (Cst 3);
    Insert (Extract (Arg 0) (Cst 1)) (Res 1) (Cst 0);
    Insert (Extract (Arg 0) (Cst 2)) (Res 2) (Cst 1) ].
Definition ex_users (k : nat) : list nat := match k with 0 => [1] | 1 => [2] | 2 => [3] | _ => [] end%nat.
Definition ex_args (x : nat) : list Z := match x with 0%nat => [10; 11; 12; 13] | _ => [0; 0; 0; 0] end.
Lemma ex_users_ok : users_of ex_chain ex_users.
Proof.
  intros k. split.
  - destruct k as [|[|[|k]]]; repeat constructor; auto.
  - intros j. split.
    + destruct k as [|[|[|k]]]; cbn; intros H; destruct H as [<-|[]] || destruct H; eexists _, _; reflexivity.
    + intros (s & i & H). destruct j as [|[|[|[|[|j]]]]]; cbn in H; try discriminate; injection H as _ <- _; cbn; auto.
Qed.
Example C35_nonvacuous :
  unforked ex_chain /\ ssa ex_chain /\
  collapse (fun _ => 4) ex_users ex_chain 0 = Some (replace_op ex_chain 3 (Rotate (Arg 0) 1)) /\
  (exists vals, run Z ex_args (fun _ => 0) (fun _ => 0) [] ex_chain = Some vals /\ nth_error vals 3 = Some [11; 12; 13; 10]).
Proof.
  split; [|split; [|split; [reflexivity|eexists; split; reflexivity]]].
  - intros k j1 j2 t1 e1 i1 t2 e2 i2 H1 H2.
    destruct j1 as [|[|[|[|[|j1]]]]]; cbn in H1; try discriminate; injection H1 as <- <- <- <-;
      destruct j2 as [|[|[|[|[|j2]]]]]; cbn in H2; try discriminate; reflexivity.
  - intros k o H. destruct k as [|[|[|[|[|k]]]]]; cbn in H; try discriminate; injection H as <-; cbn; lia.
Qed.

(** The claim is false when two insertions go into the same tensor: the
    indices of both branches are counted, but only one branch is followed.
    Whatever the order of the use list, an operation of one branch is replaced
    by the rotation although it never received the element of the other. *)
Definition ex_fork : program :=
  [ Insert (Extract (Arg 0) (Cst 0)) (Arg 1) (Cst 0);
    Insert (Extract (Arg 0) (Cst 1)) (Res 0) (Cst 1);
    Insert (Extract (Arg 0) (Cst 2)) (Res 0) (Cst 2) ].
Theorem C35_fork_refuted :
  exists p args alen, (forall x, Z.of_nat (length (args x)) = alen x) /\ ssa p /\ (exists users, users_of p users) /\
    forall users, users_of p users ->
      exists p', collapse alen users p 0 = Some p' /\
        run Z args (fun _ => 0) (fun _ => 0) [] p <> None /\ run Z args (fun _ => 0) (fun _ => 0) [] p' <> None /\
        run Z args (fun _ => 0) (fun _ => 0) [] p' <> run Z args (fun _ => 0) (fun _ => 0) [] p.
Proof.
  exists ex_fork, (fun x => match x with 0%nat => [10; 11; 12] | _ => [0; 0; 0] end), (fun _ => 3).
  split; [intros [|]; reflexivity|]. split.
  { intros k o H. destruct k as [|[|[|[|k]]]]; cbn in H; try discriminate; injection H as <-; cbn; lia. }
  split.
  { exists (fun k => match k with 0%nat => [1; 2]%nat | _ => [] end). intros k. split.
    - destruct k; repeat constructor; cbn; lia.
    - intros j. split.
      + destruct k; cbn; intros H; [destruct H as [<-|[<-|[]]]|destruct H]; eexists _, _; reflexivity.
      + intros (s & i & H). destruct j as [|[|[|[|j]]]]; cbn in H; try discriminate; injection H as _ <- _; cbn; auto. }
  intros users Hu.
  assert (Hno : forall k, (0 < k)%nat -> users k = []).
  { intros k Hk. destruct (users k) as [|j us] eqn:Ek; auto. exfalso. destruct (Hu k) as [_ H].
    assert (In j (users k)) as Hj by (rewrite Ek; left; auto). apply H in Hj. destruct Hj as (s & i & Hj).
    destruct j as [|[|[|[|j]]]]; cbn in Hj; try discriminate; injection Hj as _ <- _; lia. }
  assert (U0 : users 0%nat = [1; 2]%nat \/ users 0%nat = [2; 1]%nat).
  { destruct (Hu 0%nat) as [Nd H].
    assert (I : forall j, In j (users 0%nat) <-> j = 1%nat \/ j = 2%nat).
    { intros j. rewrite H. split.
      - intros (s & i & Hj). destruct j as [|[|[|[|j]]]]; cbn in Hj; try discriminate; auto.
      - intros [-> | ->]; eexists _, _; reflexivity. }
    destruct (users 0%nat) as [|a [|b [|c us]]].
    - destruct (proj2 (I 1%nat) (or_introl eq_refl)).
    - assert (A := proj2 (I 1%nat) (or_introl eq_refl)). assert (B := proj2 (I 2%nat) (or_intror eq_refl)). cbn in A, B. lia.
    - inversion Nd as [|? ? Na _]; subst.
      destruct (proj1 (I a) (or_introl eq_refl)) as [-> | ->], (proj1 (I b) (or_intror (or_introl eq_refl))) as [-> | ->]; auto; destruct Na; left; auto.
    - inversion Nd as [|? ? Na Nd1]; subst. inversion Nd1 as [|? ? Nb _]; subst. cbn in Na, Nb.
      destruct (proj1 (I a) ltac:(cbn; auto)) as [-> | ->], (proj1 (I b) ltac:(cbn; auto)) as [-> | ->], (proj1 (I c) ltac:(cbn; auto)) as [-> | ->]; intuition. }
  destruct U0 as [U0|U0].
  - exists (replace_op ex_fork 2 (Rotate (Arg 0) 0)). split; [unfold collapse; cbn; rewrite U0; cbn; rewrite (Hno 2%nat) by lia; reflexivity|].
    repeat split; intro H; vm_compute in H; discriminate.
  - exists (replace_op ex_fork 1 (Rotate (Arg 0) 0)). split; [unfold collapse; cbn; rewrite U0; cbn; rewrite (Hno 1%nat) by lia; reflexivity|].
    repeat split; intro H; vm_compute in H; discriminate.
Qed.
Print Assumptions C35_fork_refuted.
