(** C36: trees of additions or multiplications become rotate_and_reduce. *)
From Coq Require Import ZArith List Bool Lia.
From Verif Require Import Rotate_Spec Collapse_Model Reduce_Model Reduce_Proofs.
Import ListNotations.
Open Scope Z_scope.

Definition comm_assoc {E} (f : E -> E -> E) : Prop :=
  (forall x y, f x y = f y x) /\ (forall x y z, f x (f y z) = f (f x y) z).

Definition sum_or_product (o : arith) : Prop := o = AddI \/ o = MulI \/ o = AddF \/ o = MulF.
Lemma sum_or_product_reducible o : reducible o = true <-> sum_or_product o.
Proof. unfold sum_or_product. destruct o; cbn; intuition discriminate. Qed.

(** Every operation keeps its value when the constant shifts and indices are
    not negative.  Associativity is needed only of the additions and
    multiplications in the program. *)
Theorem C36_left_partial (E : Type) sem (args : nat -> val E) other idx atyp otyp p vals :
  (forall x, has_type E (args x) (atyp x)) ->
  (forall x vs v, other x vs = Some v -> has_type E v (otyp x)) ->
  (forall x n, otyp x = Some n -> 0 < n) ->
  no_reduce p ->
  (forall o a b, In (Bin o a b) p -> sum_or_product o -> comm_assoc (sem o)) ->
  (forall t s, In (Rot t (Cst s)) p \/ In (Ext t (Cst s)) p -> 0 <= s) ->
  rrun E sem args other idx [] p = Some vals ->
  rrun E sem args other idx [] (rotate_and_reduce atyp otyp p) = Some vals.
Proof.
  intros Ha Ho Hp Hn Hc Hs Hr.
  assert (Nm : no_merge atyp otyp p).
  { apply left_no_merge; auto. intros x n Hx. specialize (Ha x). rewrite Hx in Ha. destruct (args x); cbn in Ha; [lia|destruct Ha]. }
  unfold rotate_and_reduce. apply (pass_ok E sem args other idx atyp otyp Ho (fun o => comm_assoc (sem o)) (fun o H => proj1 H) (fun o H => proj2 H) p [] [] vals); auto.
  - apply inv_nil; auto.
  - intros op Hop. destruct op; cbn; auto. intros R. eapply Hc; eauto. apply sum_or_product_reducible; auto.
  - intros op Hop. destruct op as [t [s|]|t [s|]| | |]; cbn; auto; intros r H; eapply Nm; eauto.
Qed.
Print Assumptions C36_left_partial.

(** The same when the shifts may be negative but no rotation maps two indices
    of a reduction to the same index. *)
Theorem C36_no_merge_partial (E : Type) sem (args : nat -> val E) other idx atyp otyp p vals :
  (forall x, has_type E (args x) (atyp x)) ->
  (forall x vs v, other x vs = Some v -> has_type E v (otyp x)) ->
  no_reduce p ->
  (forall o a b, In (Bin o a b) p -> sum_or_product o -> comm_assoc (sem o)) ->
  no_merge atyp otyp p ->
  rrun E sem args other idx [] p = Some vals ->
  rrun E sem args other idx [] (rotate_and_reduce atyp otyp p) = Some vals.
Proof.
  intros Ha Ho Hn Hc Nm Hr. unfold rotate_and_reduce.
  apply (pass_ok E sem args other idx atyp otyp Ho (fun o => comm_assoc (sem o)) (fun o H => proj1 H) (fun o H => proj2 H) p [] [] vals); auto.
  - apply inv_nil; auto.
  - intros op Hop. destruct op; cbn; auto. intros R. eapply Hc; eauto. apply sum_or_product_reducible; auto.
  - intros op Hop. destruct op as [t [s|]|t [s|]| | |]; cbn; auto; intros r H; eapply Nm; eauto.
Qed.
Print Assumptions C36_no_merge_partial.

(** The sum of a tensor of any length with all its rotations, one after the
    other, is found. *)
Theorem C36_chain atyp otyp o m :
  sum_or_product o -> atyp 0%nat = Some (Z.of_nat m + 2) ->
  rotate_and_reduce atyp otyp (chain o (S m)) = chain o m ++ [Rot (Arg 0) (Cst (Z.of_nat m + 1)); Reduce o (Arg 0) false []].
Proof. intros Ho Ha. apply (chain_found atyp otyp (Z.of_nat m + 2)); auto. apply sum_or_product_reducible; auto. Qed.
Print Assumptions C36_chain.

(** The first two elements by extraction, a scalar added in between, and the
    others by rotation of a partial sum. *)
Definition ex_tree : rprogram :=
  [ Ext (Arg 0) (Cst 0); Bin AddI (Res 0) (Arg 1); Rot (Arg 0) (Cst 2); Rot (Arg 0) (Cst 1); Bin AddI (Arg 0) (Res 3);
    Ext (Res 4) (Cst 2); Ext (Arg 0) (Cst 1); Bin AddI (Res 5) (Res 6); Bin AddI (Res 1) (Res 7) ].
Definition ex_sem (o : arith) (x y : Z) : Z := match o with AddI | AddF => x + y | SubI | SubF => x - y | _ => x * y end.
Definition ex_args (x : nat) : val Z := match x with 0%nat => VT [10; 20; 30; 40] | _ => VS 5 end.
Definition ex_typ (x : nat) : option Z := match x with 0%nat => Some 4 | _ => None end.
Definition ex_none (x : nat) (vs : list (val Z)) : option (val Z) := None.
Lemma ex_comm_assoc o : sum_or_product o -> comm_assoc (ex_sem o).
Proof. intros [H|[H|[H|H]]]; subst; split; intros; cbn; ring. Qed.
Example C36_nonvacuous :
  (forall x, has_type Z (ex_args x) (ex_typ x)) /\ no_reduce ex_tree /\
  (forall t s, In (Rot t (Cst s)) ex_tree \/ In (Ext t (Cst s)) ex_tree -> 0 <= s) /\
  (exists vals, rrun Z ex_sem ex_args ex_none (fun _ => 0) [] ex_tree = Some vals /\ nth_error vals 8 = Some (VS 105)) /\
  rotate_and_reduce ex_typ (fun _ => None) ex_tree = firstn 8 ex_tree ++ [Reduce AddI (Arg 0) true [Arg 1]].
Proof.
  split; [intros [|x]; cbn; auto; lia|]. split; [intros o t e s H; cbn in H; intuition discriminate|].
  split; [intros t s H; cbn in H; decompose [or] H; try contradiction; match goal with H : _ = _ |- _ => try discriminate; injection H as <- <-; lia end|].
  split; [eexists; split; reflexivity|]. vm_compute. reflexivity.
Qed.

(** The claim is false of rotations to the right: the indices -1 and 3 of the
    same element are told apart when they are joined, and become one index when
    they are rotated back. *)
Definition ex_right : rprogram :=
  [ Rot (Arg 0) (Cst (-1)); Rot (Arg 0) (Cst 3); Bin AddI (Res 0) (Res 1); Rot (Res 2) (Cst 1);
    Rot (Arg 0) (Cst 1); Bin AddI (Res 3) (Res 4); Rot (Arg 0) (Cst 2); Bin AddI (Res 5) (Res 6);
    Rot (Arg 0) (Cst 3); Bin AddI (Res 7) (Res 8) ].
Theorem C36_right_refuted : exists p vals vals',
  no_reduce p /\
  rrun Z ex_sem ex_args ex_none (fun _ => 0) [] p = Some vals /\
  rrun Z ex_sem ex_args ex_none (fun _ => 0) [] (rotate_and_reduce ex_typ (fun _ => None) p) = Some vals' /\
  nth_error vals 9 = Some (VT [110; 120; 130; 140]) /\ nth_error vals' 9 = Some (VT [100; 100; 100; 100]).
Proof.
  exists ex_right. eexists _, _. split; [intros o t e s H; cbn in H; intuition discriminate|].
  split; [vm_compute; reflexivity|]. split; [vm_compute; reflexivity|]. split; reflexivity.
Qed.
Print Assumptions C36_right_refuted.
