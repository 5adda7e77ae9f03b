(** Property C48: operation balancing. [computes] and [new_computes] (in
    Balance_Proofs.v) say what a block computes before and after the pass. *)

From Coq Require Import List Bool Arith ZArith Lia Permutation.
From Verif Require Import Words Balance_Model Balance_Proofs.
Import ListNotations.
Open Scope nat_scope.

(** The balanced tree uses the operands in order, and its depth is the
    logarithm of their number, rounded up. *)
Theorem C48_tree_shape l :
  2 <= length l ->
  exists t, balanced_tree l = Some t /\ leaves t = l /\
    length l <= 2 ^ height t /\ 2 ^ pred (height t) < length l.
Proof.
  intros H. destruct (balanced_tree_ok l H) as (t & E & L & Hh).
  exists t. split; [assumption|]. split; [assumption|].
  rewrite Hh. generalize (Nat.log2_up_spec (length l) ltac:(lia)). lia.
Qed.
Print Assumptions C48_tree_shape.

(** The whole pass on a block, for an associative and commutative operation:
    every value used by the terminator is still computed, and is the same; the
    remaining operations also compute what they did. *)
Theorem C48_balance_block (V : Type) (op : V -> V -> V) (other : nat -> list V -> V)
    (b : block) (public : nat -> bool) (e : nat -> V) (e' : nat -> option V) :
  (forall x y z, op x (op y z) = op (op x y) z) -> (forall x y, op x y = op y x) ->
  ssa b -> computes op other b e -> new_computes op other (balance b public) e' ->
  (forall x, In x (outs b) -> e' x = Some (e x)) /\
  (forall i, i < length (ops b) ->
     nth_error (balance b public) i <> Some (Some Erased) -> e' i = Some (e i)).
Proof.
  intros Ha Hc Hs He Hn. split.
  - exact (outs_ok op other Ha Hc b Hs e He public e' Hn).
  - intros i Hi Hne.
    destruct (nth_error (ops b) i) as [o|] eqn:Eo; [|apply nth_error_None in Eo; lia].
    rewrite (nth_error_balance b public i o Eo) in Hne.
    destruct (in_dec Nat.eq_dec i (erased (roots b))) as [Hin|Hin].
    + destruct (find (fun p => Nat.eqb (fst p) i) (rebuilt public (roots b))) as [[j ot]|] eqn:Ef.
      * rewrite (Hn i _ (nth_error_balance b public i o Eo)).
        unfold balance_def in *. rewrite Ef in *.
        destruct ot as [t|].
        -- destruct (rebuilt_spec op other Ha b Hs e He public i t) as (os & H1 & H2 & H3 & _ & H4).
           { rewrite (nth_error_balance b public i o Eo). unfold balance_def. now rewrite Ef. }
           rewrite (tree_value_ok op e e' t).
           ++ rewrite (eval_tree_leaves op Ha e t (e 0)), <- H3. f_equal.
              apply fold1_perm; [assumption|assumption|]. now apply Permutation_map.
           ++ intros x Hx. apply (Permutation_in _ H2) in Hx.
              apply (new_values_ok op other Ha Hc b Hs e He public e' Hn).
              ** apply find_some in Ef. destruct Ef as [Hf Ej]. cbn in Ej. apply Nat.eqb_eq in Ej. subst j.
                 unfold rebuilt in Hf. apply in_map_iff in Hf. destruct Hf as (f & Ep & Hf).
                 injection Ep as Er Et. apply filter_In in Hf. destruct Hf as [Hf Hlen].
                 destruct (find_roots_In b _ _ _ Hf) as (l & r & Hnn & Hcc).
                 destruct (collect_root_ok op other Ha b Hs e He _ _ _ _ _ (e 0) Hnn Hcc) as (_ & H5 & _).
                 assert (Hx' : In x (operands f)).
                 { destruct (balanced_tree_ok (group_public public (operands f))) as (t' & E1 & E2 & _).
                   { rewrite (Permutation_length (group_public_perm public (operands f))).
                     apply Nat.ltb_lt in Hlen. lia. }
                   rewrite E1 in Et. injection Et as ->.
                   apply (Permutation_in _ (group_public_perm public (operands f))).
                   rewrite <- E2. apply (Permutation_in _ (Permutation_sym H2)). assumption. }
                 destruct (H5 x Hx'). lia.
              ** intros Hxe. destruct (erased_spec op other Ha b Hs e He x Hxe) as [H5 _].
                 apply H5. now apply H4.
        -- exfalso. apply find_some in Ef. destruct Ef as [Hf Ej].
           unfold rebuilt in Hf. apply in_map_iff in Hf. destruct Hf as (f & Ep & Hf).
           injection Ep as Er Et. apply filter_In in Hf. destruct Hf as [Hf Hlen].
           destruct (balanced_tree_ok (group_public public (operands f))) as (t' & E1 & _).
           { rewrite (Permutation_length (group_public_perm public (operands f))).
             apply Nat.ltb_lt in Hlen. lia. }
           congruence.
      * exfalso. apply Hne. unfold balance_def. rewrite Ef.
        assert (Ex : existsb (Nat.eqb i) (erased (roots b)) = true).
        { apply existsb_exists. exists i. split; [assumption|apply Nat.eqb_refl]. }
        now rewrite Ex.
    + exact (new_values_ok op other Ha Hc b Hs e He public e' Hn i Hi Hin).
Qed.
Print Assumptions C48_balance_block.

(** A rebuilt operation with n operands has depth ceil(log2 n), and computes
    the same combination of the same operands, none of which can be expanded
    further. *)
Theorem C48_balance_depth (V : Type) (op : V -> V -> V) (other : nat -> list V -> V)
    (b : block) (public : nat -> bool) (e : nat -> V) i t :
  (forall x y z, op x (op y z) = op (op x y) z) ->
  ssa b -> computes op other b e ->
  nth_error (balance b public) i = Some (Some (Rebuilt t)) ->
  exists os, 3 <= length os /\ Permutation (leaves t) os /\
             fold1 op (map e os) (e 0) = e i /\ height t = Nat.log2_up (length os) /\
             forall x, In x os -> inner b x = None.
Proof. intros Ha Hs He. exact (rebuilt_spec op other Ha b Hs e He public i t). Qed.
Print Assumptions C48_balance_depth.

(** The hypotheses on the operation hold for addi and muli of every width. *)
Theorem C48_word_operations w :
  (forall x y z, addi w x (addi w y z) = addi w (addi w x y) z) /\
  (forall x y, addi w x y = addi w y x) /\
  (forall x y z, muli w x (muli w y z) = muli w (muli w x y) z) /\
  (forall x y, muli w x y = muli w y x).
Proof.
  unfold addi, muli, wrap. repeat split; intros.
  - rewrite Zplus_mod_idemp_r, Zplus_mod_idemp_l. f_equal. lia.
  - f_equal. lia.
  - rewrite Zmult_mod_idemp_r, Zmult_mod_idemp_l. f_equal. lia.
  - f_equal. lia.
Qed.
Print Assumptions C48_word_operations.

(** x4 = ((a + b) + c) + d with c public; x4 used by the terminator. *)
Definition c48_block : block :=
  {| ops := [Other []; Other []; Other []; Other []; Bin 0 1; Bin 4 2; Bin 5 3]; outs := [6] |}.

Example C48_nonvacuous :
  ssa c48_block /\
  balance c48_block (Nat.eqb 2) =
    map Some [Keep (Other []); Keep (Other []); Keep (Other []); Keep (Other []);
              Erased; Erased; Rebuilt (Node (Node (Leaf 2) (Leaf 0)) (Node (Leaf 1) (Leaf 3)))] /\
  computes (addi 8) (fun i _ => (100 + Z.of_nat i)%Z) c48_block
    (fun v => nth v [100; 101; 102; 103; 201; 47; 150]%Z 0%Z) /\
  new_computes (addi 8) (fun i _ => (100 + Z.of_nat i)%Z) (balance c48_block (Nat.eqb 2))
    (fun v => nth v [Some 100; Some 101; Some 102; Some 103; None; None; Some 150]%Z None).
Proof.
  split; [|split; [reflexivity|split]].
  - split.
    + intros i o a Hi Ha.
      do 7 (destruct i as [|i]; [cbn in Hi; injection Hi as <-; cbn in Ha; lia|]).
      destruct i; discriminate Hi.
    + cbn. intros a [<-|[]]. lia.
  - intros i o Hi.
    do 7 (destruct i as [|i]; [cbn in Hi; injection Hi as <-; reflexivity|]).
    destruct i; discriminate Hi.
  - intros i o Hi.
    change (balance c48_block (Nat.eqb 2)) with
      (map Some [Keep (Other []); Keep (Other []); Keep (Other []); Keep (Other []);
              Erased; Erased; Rebuilt (Node (Node (Leaf 2) (Leaf 0)) (Node (Leaf 1) (Leaf 3)))]) in Hi.
    do 7 (destruct i as [|i]; [cbn in Hi; injection Hi as <-; reflexivity|]).
    destruct i; discriminate Hi.
Qed.
