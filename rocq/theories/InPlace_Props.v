(** C63, C64: turning allocating operations into in-place ones. *)
From Coq Require Import List Bool Arith Lia.
From Verif Require Import InPlace_Model InPlace_Spec InPlace_Proofs InPlaceLattigo_Proofs InPlaceLattigo2_Proofs
  InPlaceOpenfhe_Proofs.
Import ListNotations.

(** * C63: Lattigo *)
(** Missing for a full proof: the blocks excluded by [lattigo_fragment], see the refutations below. *)
Theorem C63_semantics_partial : forall D ev strict b (s : state D) o,
  good_state s -> ssa b s -> levels_right b -> lattigo_fragment b ->
  run D ev strict b s = Some o ->
  run D ev strict (lattigo_inplace b) s = Some o /\
  rets (lattigo_inplace b) = rets b /\ Forall2 inplace_of (code b) (code (lattigo_inplace b)).
Proof.
  intros D ev strict b s o G SA LR FR H. destruct (lattigo_whole D ev strict b s o) as [A B]; auto.
Qed.
Print Assumptions C63_semantics_partial.

(** A starting state for the examples: ciphertext argument 0 in cell 0, argument 1 in cell 1, and a tensor
    argument 2 of two other cells. *)
Definition start : state nat :=
  State (fun v => match v with 0 => Some (Ptr 0) | 1 => Some (Ptr 1) | 2 => Some (Vec [2; 3]) | _ => None end)
        [(1, 0); (2, 0); (3, 0); (4, 0)] [] [].
Definition evn (f : nat) (xs : list nat) : nat := fold_left (fun a x => a * 3 + x) xs (f + 1).
Definition at0 (r : nat) (d : rhs) : instr := Instr r d (Some 0) 0.

Lemma start_good : good_state start.
Proof.
  split; [|constructor]. intros v x. cbn. destruct v as [|[|[|]]]; intros [= <-]; cbn; repeat constructor; lia.
Qed.

Ltac ssa_tac :=
  split; [repeat (constructor; [cbn; intuition discriminate|]); constructor
         |let i := fresh in let H := fresh in intros i H; cbn in H;
          repeat (destruct H as [<-|H]; [reflexivity|]); destruct H].
Ltac levels_tac := let i := fresh in let d := fresh in let H := fresh in
  intros i d H; cbn in H; repeat (destruct H as [<-|H]; [cbn; congruence|]); destruct H.

Example C63_nonvacuous :
  let b := Block [ at0 10 (INew KBinary 5 [0; 1]);
                   at0 11 (INew KUnary 6 [10]);
                   at0 12 (INew KBinary 7 [11; 1]);
                   at0 13 (IInsert 12 2 0);
                   at0 14 (INew KUnary 6 [12]) ] [13; 14] in
  good_state start /\ ssa b start /\ levels_right b /\ lattigo_fragment b /\
  run nat evn true b start <> None /\
  code (lattigo_inplace b) =
    [ at0 10 (INew KBinary 5 [0; 1]);
      at0 11 (IInPlace 6 [10] 10);
      at0 12 (IInPlace 7 [11; 1] 10);
      at0 13 (IInsert 12 2 0);
      at0 14 (INew KUnary 6 [12]) ].
Proof.
  intros b. split; [apply start_good|]. split; [ssa_tac|]. split; [levels_tac|].
  split.
  { intros i Hi. cbn in Hi. repeat (destruct Hi as [<-|Hi]; cbn; auto); try contradiction;
      intros v j m k Hv Hj Hr; cbn in Hj; repeat (destruct Hj as [<-|Hj]; cbn; try discriminate); try contradiction. }
  split; [vm_compute; discriminate|]. vm_compute. reflexivity.
Qed.

(** The shapes of blocks used below: only allocating operations and the given ones. *)
Definition only (p : rhs -> bool) (b : block) : Prop :=
  forall i, In i (code b) -> match def i with INew _ _ _ => True | d => p d = true end.
Ltac only_tac := let i := fresh in let H := fresh in intros i H; cbn in H;
  repeat (destruct H as [<-|H]; [cbn; auto|]); destruct H.

(** A ciphertext put into a tensor by tensor.from_elements is not taken to be stored; the storage is reused
    although the tensor is returned. *)
Theorem C63_pack_refuted : exists b (s : state nat) o,
  good_state s /\ ssa b s /\ levels_right b /\ only (fun d => match d with IPack _ => true | _ => false end) b /\
  run nat evn true b s = Some o /\
  exists o', run nat evn true (lattigo_inplace b) s = Some o' /\ returned o' <> returned o.
Proof.
  exists (Block [at0 10 (INew KUnary 5 [0]); at0 11 (IPack [10]); at0 12 (INew KUnary 6 [1])] [11; 12]), start.
  eexists. split; [apply start_good|]. split; [ssa_tac|]. split; [levels_tac|]. split; [only_tac|].
  split; [vm_compute; reflexivity|]. eexists. split; [vm_compute; reflexivity|]. vm_compute. discriminate.
Qed.
Print Assumptions C63_pack_refuted.

(** The result of a loop that runs zero times is its initial value; that storage is reused. *)
Theorem C63_loop_refuted : exists b (s : state nat) o,
  good_state s /\ ssa b s /\ levels_right b /\ only (fun d => match d with ILoop _ _ _ _ => true | _ => false end) b /\
  run nat evn true b s = Some o /\
  exists o', run nat evn true (lattigo_inplace b) s = Some o' /\ returned o' <> returned o.
Proof.
  exists (Block [at0 10 (INew KUnary 5 [0]); at0 11 (ILoop 10 0 7 [0]); at0 12 (INew KUnary 6 [1])] [11; 12]), start.
  eexists. split; [apply start_good|]. split; [ssa_tac|]. split; [levels_tac|]. split; [only_tac|].
  split; [vm_compute; reflexivity|]. eexists. split; [vm_compute; reflexivity|]. vm_compute. discriminate.
Qed.
Print Assumptions C63_loop_refuted.

(** load, operation, store: the loaded ciphertext is overwritten although the value that had been stored there
    is still used. *)
Theorem C63_memref_refuted : exists b (s : state nat) o,
  good_state s /\ ssa b s /\ levels_right b /\
  only (fun d => match d with IAlloc _ | ILoad _ _ | IStore _ _ _ => true | _ => false end) b /\
  run nat evn true b s = Some o /\
  exists o', run nat evn true (lattigo_inplace b) s = Some o' /\ returned o' <> returned o.
Proof.
  exists (Block [at0 10 (INew KUnary 5 [0]); at0 11 (IAlloc 1); at0 12 (IStore 10 11 0); at0 13 (ILoad 11 0);
                 at0 14 (INew KBinary 6 [13; 1]); at0 15 (IStore 14 11 0)] [10]), start.
  eexists. split; [apply start_good|]. split; [ssa_tac|]. split; [levels_tac|]. split; [only_tac|].
  split; [vm_compute; reflexivity|]. eexists. split; [vm_compute; reflexivity|]. vm_compute. discriminate.
Qed.
Print Assumptions C63_memref_refuted.

(** A ciphertext inserted into a tensor that only a debug call reads is not taken to be stored; an operation
    between the two may reuse its storage, and the debug call prints something else. *)
Theorem C63_debug_refuted : exists b (s : state nat) o,
  good_state s /\ ssa b s /\ levels_right b /\ lattigo_fragment b /\
  printed nat evn true b s = Some o /\
  exists o', printed nat evn true (lattigo_inplace b) s = Some o' /\ o' <> o.
Proof.
  exists (Block [at0 10 (INew KUnary 5 [0]); at0 11 (IInsert 10 2 0); at0 12 (INew KUnary 6 [1]); at0 13 (IDebug 11)] [12]), start.
  eexists. split; [apply start_good|]. split; [ssa_tac|]. split; [levels_tac|].
  split. { intros i Hi. cbn in Hi. repeat (destruct Hi as [<-|Hi]; cbn; auto). contradiction. }
  split; [vm_compute; reflexivity|]. eexists. split; [vm_compute; reflexivity|]. vm_compute. discriminate.
Qed.
Print Assumptions C63_debug_refuted.

(** The comment at AllocToInPlaceUtils.h:163-173 claims that taking the first storage uses least memory.  With
    levels it does not: another choice of storages is right too and allocates less. *)
Theorem C63_greedy_refuted : exists b b' (s : state nat),
  good_state s /\ ssa b s /\ levels_right b /\ lattigo_fragment b /\
  Forall2 inplace_of (code b) (code b') /\ rets b' = rets b /\
  (exists o, forall strict, run nat evn strict b s = Some o /\ run nat evn strict b' s = Some o /\
                            run nat evn strict (lattigo_inplace b) s = Some o) /\
  allocations b' < allocations (lattigo_inplace b).
Proof.
  pose (lv r d l := Instr r d (Some l) l).
  exists (Block [lv 10 (INew KUnary 5 [0]) 0; lv 11 (INew KUnary 5 [1]) 1; lv 12 (INew KOther 7 [10; 11]) 1;
                 lv 13 (INew KUnary 6 [12]) 1; lv 14 (INew KUnary 6 [0]) 0] [12; 13; 14]),
         (Block [lv 10 (INew KUnary 5 [0]) 0; lv 11 (INew KUnary 5 [1]) 1; lv 12 (INew KOther 7 [10; 11]) 1;
                 lv 13 (IInPlace 6 [12] 11) 1; lv 14 (IInPlace 6 [0] 10) 0] [12; 13; 14]), start.
  split; [apply start_good|]. split; [ssa_tac|]. split; [levels_tac|].
  split. { intros i Hi. cbn in Hi. repeat (destruct Hi as [<-|Hi]; cbn; auto). contradiction. }
  split.
  { repeat (constructor; [|]); try (left; reflexivity); [|]; right; do 4 eexists; (split; [reflexivity|]); split; (discriminate || reflexivity). }
  split; [reflexivity|]. split.
  - eexists. intros [|]; repeat split; vm_compute; reflexivity.
  - vm_compute. lia.
Qed.
Print Assumptions C63_greedy_refuted.

(** * C64: OpenFHE *)
(** Missing for a full proof: the blocks excluded by [openfhe_fragment] and loops, see the refutations below. *)
Theorem C64_semantics_partial : forall D ev b (s : state D) o,
  good_state s -> ssa b s -> openfhe_fragment b ->
  run D ev false b s = Some o ->
  run D ev false (openfhe_inplace b) s = Some o /\
  rets (openfhe_inplace b) = rets b /\ Forall2 inplace_of (code b) (code (openfhe_inplace b)).
Proof.
  intros D ev b s o G SA FR H. destruct (openfhe_whole D ev b s o) as [A B]; auto.
Qed.
Print Assumptions C64_semantics_partial.

Example C64_nonvacuous :
  let b := Block [ at0 10 (INew KOther 4 [0]);
                   at0 11 (INew KBinary 5 [10; 1]);
                   at0 12 (INew KUnary 6 [11]);
                   at0 13 (INew KBinary 7 [11; 12]);
                   at0 14 (INew KOther 7 [12]);
                   at0 15 (IInsert 14 2 0) ] [13; 15] in
  good_state start /\ ssa b start /\ openfhe_fragment b /\
  run nat evn false b start <> None /\
  code (openfhe_inplace b) =
    [ at0 10 (INew KOther 4 [0]);
      at0 11 (IInPlace 5 [10; 1] 10);
      at0 12 (INew KUnary 6 [11]);
      at0 13 (IInPlace 7 [11; 12] 11);
      at0 14 (INew KOther 7 [12]);
      at0 15 (IInsert 14 2 0) ].
Proof.
  intros b. split; [apply start_good|]. split; [ssa_tac|].
  split.
  { intros i k f v args Hi D NK. cbn in Hi. repeat (destruct Hi as [<-|Hi]); cbn in D; try discriminate; try contradiction;
      injection D as <- <- <- <-; try congruence;
      (split; [|intros j Hj; cbn in Hj; repeat (destruct Hj as [<-|Hj]; [cbn; try tauto; try discriminate|]); try contradiction]).
    - exists (at0 10 (INew KOther 4 [0])). cbn. eauto 10.
    - exists (at0 11 (INew KBinary 5 [10; 1])). cbn. eauto 10.
    - exists (at0 11 (INew KBinary 5 [10; 1])). cbn. eauto 10. }
  split; [vm_compute; discriminate|]. vm_compute. reflexivity.
Qed.

(** A ciphertext that has been inserted into a tensor is overwritten. *)
Theorem C64_insert_refuted : exists b (s : state nat) o,
  good_state s /\ ssa b s /\ only (fun d => match d with IInsert _ _ _ => true | _ => false end) b /\
  run nat evn false b s = Some o /\
  exists o', run nat evn false (openfhe_inplace b) s = Some o' /\ returned o' <> returned o.
Proof.
  exists (Block [at0 10 (INew KUnary 5 [0]); at0 11 (IInsert 10 2 0); at0 12 (INew KUnary 6 [10])] [11; 12]), start.
  eexists. split; [apply start_good|]. split; [ssa_tac|]. split; [only_tac|].
  split; [vm_compute; reflexivity|]. eexists. split; [vm_compute; reflexivity|]. vm_compute. discriminate.
Qed.
Print Assumptions C64_insert_refuted.

(** A ciphertext that has been extracted from a tensor is overwritten; the tensor is read again later. *)
Theorem C64_extract_refuted : exists b (s : state nat) o,
  good_state s /\ ssa b s /\ only (fun d => match d with IExtract _ _ => true | _ => false end) b /\
  run nat evn false b s = Some o /\
  exists o', run nat evn false (openfhe_inplace b) s = Some o' /\ returned o' <> returned o.
Proof.
  exists (Block [at0 10 (IExtract 2 0); at0 11 (INew KUnary 6 [10]); at0 12 (IExtract 2 0)] [11; 12]), start.
  eexists. split; [apply start_good|]. split; [ssa_tac|]. split; [only_tac|].
  split; [vm_compute; reflexivity|]. eexists. split; [vm_compute; reflexivity|]. vm_compute. discriminate.
Qed.
Print Assumptions C64_extract_refuted.

(** The caller's ciphertext is overwritten. *)
Theorem C64_argument_refuted : exists b (s : state nat) o,
  good_state s /\ ssa b s /\ only (fun _ => false) b /\
  run nat evn false b s = Some o /\
  exists o', run nat evn false (openfhe_inplace b) s = Some o' /\ returned o' = returned o /\ old o' <> old o.
Proof.
  exists (Block [at0 10 (INew KUnary 5 [0])] [10]), start.
  eexists. split; [apply start_good|]. split; [ssa_tac|]. split; [only_tac|].
  split; [vm_compute; reflexivity|]. eexists. split; [vm_compute; reflexivity|]. split; [reflexivity|]. vm_compute. discriminate.
Qed.
Print Assumptions C64_argument_refuted.

(** A value that a loop body reads in every iteration is overwritten in the first one. *)
Theorem C64_loop_refuted : exists p (s : state nat) o,
  good_state s /\ ssa (Block (pre p ++ body p ++ post p) (nrets p)) s /\ post p = [] /\
  (forall i, In i (pre p ++ body p) -> match def i with INew _ _ _ | IAlloc _ | IStore _ _ _ => True | _ => False end) /\
  run_nest nat evn false p s = Some o /\
  exists o', run_nest nat evn false (openfhe_inplace_nest p) s = Some o' /\ returned o' <> returned o.
Proof.
  exists (Nest [at0 10 (INew KUnary 5 [0]); at0 11 (IAlloc 1)] 2 [at0 12 (INew KUnary 6 [10]); at0 13 (IStore 12 11 0)] [] [11]), start.
  eexists. split; [apply start_good|]. split; [ssa_tac|]. split; [reflexivity|].
  split. { intros i Hi. cbn in Hi. repeat (destruct Hi as [<-|Hi]; [cbn; auto|]). contradiction. }
  split; [vm_compute; reflexivity|]. eexists. split; [vm_compute; reflexivity|]. vm_compute. discriminate.
Qed.
Print Assumptions C64_loop_refuted.

(** A value used after a loop is overwritten in the loop, even if the loop runs once. *)
Theorem C64_after_loop_refuted : exists p (s : state nat) o,
  good_state s /\ ssa (Block (pre p ++ body p ++ post p) (nrets p)) s /\ trips p = 1 /\
  (forall i, In i (pre p ++ body p ++ post p) -> match def i with INew _ _ _ => True | _ => False end) /\
  run_nest nat evn false p s = Some o /\
  exists o', run_nest nat evn false (openfhe_inplace_nest p) s = Some o' /\ returned o' <> returned o.
Proof.
  exists (Nest [at0 10 (INew KUnary 5 [0])] 1 [at0 12 (INew KUnary 6 [10])] [at0 13 (INew KUnary 7 [10])] [13]), start.
  eexists. split; [apply start_good|]. split; [ssa_tac|]. split; [reflexivity|].
  split. { intros i Hi. cbn in Hi. repeat (destruct Hi as [<-|Hi]; [cbn; auto|]). contradiction. }
  split; [vm_compute; reflexivity|]. eexists. split; [vm_compute; reflexivity|]. vm_compute. discriminate.
Qed.
Print Assumptions C64_after_loop_refuted.
