(** * C95: the rotation analysis finds every rotation a program executes *)
From Coq Require Import ZArith List Bool Lia.
From Verif Require Import RotKeys_Spec RotKeys_Model RotKeys_Proofs.
Import ListNotations.
Open Scope Z_scope.

(** If all rotations are by constants, the analysis succeeds, and the indices
    it finds include the amount of every rotation executed. *)
Theorem C95_constant : forall ty slots b r r' L,
  names (shifts_ofb b) = [] -> run ty r b = Some (r', L) ->
  exists S, analyze ty slots b = Some S /\ forall a, In a L -> In a S.
Proof.
  intros ty slots b r r' L H Hr.
  destruct (proj2 (constant_analysis ty slots) b H) as (S & H1 & H2).
  exists S. split; auto. exact (proj2 (constant_logs ty S) b r r' L Hr H2).
Qed.
Print Assumptions C95_constant.

(** When the analysis succeeds, every rotation the program executes is served
    by an index found, provided every outermost loop rotating by non-constant
    amounts is self-contained, compares only signed integers, and yields what
    it rotates. Missing: the other loops, for which this is false. *)
Theorem C95_keys_partial : forall ty n b r r' L S,
  0 < n -> typed_env ty r -> ssa r b ->
  (forall lp, In lp (outer_loopsb b) -> simple_loop ty lp) ->
  run ty r b = Some (r', L) -> analyze ty (Some n) b = Some S ->
  forall a, In a L -> serves n S a.
Proof.
  intros ty n b r r' L S Hn T (H1 & H2) Hl Hr Ha.
  exact (proj2 (keys ty n Hn) b r r' L S T H1 H2 Hl Hr Ha).
Qed.
Print Assumptions C95_keys_partial.

(** In the examples values below 10 are ciphertexts; value 0 is an argument. *)
Definition ex_ty (x : nat) : bool := Nat.ltb x 10.

Definition ex_env (extra : Z) : env :=
  fun x => match x with 0%nat => Some VCt | 10%nat => Some (VInt extra) | _ => None end.

Lemma ex_env_typed z : typed_env ex_ty (ex_env z).
Proof.
  intros x v. unfold ex_env. do 11 (destruct x as [|x]; [cbn; intros H; try discriminate H; injection H as <-; reflexivity|]).
  intros H. discriminate H.
Qed.

Ltac ssa_tac :=
  split; [cbn; repeat constructor; cbn; intuition discriminate
         |cbn; intros x Hx; repeat (destruct Hx as [<-|Hx]; [reflexivity|]); destruct Hx].

(** [used] for blocks, by search. *)
Ltac reach :=
  first [ apply reaches_yield; cbn; tauto
        | eapply reaches_op; [cbn; left; reflexivity | cbn; tauto | cbn; left; reflexivity | reach]
        | eapply reaches_op; [cbn; right; left; reflexivity | cbn; tauto | cbn; left; reflexivity | reach]
        | eapply reaches_op; [cbn; right; right; left; reflexivity | cbn; tauto | cbn; left; reflexivity | reach]
        | eapply reaches_op; [cbn; right; right; right; left; reflexivity | cbn; tauto | cbn; left; reflexivity | reach] ].
Ltac used_tac :=
  let o := fresh in let Ho := fresh in let Hr := fresh in
  intros o Ho Hr; cbn in Ho;
  repeat (destruct Ho as [<-|Ho]; [first [discriminate Hr | eexists; split; [cbn; left; reflexivity | reach]]|]);
  destruct Ho.
Ltac all_used_tac := cbn [all_used all_usedb]; repeat (split; [|]); try exact I; try used_tac.

Ltac contained_tac :=
  intros x Hx Ht; cbn in Hx |- *;
  repeat (destruct Hx as [<-|Hx]; [first [discriminate Ht | tauto]|]); destruct Hx.

(** Two nested loops, rotating by [4 * i + j] where [j < 2] and by [-1]
    elsewhere, on 8 slots. *)
Definition ex_inner : op :=
  For [2%nat] (K 1) (K 4) (K 2) 12 [3%nat] [X 4]
    (blk [Bin 13 Mul (X 11) (K 4); Bin 14 RotKeys_Spec.Add (X 13) (X 12); Bin 15 (Cmp Slt) (X 12) (K 2);
          If [5%nat] (X 15) (blk [Rot 6 3 [X 14]]) [X 6] (blk [Rot 7 3 [K (-1)]]) [X 7]])
    [X 5].

Definition ex_outer : op :=
  For [1%nat] (K 0) (K 3) (K 1) 11 [4%nat] [X 0] (blk [ex_inner; OtherCt 8 [2%nat; 4%nat]]) [X 8].

Definition ex_prog : block := blk [ex_outer; Rot 9 1 [K 6]].

Example C95_nonvacuous :
  typed_env ex_ty (ex_env 0) /\ ssa (ex_env 0) ex_prog /\
  (forall lp, In lp (outer_loopsb ex_prog) -> simple_loop ex_ty lp) /\
  option_map snd (run ex_ty (ex_env 0) ex_prog) = Some [1; -1; 5; -1; 9; -1; 6] /\
  analyze ex_ty (Some 8) ex_prog = Some [1; 7; 5; 7; 1; 7; 6].
Proof.
  split; [apply ex_env_typed|]. split; [ssa_tac|]. split.
  - cbn. intros lp [<-|[]]. right. split; [contained_tac|]. split; [reflexivity|].
    unfold ex_outer, ex_inner. all_used_tac.
  - split; reflexivity.
Qed.

(** A loop and a branch on an argument, rotating by constants. *)
Definition ex_constant : block :=
  blk [For [1%nat] (K 0) (X 10) (K 1) 11 [2%nat] [X 0] (blk [Rot 3 2 [K 5; K (-2)]]) [X 3];
       IfThen (X 10) (blk [Rot 4 1 [K 9]])].

Example C95_constant_nonvacuous :
  names (shifts_ofb ex_constant) = [] /\
  option_map snd (run ex_ty (ex_env 2) ex_constant) = Some [5; -2; 5; -2; 9] /\
  analyze ex_ty None ex_constant = Some [5; -2; 9].
Proof. repeat split. Qed.

(** Each of the conditions on loops is needed: the following loops meet the
    others. *)

(** A shift passed to the function is taken to be 0, so its key is missing. *)
Definition bad_argument : op :=
  For [1%nat] (K 0) (K 2) (K 1) 11 [2%nat] [X 0] (blk [Rot 3 2 [X 10]]) [X 3].

Theorem C95_argument_refuted : exists ty n r o r' L S,
  0 < n /\ typed_env ty r /\ ssa r (blk [o]) /\ signed o = true /\ all_used o /\
  run ty r (blk [o]) = Some (r', L) /\ analyze ty (Some n) (blk [o]) = Some S /\
  exists a, In a L /\ ~ serves n S a.
Proof.
  exists ex_ty, 8, (ex_env 3), bad_argument. eexists _, [3; 3], [0; 0].
  split; [lia|]. split; [apply ex_env_typed|]. split; [ssa_tac|]. split; [reflexivity|].
  split; [unfold bad_argument; all_used_tac|]. split; [reflexivity|]. split; [reflexivity|].
  exists 3. split; [cbn; tauto|]. intros (k & [<-|[<-|[]]] & H); discriminate H.
Qed.
Print Assumptions C95_argument_refuted.

(** A shift computed by an integer operation the builder does not know, here
    the remainder of the induction variable, is taken to be 0. *)
Definition bad_remainder : op :=
  For [1%nat] (K 1) (K 3) (K 1) 11 [2%nat] [X 0]
    (blk [OtherInt 12 (fun l => Z.rem (hd 0 l) 4) [X 11]; Rot 3 2 [X 12]]) [X 3].

Theorem C95_remainder_refuted : exists ty n r o r' L S,
  0 < n /\ typed_env ty r /\ ssa r (blk [o]) /\ signed o = true /\ all_used o /\
  (forall x, In x (uses o) -> ty x = false -> In x (defs o)) /\
  run ty r (blk [o]) = Some (r', L) /\ analyze ty (Some n) (blk [o]) = Some S /\
  exists a, In a L /\ ~ serves n S a.
Proof.
  exists ex_ty, 8, (ex_env 3), bad_remainder. eexists _, [1; 2], [0; 0].
  split; [lia|]. split; [apply ex_env_typed|]. split; [ssa_tac|]. split; [reflexivity|].
  split; [unfold bad_remainder; all_used_tac|]. split; [contained_tac|].
  split; [reflexivity|]. split; [reflexivity|].
  exists 1. split; [cbn; tauto|]. intros (k & [<-|[<-|[]]] & H); discriminate H.
Qed.
Print Assumptions C95_remainder_refuted.

(** Of a branch on a value not known to the analysis only the else branch is
    analysed: all shifts are known, but those of the other branch are missing. *)
Definition bad_condition : op :=
  For [1%nat] (K 1) (K 2) (K 1) 11 [2%nat] [X 0]
    (blk [If [3%nat] (X 10) (blk [Rot 4 2 [X 11]]) [X 4] Nil [X 2]]) [X 3].

Theorem C95_condition_refuted : exists ty n r o r' L S,
  0 < n /\ typed_env ty r /\ ssa r (blk [o]) /\ signed o = true /\ all_used o /\
  (forall x, In x (names (shifts_of o)) -> In x (known o)) /\
  run ty r (blk [o]) = Some (r', L) /\ analyze ty (Some n) (blk [o]) = Some S /\
  exists a, In a L /\ ~ serves n S a.
Proof.
  exists ex_ty, 8, (ex_env 1), bad_condition. eexists _, [1], [].
  split; [lia|]. split; [apply ex_env_typed|]. split; [ssa_tac|]. split; [reflexivity|].
  split; [unfold bad_condition; all_used_tac|].
  split; [cbn; tauto|]. split; [reflexivity|]. split; [reflexivity|].
  exists 1. split; [cbn; tauto|]. intros (k & [] & H).
Qed.
Print Assumptions C95_condition_refuted.

(** Rotations in a loop whose results do not reach its yield are marked visited
    without being recorded. *)
Definition bad_unused : op :=
  For [1%nat] (K 1) (K 3) (K 1) 11 [2%nat] [X 0] (blk [Rot 3 2 [X 11]]) [X 2].

Theorem C95_unused_refuted : exists ty n r o r' L S,
  0 < n /\ typed_env ty r /\ ssa r (blk [o]) /\ self_contained ty o /\ signed o = true /\
  run ty r (blk [o]) = Some (r', L) /\ analyze ty (Some n) (blk [o]) = Some S /\
  exists a, In a L /\ ~ serves n S a.
Proof.
  exists ex_ty, 8, (ex_env 0), bad_unused. eexists _, [1; 2], [].
  split; [lia|]. split; [apply ex_env_typed|]. split; [ssa_tac|].
  split; [contained_tac|]. split; [reflexivity|]. split; [reflexivity|]. split; [reflexivity|].
  exists 1. split; [cbn; tauto|]. intros (k & [] & H).
Qed.
Print Assumptions C95_unused_refuted.

(** Unsigned comparisons are evaluated as signed ones, so the analysis may
    follow the wrong branch. *)
Definition bad_unsigned : op :=
  For [1%nat] (K 1) (K 2) (K 1) 11 [2%nat] [X 0]
    (blk [Bin 12 RotKeys_Spec.Sub (X 11) (K 2); Bin 13 (Cmp Ult) (X 12) (K 4);
          If [3%nat] (X 13) Nil [X 2] (blk [Rot 4 2 [X 11]]) [X 4]]) [X 3].

Theorem C95_unsigned_refuted : exists ty n r o r' L S,
  0 < n /\ typed_env ty r /\ ssa r (blk [o]) /\ self_contained ty o /\ all_used o /\
  run ty r (blk [o]) = Some (r', L) /\ analyze ty (Some n) (blk [o]) = Some S /\
  exists a, In a L /\ ~ serves n S a.
Proof.
  exists ex_ty, 8, (ex_env 0), bad_unsigned. eexists _, [1], [].
  split; [lia|]. split; [apply ex_env_typed|]. split; [ssa_tac|].
  split; [contained_tac|]. split; [unfold bad_unsigned; all_used_tac|].
  split; [reflexivity|]. split; [reflexivity|].
  exists 1. split; [cbn; tauto|]. intros (k & [] & H).
Qed.
Print Assumptions C95_unsigned_refuted.

(** A division whose dividend is 0 makes the analysis fail, also for loops that
    run and that the analysis is meant to handle. *)
Definition bad_division : op :=
  For [1%nat] (K 0) (K 4) (K 1) 11 [2%nat] [X 0]
    (blk [Div 12 (X 11) (K 2); Rot 3 2 [X 12]]) [X 3].

Theorem C95_division_refuted : exists ty n r o r' L,
  0 < n /\ typed_env ty r /\ ssa r (blk [o]) /\ simple_loop ty o /\
  run ty r (blk [o]) = Some (r', L) /\ analyze ty (Some n) (blk [o]) = None.
Proof.
  exists ex_ty, 8, (ex_env 0), bad_division. eexists _, [0; 0; 1; 1].
  split; [lia|]. split; [apply ex_env_typed|]. split; [ssa_tac|].
  split; [right; split; [contained_tac|split; [reflexivity|unfold bad_division; all_used_tac]]|].
  split; reflexivity.
Qed.
Print Assumptions C95_division_refuted.
