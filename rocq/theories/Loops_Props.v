(** Properties C43, C44, C45: static replacements of secret loops and tensor
    accesses. The meaning of the loops themselves is given by the relations
    [runs_for] and [runs_while] of Loops_Proofs.v. *)

From Coq Require Import ZArith List Bool Lia.
From Verif Require Import Loops_Model Loops_Proofs.
Import ListNotations.
Open Scope Z_scope.

(** * C43 *)

(** Both loop relations are total functions of the start, so "runs to r" below
    pins down the result. *)
Theorem C43_loop_semantics (S : Type) u st (b : Z -> S -> S) iv s :
  0 < st -> exists r, runs_for u st b iv s r /\
                      forall r', runs_for u st b iv s r' -> r' = r.
Proof.
  intros H. destruct (runs_for_total S u st b H iv s) as (r & Hr).
  exists r. split; [assumption|].
  intros r' H'. exact (runs_for_det S u st b iv s r' H' r Hr).
Qed.
Print Assumptions C43_loop_semantics.

(** Partial with respect to C43: besides enclosing bounds, the claim needs the
    distance from the static lower bound to the actual lower bound to be a
    multiple of the step (automatic if the lower bound is public or the step
    is 1). Without it the claim is false, see below. *)
Theorem C43_static_for_partial (S : Type) all (f : for_op S) (g : affine_for S) s r :
  convert_for all f = Some g ->
  0 < f_step f ->
  a_lower g <= f_lower f ->
  f_upper f <= a_upper g ->
  (f_step f | f_lower f - a_lower g) ->
  runs_for (f_upper f) (f_step f) (f_body f) (f_lower f) s r ->
  runs_for (a_upper g) (a_step g) (a_body g) (a_lower g) s r.
Proof. exact (convert_for_ok S all f g s r). Qed.
Print Assumptions C43_static_for_partial.

(** The loop that is built has bounds that do not depend on the secret ones,
    and the original step. *)
Theorem C43_static_bounds (S : Type) all (f : for_op S) (g : affine_for S) :
  convert_for all f = Some g ->
  a_step g = f_step f /\
  (f_lower_secret f = true -> f_attr_lower f = Some (a_lower g)) /\
  (f_upper_secret f = true -> f_attr_upper f = Some (a_upper g)) /\
  (f_lower_secret f = false -> a_lower g = f_lower f) /\
  (f_upper_secret f = false -> a_upper g = f_upper f).
Proof.
  unfold convert_for, static_bound.
  destruct (f_lower_secret f), (f_upper_secret f), all; cbn;
    destruct (f_attr_lower f), (f_attr_upper f); intros H; try discriminate H;
    injection H as <-; cbn; repeat split; intros; try discriminate; reflexivity.
Qed.
Print Assumptions C43_static_bounds.

Definition c43_f (lower : Z) : for_op (list Z) :=
  {| f_lower := lower; f_upper := 9; f_step := 2;
     f_body := fun iv s => iv :: s;
     f_lower_secret := true; f_upper_secret := true;
     f_attr_lower := Some 0; f_attr_upper := Some 16 |}.

(** With step 2, static lower bound 0 and actual lower bound 3, the static
    loop visits 4, 6, 8 instead of 3, 5, 7. *)
Theorem C43_unaligned_refuted :
  exists (f : for_op (list Z)) g s r r',
    convert_for false f = Some g /\ 0 < f_step f /\
    a_lower g <= f_lower f /\ f_upper f <= a_upper g /\
    runs_for (f_upper f) (f_step f) (f_body f) (f_lower f) s r /\
    runs_for (a_upper g) (a_step g) (a_body g) (a_lower g) s r' /\
    r <> r'.
Proof.
  exists (c43_f 3). eexists. exists [], [7; 5; 3], [8; 6; 4].
  split; [reflexivity|].
  cbn [f_step f_lower f_upper f_body a_lower a_upper a_step a_body c43_f].
  repeat (split; [lia|]).
  split; [repeat (apply for_next; [lia|]; cbn); apply for_stop; lia|].
  split; [repeat (apply for_next; [lia|]; cbn); apply for_stop; lia|discriminate].
Qed.
Print Assumptions C43_unaligned_refuted.

Example C43_nonvacuous :
  exists g, convert_for false (c43_f 4) = Some g /\
    0 < f_step (c43_f 4) /\ a_lower g <= 4 /\ 9 <= a_upper g /\
    (f_step (c43_f 4) | 4 - a_lower g) /\
    runs_for 9 2 (f_body (c43_f 4)) 4 [] [8; 6; 4] /\
    runs_for (a_upper g) (a_step g) (a_body g) (a_lower g) [] [8; 6; 4].
Proof.
  eexists. split; [reflexivity|].
  cbn [f_step f_lower f_upper f_body a_lower a_upper a_step a_body c43_f].
  repeat (split; [lia|]). split; [exists 2; reflexivity|].
  split; (repeat (apply for_next; [lia|]; cbn); apply for_stop; lia).
Qed.

(** * C44 *)

(** Partial with respect to C44: the operands of scf.condition must be the
    arguments of the before region in order. The pass tries to check this but
    its test also accepts permuted arguments, see below; and max_iter has to
    fit in 32 bits. *)
Theorem C44_static_while_partial (V : Type) (w : while_op V) k n s r m count body :
  convert_while w = Some (count, body) ->
  w_fwd w = map FwdArg (seq 0 k) ->
  (forall vs, length vs = k -> length (w_body w vs) = k) ->
  length s = k ->
  runs_while w n s r ->
  w_max_iter w = Some m -> Z.of_nat n <= m < 2147483648 ->
  static_loop count body s = r.
Proof. exact (convert_while_ok V w k n s r m count body). Qed.
Print Assumptions C44_static_while_partial.

(** An operand computed inside the before region is rejected. *)
Theorem C44_rejects_computed_operands (V : Type) (w : while_op V) g :
  In (FwdResult g) (w_fwd w) -> convert_while w = None.
Proof.
  intros H. unfold convert_while.
  destruct (forallb same_defining_op (w_fwd w)) eqn:E; [|reflexivity].
  rewrite forallb_forall in E. specialize (E _ H). discriminate E.
Qed.
Print Assumptions C44_rejects_computed_operands.

Definition c44_w (fwd : list (fwd_src Z)) : while_op Z :=
  {| w_cond := fun s => match s with x :: _ => x <? 3 | [] => false end;
     w_fwd := fwd;
     w_body := fun s => match s with [x; y] => [x + 1; y + x] | _ => s end;
     w_cond_secret := true;
     w_max_iter := Some 10 |}.

(** scf.condition(%c) %y, %x : accepted, and miscompiled. *)
Theorem C44_swapped_operands_refuted :
  exists (w : while_op Z) n s r m count body,
    convert_while w = Some (count, body) /\
    runs_while w n s r /\
    w_max_iter w = Some m /\ Z.of_nat n <= m < 2147483648 /\
    static_loop count body s <> r.
Proof.
  exists (c44_w [FwdArg 1; FwdArg 0]). exists 3%nat. exists [0; 1]. do 4 eexists.
  split; [reflexivity|].
  split.
  { do 3 (eapply while_next; [reflexivity|reflexivity|]).
    eapply while_stop; reflexivity. }
  split; [reflexivity|]. split; [lia|]. vm_compute. discriminate.
Qed.
Print Assumptions C44_swapped_operands_refuted.

Example C44_nonvacuous :
  exists r, runs_while (c44_w [FwdArg 0; FwdArg 1]) 3 [0; 1] r /\ r = [3; 4] /\
  forall vs, length vs = 2%nat ->
    length (w_body (c44_w [FwdArg 0; FwdArg 1]) vs) = 2%nat.
Proof.
  eexists. split.
  { do 3 (eapply while_next; [reflexivity|reflexivity|]).
    eapply while_stop; reflexivity. }
  split; [reflexivity|].
  intros [|x [|y [|z vs]]] H; try discriminate H. reflexivity.
Qed.

(** * C45 *)

Theorem C45_extract (V : Type) (t : list V) i :
  (i < length t)%nat -> scan_extract t (Z.of_nat i) = nth_error t i.
Proof. exact (scan_extract_ok V t i). Qed.
Print Assumptions C45_extract.

Theorem C45_insert (V : Type) (t : list V) i v :
  (i < length t)%nat ->
  exists r, scan_insert t (Z.of_nat i) v = Some r /\
    length r = length t /\ nth_error r i = Some v /\
    forall j, j <> i -> nth_error r j = nth_error t j.
Proof.
  intros H. rewrite (scan_insert_ok V t i v H). exact (insert_at_some V t i v H).
Qed.
Print Assumptions C45_insert.

Example C45_nonvacuous :
  scan_extract [7; 8; 9; 10] 2 = Some 9 /\
  scan_insert [7; 8; 9; 10] 2 0 = Some [7; 8; 0; 10] /\
  (2 < length [7; 8; 9; 10])%nat.
Proof. vm_compute. repeat split; lia. Qed.
