(** C62: the secretness analysis. *)
From Coq Require Import List Bool Arith Lia Relations.
From Verif Require Import Secretness_Model Secretness_Spec Secretness_Proofs Secretness2_Proofs.
Import ListNotations.

(** The analysis stops, after at most two changes per value, and its result does not depend on the order in
    which the solver visits the operations. *)
Theorem C62_terminates f :
  (exists st, solution f st) /\
  (forall s t, solution f s -> solution f t -> forall v, s v = t v) /\
  (forall us, incl us (func_units f) ->
     (forall pre u post, us = pre ++ u :: post -> exists v, run (pre ++ [u]) v <> run pre v) ->
     length us <= 2 * (length (f_args f) + length (flat_map defs (f_body f)))).
Proof.
  split; [apply solution_exists|]. split; [apply solution_unique|]. intros us I C.
  assert (K : forall us st pre, (forall v, st v = run pre v) -> (forall mid u post, us = mid ++ u :: post -> exists v, run (pre ++ mid ++ [u]) v <> run (pre ++ mid) v) -> changing us st).
  { clear. induction us as [|u us IH]; intros st pre E C; cbn [changing]; auto.
    assert (V : forall w, visit u st w = run (pre ++ [u]) w).
    { intros w. unfold run. rewrite fold_left_app. cbn [fold_left]. fold (run pre). apply rank_inj. rewrite !visit_rank, E, (value_ext st (run pre) u E). reflexivity. }
    split.
    - destruct (C [] u us eq_refl) as (v & Hv). exists v. rewrite V, E. cbn in Hv. rewrite app_nil_r in Hv. auto.
    - apply (IH _ (pre ++ [u])); auto. intros mid w post ->. destruct (C (u :: mid) w post eq_refl) as (v & Hv). exists v. rewrite <- !app_assoc. exact Hv. }
  pose proof (changing_bound f us (fun _ => None) I (K us (fun _ => None) [] ltac:(reflexivity) C)) as B.
  unfold all_defs in B. rewrite app_length, map_length in B. lia.
Qed.
Print Assumptions C62_terminates.

(** Exactly the values that depend, through operands and control-flow forwarding, on a secret argument or on
    a block argument of secret type are reported secret. *)
Theorem C62_secret_iff f st v : solution f st ->
  is_secret st v = true <-> exists s, In s (sources f) /\ depends f s v.
Proof. apply secret_iff. Qed.
Print Assumptions C62_secret_iff.

(** Noninterference: two executions that differ in the secret arguments only, and reveal the same values,
    agree on every value that the analysis reports public. *)
Theorem C62_noninterference_partial f st : solution f st -> ssa f -> Forall (data_flow_only st) (f_body f) ->
  forall V dflt sem truth ivs idx (s1 s2 : mstate V),
  (forall v, ~ In v (secret_args f) -> env s1 v = env s2 v) ->
  (forall m i, mem s1 m i = mem s2 m i) -> trace s1 = trace s2 ->
  let r1 := exec_func V dflt sem truth ivs idx f s1 in
  let r2 := exec_func V dflt sem truth ivs idx f s2 in
  trace r1 = trace r2 ->
  (forall v, st v = Some false -> env r1 v = env r2 v) /\ (forall m i, mem r1 m i = mem r2 m i).
Proof.
  intros S N D V dflt sem truth ivs idx s1 s2 E M T r1 r2 TR.
  destruct (ni_func f st S N V dflt sem truth ivs idx D s1 s2) as (A & B & _); auto.
  split; [|split]; auto. intros v Hv. apply E. intros Hs.
  assert (X : In (UEntry v true) (func_units f)) by (apply func_sources; unfold sources; apply in_or_app; auto).
  pose proof (public_entry f st S v true X Hv). discriminate.
Qed.
Print Assumptions C62_noninterference_partial.

(** A value that the analysis reports as [x], although two executions that differ in a secret argument only
    and reveal the same values give it different values. *)
Definition leak (f : func) (v : nat) (x : secretness) : Prop :=
  exists st, solution f st /\ ssa f /\ st v = x /\
  exists sem truth ivs idx (s1 s2 : mstate nat),
  (forall v, ~ In v (secret_args f) -> env s1 v = env s2 v) /\
  (forall m i, mem s1 m i = mem s2 m i) /\ trace s1 = trace s2 /\
  trace (exec_func nat 0 sem truth ivs idx f s1) = trace (exec_func nat 0 sem truth ivs idx f s2) /\
  env (exec_func nat 0 sem truth ivs idx f s1) v <> env (exec_func nat 0 sem truth ivs idx f s2) v.

Ltac leak_tac us :=
  exists (run us); split; [split; [exists us; split; [intros x Hx; cbn in *; tauto|reflexivity]|
    intros u Hu; cbn in Hu; repeat (destruct Hu as [<-|Hu]; [intros v; do 8 (destruct v as [|v]; [reflexivity|]); reflexivity|]); destruct Hu]|];
  split; [repeat (constructor; [cbn; intuition discriminate|]); constructor|]; split; [reflexivity|];
  exists (fun n ins caps => match ins ++ caps with [] => [n] | l => l end), (fun n => 0 <? n), (fun a b c => [a]), (fun n => n),
    (MState (fun v => 0) (fun _ _ => 0) []), (MState (fun v => match v with 0 => 7 | _ => 0 end) (fun _ _ => 0) []);
  split; [intros v Hv; destruct v; cbn in *; tauto|]; split; [reflexivity|]; split; [reflexivity|]; split; [reflexivity|cbn; discriminate].

(** The value chosen by a secret condition is public: if secret then 1 else 2. *)
Theorem C62_condition_refuted : exists f v, leak f v (Some false).
Proof.
  exists (Func [(0, (true, false))] [OpIf 0 [OpPure 1 [] [1]] [1] [OpPure 2 [] [2]] [2] [3]]), 3.
  leak_tac [UEntry 0 true; UOp [] [1] false; UOp [] [2] false; UJoin 1 3; UJoin 2 3].
Qed.
Print Assumptions C62_condition_refuted.

(** The induction variable of a loop with a secret lower bound is public. *)
Theorem C62_loop_bound_refuted : exists f v, leak f v (Some false).
Proof.
  exists (Func [(0, (true, false))] [OpPure 1 [] [1]; OpFor 0 1 1 [] 2 [] [] [] []]), 2.
  leak_tac [UEntry 0 true; UOp [] [1] false; UEntry 2 false].
Qed.
Print Assumptions C62_loop_bound_refuted.

(** A secret stored in a buffer is public when it is loaded. *)
Theorem C62_memory_refuted : exists f v, leak f v (Some false).
Proof.
  exists (Func [(0, (true, false))] [OpAlloc 1; OpPure 1 [] [2]; OpStore 0 1 2; OpLoad 3 1 2]), 3.
  leak_tac [UEntry 0 true; UOp [] [1] false; UOp [] [2] false; UOp [1; 2] [3] false].
Qed.
Print Assumptions C62_memory_refuted.

(** A region that uses a secret gives its operation an unknown secretness, which isSecret reports as false,
    which control flow merges with public to public, and which an external call drops. *)
Theorem C62_region_refuted :
  (exists f v, leak f v None) /\ (exists f v, leak f v (Some false)) /\
  (exists f v, leak f v (Some false) /\ forall o, In o (f_body f) -> match o with OpIf _ _ _ _ _ _ => False | _ => True end).
Proof.
  split; [|split].
  - exists (Func [(0, (true, false))] [OpRegion 1 [] [0] [1]]), 1. leak_tac [UEntry 0 true].
  - exists (Func [(0, (true, false))] [OpRegion 1 [] [0] [1]; OpPure 1 [] [2]; OpIf 2 [] [1] [] [2] [3]]), 3.
    leak_tac [UEntry 0 true; UOp [] [2] false; UJoin 2 3].
  - exists (Func [(0, (true, false))] [OpRegion 1 [] [0] [1]; OpPure 1 [] [2]; OpCall 1 [1; 2] [3]]), 3. split.
    + leak_tac [UEntry 0 true; UOp [] [2] false; UCall [1; 2] [3]].
    + cbn. intros o [<-|[<-|[<-|[]]]]; exact I.
Qed.
Print Assumptions C62_region_refuted.

(** An argument with the attribute secret.secret, passed to secret.generic as a plaintext operand. *)
Theorem C62_generic_refuted : exists f v, leak f v (Some false).
Proof.
  exists (Func [(0, (false, true))] [OpGeneric [(0, false)] [1] [] [1] [2]]), 1.
  leak_tac [UEntry 0 true; UOp [0] [2] true; UEntry 1 false].
Qed.
Print Assumptions C62_generic_refuted.

(** A loop over a public and a secret accumulator, with a conditional and a reveal inside. *)
Example C62_nonvacuous :
  let body := [OpPure 1 [6; 5] [8]; OpPure 2 [7; 0] [9]; OpIf 5 [OpReveal 9 10] [10] [] [8] [11]] in
  let f := Func [(0, (true, false)); (1, (false, false))]
     [OpPure 0 [] [2]; OpPure 3 [] [3]; OpPure 1 [] [4]; OpFor 2 3 4 [1; 1] 5 [6; 7] body [11; 9] [12; 13]] in
  exists st, solution f st /\ ssa f /\ Forall (data_flow_only st) (f_body f) /\
  map st [0; 1; 5; 6; 7; 8; 9; 10; 11; 12; 13] =
    map Some [true; false; false; false; true; false; true; false; false; false; true].
Proof.
  cbv zeta.
  set (f := Func _ _). exists (run (func_units f ++ func_units f ++ func_units f ++ func_units f)).
  split; [split; [exists (func_units f ++ func_units f ++ func_units f ++ func_units f); split; [|reflexivity]|]|].
  - intros x Hx. rewrite !in_app_iff in Hx. tauto.
  - intros u Hu. cbn in Hu. repeat (destruct Hu as [<-|Hu]; [intros v; do 14 (destruct v as [|v]; [vm_compute; reflexivity|]); vm_compute; reflexivity|]). destruct Hu.
  - split; [repeat (constructor; [cbn; intuition discriminate|]); constructor|]. split; [|vm_compute; reflexivity].
    repeat constructor; vm_compute; discriminate.
Qed.
