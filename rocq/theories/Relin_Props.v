(** Theorems about the dimension analysis (C65) and the placement of relinearizations (C66). *)
From Coq Require Import List Bool Arith Lia QArith Lqa.
From Verif Require Import Relin_Model Relin_Spec Relin_Proofs RelinStrip_Proofs Relin2_Proofs Relin3_Proofs Relin4_Proofs Relin5_Proofs RelinDim_Proofs.
Import ListNotations.
Local Open Scope nat_scope.

(** * C65: the dimension analysis *)
(** The dimensions at a fixed point bound the number of components (degree + 1) of every ciphertext. *)
Theorem C65_sound D ev sec mixed p st dg (xs : list (D * option nat)) e e' :
  wf_prog p -> secretness sec (pcode p) -> stable sec (pcode p) st -> initialized sec st (carried (pcode p)) ->
  good_args sec dg (pargs p) xs ->
  (forall a, In a (pargs p) -> sec a = true -> 1 <= dg a /\ exists m, st a = Some m /\ S (dg a) <= m) ->
  assign (pargs p) xs (fun _ => None) = Some e -> exec D ev sec mixed false (pcode p) e = Some e' ->
  forall v x d, In v (defs (pcode p) ++ pargs p) -> e' v = Some (x, Some d) -> exists m, st v = Some m /\ S d <= m.
Proof.
  intros (N & W & O) SC ST INI G AD A X v x d Hv E.
  assert (B : bounded sec D st (pargs p) e).
  { rewrite <- (app_nil_r (pargs p)). eapply (bounded_assign sec D ev st [] (fun _ => None)); eauto; [intros u []|].
    unfold good_args in G. eapply F2_impl; [|exact G]. intros a y Ha Ey. cbn in Ey. unfold bnd. rewrite Ey. destruct (sec a) eqn:Sa; auto.
    destruct (AD a Ha Sa) as (D1 & m & Em & LE). eauto 6. }
  pose proof (dim_sound sec D ev mixed st _ _ _ _ W SC ST INI B X v Hv) as (y & Ey & O'). rewrite E in Ey. injection Ey as <-. unfold bnd in O'. cbn in O'.
  destruct O' as (_ & m & Em & _ & LE). eauto.
Qed.
Print Assumptions C65_sound.

(** For straight-line programs one pass over the operations reaches the fixed point, and the dimension of every
    value is exactly the number of its components. *)
Theorem C65_exact D ev sec mixed p dg st (xs : list (D * option nat)) e e' :
  wf_prog p -> secretness sec (pcode p) -> flat (pcode p) -> relin_secret sec (pcode p) ->
  good_args sec dg (pargs p) xs -> (forall a, In a (pargs p) -> sec a = true -> 1 <= dg a) ->
  (forall v, st v = if in_dec Nat.eq_dec v (pargs p) then if sec v then Some (S (dg v)) else None else None) ->
  assign (pargs p) xs (fun _ => None) = Some e -> exec D ev sec mixed false (pcode p) e = Some e' ->
  let final := fold_left (visit sec) (updates (pcode p)) st in
  stable sec (pcode p) final /\
  forall v x d, In v (defs (pcode p) ++ pargs p) -> e' v = Some (x, d) -> final v = option_map S d.
Proof.
  intros (N & W & O) SC FL RS G AD I A X final.
  assert (B : exact sec D st (pargs p) e).
  { destruct (assign_spec _ _ _ _ N A) as [S1 _]. intros v Hv. destruct (F2_in_l _ _ _ _ (F2_and _ _ _ _ S1 G) Hv) as (y & _ & Z1 & Z2). exists y. split; auto.
    unfold okx. rewrite Z2, I. destruct (in_dec Nat.eq_dec v (pargs p)); [|tauto]. destruct (sec v) eqn:Sv; auto. }
  destruct (dim_exact sec D ev mixed (pcode p) (pargs p) e e' st FL W SC RS B) as (R1 & _ & R3); auto.
  { intros v NI. rewrite I. destruct (in_dec Nat.eq_dec v (pargs p)); tauto. }
  split; auto. intros v x d Hv E. destruct (R1 v Hv) as (y & Ey & Z & _). rewrite E in Ey. injection Ey as <-. auto.
Qed.
Print Assumptions C65_exact.

(** The order of the visits does not matter for the result: whatever operations the solver visits, in whatever
    order, the dimensions stay below every fixed point above the start, so a fixed point that is reached is the
    least one. *)
Theorem C65_least sec c start st us :
  stable sec c st -> (forall v d, start v = Some d -> exists m, st v = Some m /\ d <= m) ->
  (forall u, In u us -> In u (updates c)) ->
  forall v d, fold_left (visit sec) us start v = Some d -> exists m, st v = Some m /\ d <= m.
Proof.
  intros ST L I v d E.
  assert (LL : leo_st start st). { intros u. specialize (L u). destruct (start u) as [d'|]; cbn; auto. destruct (L d' eq_refl) as (m & -> & LE). auto. }
  pose proof (run_below sec c start st us ST LL I v) as Z. rewrite E in Z. destruct (st v) as [m|]; [|destruct Z]. eauto.
Qed.
Print Assumptions C65_least.

(** If the products of two secrets are only relinearized, no dimension ever exceeds 3, also with loops.  (Missing:
    other programs on which the analysis stops.) *)
Theorem C65_bounded_partial sec p us start :
  wf_prog p -> secretness sec (pcode p) -> relin_secret sec (pcode p) -> only_relin sec (products sec (pcode p)) (pcode p) ->
  (forall v, start v = if in_dec Nat.eq_dec v (pargs p) then if sec v then Some 2 else None else None) ->
  (forall u, In u us -> In u (updates (pcode p))) ->
  forall v d, fold_left (visit sec) us start v = Some d -> d <= 3.
Proof.
  intros (N & W & O) SC RS OR I IU v d E.
  pose proof (bound_stable sec (products sec (pcode p)) _ _ W SC RS OR (incl_refl _)) as ST.
  destruct (C65_least sec (pcode p) start _ us ST) with (v := v) (d := d) as (m & Em & LE); auto.
  - intros a k Ea. rewrite I in Ea. destruct (in_dec Nat.eq_dec a (pargs p)); [|discriminate]. unfold bound_st. destruct (sec a); [|discriminate]. injection Ea as <-.
    destruct (in_dec Nat.eq_dec a (products sec (pcode p))); eauto.
  - unfold bound_st in Em. destruct (sec v); [|discriminate]. destruct (in_dec Nat.eq_dec v (products sec (pcode p))); injection Em as <-; lia.
Qed.
Print Assumptions C65_bounded_partial.

(** Without a relinearization a loop that squares its argument has no fixed point: the analysis does not stop. *)
Definition squares : prog := Prog [0] (For 2 [0] [1] (Do KMul 0 [(1, false); (1, false)] [2] End) [2] [3] End) [3].
Theorem C65_stops_refuted : exists p, wf_prog p /\ secretness (fun _ => true) (pcode p) /\
  forall st m, st (hd 0 (pargs p)) = Some m -> 2 <= m -> ~ stable (fun _ => true) (pcode p) st.
Proof.
  exists squares. split; [|split].
  - repeat split; cbn; auto; try (repeat constructor; cbn; lia); try (intros ? H; cbn in *; intuition (subst; auto; lia)).
    all: try (intros v H; cbn in *; tauto).
  - cbn. repeat split; auto.
  - intros st m E L ST. cbn in E.
    assert (F : forall a b, In (a, b) [(0, 1); (2, 1); (0, 3); (2, 3)] -> leo (st a) (st b)).
    { intros a b H. rewrite <- (ST (UFlow a b)) with (v := b).
      - cbn [visit]. unfold join_into. rewrite Nat.eqb_refl. apply leo_join_r.
      - cbn in *. intuition congruence. }
    assert (F1 := F 0 1 ltac:(cbn; auto)). assert (F2 := F 2 1 ltac:(cbn; auto)). rewrite E in F1. destruct (st 1) as [m1|] eqn:E1; [|destruct F1]. cbn in F1.
    assert (F3 : leo (Some (m1 + m1 - 1)) (st 2)).
    { rewrite <- (ST (UOp KMul [(1, false); (1, false)] [2])) with (v := 2); [|cbn; auto 8]. cbn [visit filter fold_left]. unfold join_into. cbn [Nat.eqb].
      unfold visit_op, secret_operands. cbn [map fst filter dim_loop]. rewrite E1. cbn [dim_loop option_map length Nat.eqb]. apply leo_join_r. }
    destruct (st 2) as [m2|]; [|destruct F3]. cbn in *. lia.
Qed.
Print Assumptions C65_stops_refuted.

(** A fixed point need not cover a loop-carried value that starts as a plaintext: the accumulator of products
    keeps no dimension (reported as 2) although it has 3 components.  (Reached if the secretness of the accumulator is known before its
    dimension; otherwise the first visit counts only the other operand.) *)
Definition sums : prog := Prog [0; 1] (For 1 [1] [2] (Do KMul 0 [(0, false); (0, false)] [3] (Do KOther 1 [(2, false); (3, false)] [4] End)) [4] [5] End) [5].
Theorem C65_uninitialized_refuted : exists p sec st xs e e' x d, wf_prog p /\ secretness sec (pcode p) /\ stable sec (pcode p) st /\
  (forall a, In a (pargs p) -> sec a = true -> st a = Some 2) /\ good_args sec (fun _ => 1) (pargs p) xs /\
  assign (pargs p) xs (fun _ => None) = Some e /\ exec nat (fun _ _ => [0]) sec true false (pcode p) e = Some e' /\
  e' 5 = Some (x, Some d) /\ ~ (S d <= match st 5 with Some m => m | None => 2 end).
Proof.
  exists sums, (fun v => negb (v =? 1)), (fun v => match v with 0 => Some 2 | 3 => Some 3 | _ => None end), [(7, Some 1); (0, None)].
  eexists. eexists. exists 0, 2. split; [|split; [|split; [|split; [|split; [|split; [|split; [|split]]]]]]].
  - repeat split; cbn; auto; try (repeat constructor; cbn; lia); try (intros ? H; cbn in *; intuition (subst; auto; lia)).
    all: try (repeat constructor; cbn; intuition lia).
  - cbn. repeat split; try (intros r [<-|[]]; reflexivity). intros a b H Sa. cbn in H. destruct H as [H|[H|[H|[H|[]]]]]; injection H as <- <-; reflexivity.
  - intros u Hu v. cbn in Hu. intuition (subst; cbn; unfold join_into; cbn; do 6 (destruct v as [|v]; cbn; auto)).
  - intros a H Sa. cbn in *. intuition (subst; cbn in *; congruence || auto).
  - repeat constructor.
  - reflexivity.
  - reflexivity.
  - reflexivity.
  - cbn. lia.
Qed.
Print Assumptions C65_uninitialized_refuted.

(** A loop that squares, followed by a product and a rotation. *)
Definition demo : prog :=
  Prog [0; 1]
    (For 3 [0] [2] (Do KMul 0 [(2, false); (2, false)] [3] (Do KRelin 0 [(3, false)] [4] End)) [4] [5]
    (Do KMul 0 [(5, false); (1, false)] [6] (Do KRelin 0 [(6, false)] [7] (Do KRotate 1 [(7, false)] [8] End)))) [8].
Definition ev_demo (f : nat) (xs : list nat) : list nat :=
  match f, xs with 0, [a; b] => [a * b] | 1, [a] => [a + 1] | 2, [a; b] => [a + b] | _, _ => [] end.
Ltac wf_tac := repeat split; cbn; auto; try (repeat constructor; cbn; intuition lia); try (intros ? H; cbn in *; intuition (subst; auto; lia)).
Lemma demo_wf : wf_prog demo.
Proof. wf_tac. Qed.
Lemma demo_secretness : secretness (fun _ => true) (pcode demo).
Proof. cbn. repeat split; auto. Qed.
Example C65_nonvacuous :
  wf_prog demo /\ secretness (fun _ => true) (pcode demo) /\ relin_secret (fun _ => true) (pcode demo) /\
  only_relin (fun _ => true) (products (fun _ => true) (pcode demo)) (pcode demo) /\
  stable (fun _ => true) (pcode demo) (bound_st (fun _ => true) [3; 6]) /\
  initialized (fun _ => true) (bound_st (fun _ => true) [3; 6]) (carried (pcode demo)) /\
  exists e e', assign [0; 1] [(2, Some 1); (5, Some 1)] (fun _ => None) = Some e /\
    exec nat ev_demo (fun _ => true) true false (pcode demo) e = Some e' /\ e' 6 = Some (1280, Some 2) /\ e' 8 = Some (1281, Some 1).
Proof.
  split; [apply demo_wf|]. split; [apply demo_secretness|].
  assert (RS : relin_secret (fun _ => true) (pcode demo)) by (cbn; repeat split; auto).
  assert (OR : only_relin (fun _ => true) (products (fun _ => true) (pcode demo)) (pcode demo)).
  { cbn. repeat split; intros; intuition lia. }
  split; auto. split; auto. split.
  { apply (bound_stable (fun _ => true) [3; 6] (pcode demo) [0; 1]); auto; [apply demo_wf|apply demo_secretness|apply incl_refl]. }
  split; [intros v Hv _; unfold bound_st; destruct (in_dec Nat.eq_dec v [3; 6]); eauto|].
  eexists. eexists. repeat split; reflexivity.
Qed.
(** a straight-line program with three products of which one is rotated *)
Definition three : prog :=
  Prog [0; 1]
    (Do KMul 0 [(0, false); (1, false)] [2] (Do KMul 0 [(0, false); (1, false)] [3] (Do KMul 0 [(0, false); (1, false)] [4]
    (Do KRelin 0 [(2, false)] [5] (Do KRotate 1 [(5, false)] [6]
    (Do KOther 2 [(2, false); (3, false)] [7] (Do KOther 2 [(7, false); (4, false)] [8] (Do KRelin 0 [(8, false)] [9] End)))))))) [6; 9].
Lemma three_wf : wf_prog three.
Proof. wf_tac. Qed.
Lemma three_secretness : secretness (fun _ => true) (pcode three).
Proof. cbn. repeat split; auto. Qed.
Example C65_exact_nonvacuous :
  wf_prog three /\ secretness (fun _ => true) (pcode three) /\ flat (pcode three) /\ relin_secret (fun _ => true) (pcode three) /\
  exists e e', assign [0; 1] [(2, Some 1); (5, Some 1)] (fun _ => None) = Some e /\
    exec nat ev_demo (fun _ => true) true false (pcode three) e = Some e' /\
    map e' [2; 8; 9] = [Some (10, Some 2); Some (30, Some 2); Some (30, Some 1)] /\
    map (fold_left (visit (fun _ => true)) (updates (pcode three)) (fun v => if v <? 2 then Some 2 else None)) [2; 8; 9] = [Some 3; Some 3; Some 2].
Proof.
  split; [apply three_wf|]. split; [apply three_secretness|]. split; [cbn; auto|]. split; [cbn; repeat split; auto|].
  eexists. eexists. repeat split; reflexivity.
Qed.

(** * C66: the placement of relinearizations *)
(** A feasible solution of the integer program gives a program that the backend accepts (rotations, modulus
    reductions, operations with plaintexts and results of degree 1, degrees at most 2, equal degrees unless mixed
    degrees are allowed) and that computes the same as before.  (Missing: the integer program does not constrain
    what flows into and out of loops, see [loops_ok].) *)
Theorem C66_correct_partial D ev sec mixed dim x p dg (xs : list (D * option nat)) zs :
  wf_prog p -> secretness sec (pcode p) ->
  feasible sec mixed dim x (strip_prog p) -> loops_ok sec mixed x (pcode (strip_prog p)) ->
  good_args sec dg (pargs p) xs ->
  (forall a, In a (pargs p) -> sec a = true -> 1 <= dg a /\ match dim a with Some d => d = S (dg a) | None => dg a = 1 end) ->
  run_plain D ev p (map fst xs) = Some zs ->
  exists ys, run D ev (sec_after sec p) mixed true (optimize sec x p) xs = Some ys /\ map fst ys = zs.
Proof. exact (optimize_correct D ev sec mixed dim x p dg xs zs). Qed.
Print Assumptions C66_correct_partial.

(** For straight-line programs the solver can always succeed. *)
Theorem C66_solvable sec mixed dim p :
  wf_prog p -> flat (pcode p) -> secretness sec (pcode p) ->
  (forall a, In a (pargs p) -> sec a = true -> dim a = None \/ dim a = Some 2) ->
  exists x, feasible sec mixed dim x (strip_prog p).
Proof.
  intros W FL SC AD. apply exists_feasible; auto. intros a Ha Sa. split; auto. destruct (AD a Ha Sa) as [-> | ->]; auto.
Qed.
Print Assumptions C66_solvable.

(** Every legal choice of the operations after which to relinearize is a solution (straight-line programs). *)
Theorem C66_complete D ev sec mixed dim is p dg (xs : list (D * option nat)) ys :
  wf_prog p -> flat (pcode p) -> secretness sec (pcode p) ->
  good_args sec dg (pargs p) xs -> (forall a, In a (pargs p) -> sec a = true -> 1 <= dg a <= 2) ->
  (forall a, In a (pargs p) -> sec a = true -> match dim a with Some d => d = S (dg a) | None => dg a = 1 end) ->
  run D ev (sec_after sec p) mixed true (insert_prog sec is (strip_prog p)) xs = Some ys ->
  exists x, ins x = is /\ feasible sec mixed dim x (strip_prog p).
Proof.
  intros W FL SC G B AD R. destruct (strip_prog_ok _ _ W SC) as (WQ & SQ & NR).
  assert (PA : pargs (strip_prog p) = pargs p) by (rewrite strip_prog_eq; auto).
  eapply insert_complete; eauto.
  - rewrite strip_prog_eq. cbn [pcode]. apply flat_strip; auto.
  - rewrite PA. eauto.
  - rewrite PA. intros a Ha Sa. split; [apply B; auto|apply AD; auto].
  - rewrite PA. intros a Ha Sa. apply B; auto.
Qed.
Print Assumptions C66_complete.

(** If the backend accepts mixed degrees, an optimal solution has the fewest relinearizations of all legal programs
    that differ only in their relinearizations (straight-line programs, operations with one result). *)
Theorem C66_fewest_partial D ev sec dim x p p' (xs : list (D * option nat)) ys :
  wf_prog p' -> flat (pcode p') -> single (pcode p') -> secretness sec (pcode p') ->
  good_args sec (fun _ => 1) (pargs p') xs -> (forall a, In a (pargs p') -> sec a = true -> dim a = None \/ dim a = Some 2) ->
  run D ev sec true true p' xs = Some ys -> strip_prog p' = strip_prog p ->
  (forall x', feasible sec true dim x' (strip_prog p) -> cost sec (ins x) (pcode (strip_prog p)) <= cost sec (ins x') (pcode (strip_prog p))) ->
  count_relin (pcode (optimize sec x p)) <= count_relin (pcode p').
Proof.
  intros W FL SG SC G AD R SP OPT. eapply optimize_fewest; eauto. intros a Ha Sa. split; auto. destruct (AD a Ha Sa) as [-> | ->]; auto.
Qed.
Print Assumptions C66_fewest_partial.

(** If equal degrees are required the pass can add relinearizations: a value is relinearized for all its uses. *)
Theorem C66_equal_degrees_refuted : exists sec dim p xs ys,
  wf_prog p /\ flat (pcode p) /\ single (pcode p) /\ secretness sec (pcode p) /\ good_args sec (fun _ => 1) (pargs p) xs /\
  (forall a, dim a = Some 2) /\
  run nat ev_demo sec false true p xs = Some ys /\ count_relin (pcode p) = 2 /\
  forall x, feasible sec false dim x (strip_prog p) -> 3 <= count_relin (pcode (optimize sec x p)).
Proof.
  exists (fun _ => true), (fun _ => Some 2), three, [(2, Some 1); (5, Some 1)]. eexists.
  split; [apply three_wf|]. split; [cbn; auto|]. split; [cbn; auto 20|]. split; [apply three_secretness|]. split; [repeat constructor|]. split; [auto|].
  split; [reflexivity|]. split; [reflexivity|]. intros x (FA & FC & FL & FE).
  cbn in FC. unfold op_ok in FC. cbn in FC. unfold equal_operands, linear, decision_ok, before_ok in FC. cbn in FC.
  repeat match goal with H : _ /\ _ |- _ => destruct H end.
  repeat match goal with H : true = true -> _ |- _ => specialize (H eq_refl) | H : false = false -> _ |- _ => specialize (H eq_refl) end.
  inversion_clear FA as [|? ? A0 FA']. inversion_clear FA' as [|? ? A1 FA'']. destruct (A0 eq_refl) as [_ D0]. destruct (A1 eq_refl) as [_ D1]. cbn in D0, D1.
  unfold optimize, insert_prog. cbn [pcode].
  rewrite count_insert; [|cbn; repeat split; discriminate|cbn; auto 20]. cbn [cost strip_prog]. cbn.
  repeat match goal with H : Forall _ (_ :: _) |- _ => inversion_clear H end.
  repeat match goal with H : _ /\ _ |- _ => destruct H end.
  repeat match goal with H : true = true -> _ |- _ => specialize (H eq_refl) end.
  unfold b2q, aux in *.
  destruct (ins x 2), (ins x 3), (ins x 4); cbn; try lia; exfalso; change (inject_Z 2) with 2%Q in *; destruct (ins x 7); lra.
Qed.
Print Assumptions C66_equal_degrees_refuted.

(** At loops the integer program is too weak: the optimal solution removes the relinearization of a loop that squares,
    and the backend rejects the result. *)
Definition loop_squares : prog :=
  Prog [0] (For 2 [0] [1] (Do KMul 0 [(1, false); (1, false)] [2] (Do KRelin 0 [(2, false)] [4] End)) [4] [3] End) [3].
Theorem C66_loop_refuted : exists sec dim x p xs ys,
  wf_prog p /\ secretness sec (pcode p) /\ good_args sec (fun _ => 1) (pargs p) xs /\ (forall a, dim a = Some 2) /\
  run nat ev_demo sec true true p xs = Some ys /\
  feasible sec true dim x (strip_prog p) /\ cost sec (ins x) (pcode (strip_prog p)) = 0 /\
  run nat ev_demo (sec_after sec p) true true (optimize sec x p) xs = None.
Proof.
  exists (fun _ => true), (fun _ => Some 2), (Solution (fun v => if v =? 2 then 2%Q else 1%Q) (fun v => if v =? 2 then 2%Q else 1%Q) (fun _ => false)), loop_squares, [(2, Some 1)]. eexists.
  split; [wf_tac|]. split; [cbn; repeat split; auto|]. split; [repeat constructor|]. split; [auto|]. split; [reflexivity|]. split; [|split; reflexivity].
  unfold feasible. cbn. unfold op_ok, arg_ok, vars_ok, equal_operands, linear, before_ok, decision_ok, in_bounds, b2q, aux. cbn.
  repeat split; intros; repeat constructor; cbn; try (split; lra); try lra; try discriminate.
Qed.
Print Assumptions C66_loop_refuted.

(** The example with a loop: the relinearizations of both products are decided, the result is accepted. *)
Definition sol_demo : solution :=
  Solution (fun _ => 1%Q) (fun v => if (v =? 3) || (v =? 6) then 2%Q else 1%Q) (fun v => (v =? 3) || (v =? 6)).
Example C66_nonvacuous :
  wf_prog demo /\ secretness (fun _ => true) (pcode demo) /\
  feasible (fun _ => true) false (fun _ => Some 2) sol_demo (strip_prog demo) /\
  loops_ok (fun _ => true) false sol_demo (pcode (strip_prog demo)) /\
  good_args (fun _ => true) (fun _ => 1) (pargs demo) [(2, Some 1); (5, Some 1)] /\
  run_plain nat ev_demo demo [2; 5] = Some [1281] /\
  run nat ev_demo (sec_after (fun _ => true) demo) false true (optimize (fun _ => true) sol_demo demo) [(2, Some 1); (5, Some 1)] = Some [(1281, Some 1)].
Proof.
  split; [apply demo_wf|]. split; [apply demo_secretness|]. split; [|split; [|split; [repeat constructor|split; reflexivity]]].
  - unfold feasible. cbn. unfold op_ok, arg_ok, vars_ok, equal_operands, linear, before_ok, decision_ok, in_bounds, b2q, aux. cbn.
    repeat split; intros; repeat constructor; cbn; try (split; lra); try lra; try discriminate.
  - cbn. unfold covers, flow_deg. cbn. repeat split; intros a b H; try lra. intros _.
    destruct H as [H|[H|[]]]; injection H as <- <-; reflexivity.
Qed.
(** the hypotheses about straight-line programs; with mixed degrees two relinearizations suffice *)
Definition sol_three : solution :=
  Solution (fun v => if (v =? 3) || (v =? 4) || (v =? 7) then 2%Q else 1%Q) (fun v => if (v =? 6) || (v <? 2) then 1%Q else 2%Q) (fun v => (v =? 2) || (v =? 8)).
Example C66_flat_nonvacuous :
  wf_prog three /\ flat (pcode three) /\ single (pcode three) /\ secretness (fun _ => true) (pcode three) /\
  good_args (fun _ => true) (fun _ => 1) (pargs three) [(2, Some 1); (5, Some 1)] /\
  run nat ev_demo (fun _ => true) true true three [(2, Some 1); (5, Some 1)] = Some [(11, Some 1); (30, Some 1)] /\
  run nat ev_demo (sec_after (fun _ => true) three) true true (insert_prog (fun _ => true) (ins sol_three) (strip_prog three)) [(2, Some 1); (5, Some 1)] = Some [(11, Some 1); (30, Some 1)] /\
  feasible (fun _ => true) true (fun _ => Some 2) sol_three (strip_prog three) /\
  cost (fun _ => true) (ins sol_three) (pcode (strip_prog three)) = 2 /\
  forall x', feasible (fun _ => true) true (fun _ => Some 2) x' (strip_prog three) -> 2 <= cost (fun _ => true) (ins x') (pcode (strip_prog three)).
Proof.
  split; [apply three_wf|]. split; [cbn; auto|]. split; [cbn; auto 20|]. split; [apply three_secretness|]. split; [repeat constructor|].
  split; [reflexivity|]. split; [reflexivity|]. split; [|split; [reflexivity|]].
  - unfold feasible. cbn. unfold op_ok, arg_ok, vars_ok, equal_operands, linear, before_ok, decision_ok, in_bounds, b2q, aux. cbn.
    repeat split; intros; repeat constructor; cbn; try (split; lra); try lra; try discriminate.
  - intros x (FA & FC & FL & FE).
    cbn in FC, FL. unfold op_ok in FC. cbn in FC. unfold equal_operands, linear, decision_ok, before_ok in FC. cbn in FC. unfold linear in FL.
    repeat match goal with H : _ /\ _ |- _ => destruct H end.
    repeat match goal with H : true = true -> _ |- _ => specialize (H eq_refl) end.
    inversion_clear FA as [|? ? A0 FA']. inversion_clear FA' as [|? ? A1 FA'']. destruct (A0 eq_refl) as [_ D0]. destruct (A1 eq_refl) as [_ D1]. cbn in D0, D1.
    cbn. repeat match goal with H : Forall _ (_ :: _) |- _ => inversion_clear H end.
    repeat match goal with H : _ /\ _ |- _ => destruct H end.
    repeat match goal with H : true = true -> _ |- _ => specialize (H eq_refl) end.
    unfold b2q, aux in *. change (inject_Z 2) with 2%Q in *.
    destruct (ins x 2); [|exfalso; lra]. destruct (ins x 3), (ins x 4), (ins x 7), (ins x 8); cbn; try lia; exfalso; lra.
Qed.
