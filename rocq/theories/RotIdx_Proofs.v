(** Proofs about the announced rotation indices. *)
From Coq Require Import ZArith List Bool Lia.
From Verif Require Import Words NumTheory_Model Kernel_Model Kernel_Proofs RotIdx_Model.
Import ListNotations.
Open Scope Z_scope.

Lemma set_insert_In x y s : In y (set_insert x s) <-> y = x \/ In y s.
Proof.
  unfold set_insert. destruct (existsb (Z.eqb x) s) eqn:E; cbn; [|intuition].
  apply existsb_exists in E. destruct E as (z & Hz & Ez). apply Z.eqb_eq in Ez. subst z.
  split; [auto|]. intros [->|]; auto.
Qed.
Lemma set_insert_nodup x s : NoDup s -> NoDup (set_insert x s).
Proof.
  intros H. unfold set_insert. destruct (existsb (Z.eqb x) s) eqn:E; auto. constructor; auto.
  intros Hin. assert (existsb (Z.eqb x) s = true); [|congruence]. apply existsb_exists. exists x.
  split; auto. apply Z.eqb_refl.
Qed.
Lemma fold_insert_In {A} (f : A -> Z) l s y :
  In y (fold_left (fun s x => set_insert (f x) s) l s) <-> In y s \/ exists x, In x l /\ y = f x.
Proof.
  revert s. induction l as [|a l IH]; intros s; cbn [fold_left].
  - split; [auto|]. intros [|(x & [] & _)]; auto.
  - rewrite IH, set_insert_In. split.
    + intros [[->|]|(x & H & ->)]; auto. { right. exists a. cbn. auto. } right. exists x. cbn. auto.
    + intros [|(x & [->|H] & ->)]; auto. right. exists x. auto.
Qed.
Lemma upto_In k n : In k (upto n) <-> 0 <= k < n.
Proof.
  unfold upto. rewrite in_map_iff. split.
  - intros (i & <- & H). apply in_seq in H. lia.
  - intros H. exists (Z.to_nat k). split; [lia|]. apply in_seq. lia.
Qed.

(** membership in the reported sets *)
Lemma reduce_indices_log period steps s : reduce_indices period steps false = Some s ->
  forall k, In k s <-> exists x, In x (shift_sizes steps) /\ k = x * period.
Proof.
  cbn [reduce_indices negb]. intros [= <-] k. rewrite (fold_insert_In (fun x => x * period)). cbn. intuition.
Qed.
Lemma reduce_indices_bsgs period steps s : reduce_indices period steps true = Some s ->
  forall k, In k s <-> (exists i, 1 <= i < baby_steps steps /\ k = period * i) \/
                       (exists j, 1 <= j < giant_steps steps /\ k = period * j * baby_steps steps).
Proof.
  cbn [reduce_indices negb]. destruct (baby_steps steps =? 0); [discriminate|]. intros [= <-] k.
  rewrite (fold_insert_In (fun j => period * j * baby_steps steps)), (fold_insert_In (fun i => period * i)). cbn [In].
  assert (F : forall n f, (exists x, In x (filter (fun i => 1 <=? i) (upto n)) /\ k = f x) <->
                          (exists i, 1 <= i < n /\ k = f i)).
  { intros n f. split; intros (x & H & E); exists x; (split; [|exact E]).
    - apply filter_In in H. rewrite upto_In in H. lia.
    - apply filter_In. rewrite upto_In. lia. }
  rewrite !F. intuition.
Qed.

Section Rots.
Variable K : cring.
Notation rots := (rots K).

Lemma rots_loop (P : Z -> Prop) e iv args inits lower upper body (I : Z -> list (value K) -> Prop) :
  (forall x k, In x inits -> In k (rots e x) -> P k) ->
  (forall vs, evals K e inits = Some vs -> I lower vs) ->
  (forall i us e' , lower <= i < upper -> I i us ->
     bind_vars K (bind_var K e iv (VInt K i)) args us = Some e' ->
     (forall k, In k (rots e' body) -> P k) /\
     (forall us', eval K e' body = Some us' -> I (i + 1) us')) ->
  forall k, In k (rots e (ForLoop K iv args inits lower upper body)) -> P k.
Proof.
  intros H1 H2 H3 k. cbn [RotIdx_Model.rots]. rewrite in_app_iff. intros [H|H].
  { apply in_flat_map in H. destruct H as (x & Hx & Hk). eauto. }
  revert k H.
  match goal with |- context [fold_left ?G _ (_, @nil Z)] => set (F := G) end.
  assert (G : forall n, (n <= Z.to_nat (upper - lower))%nat ->
     let r := fold_left F (map (fun k => lower + Z.of_nat k) (seq 0 n)) (evals K e inits, []) in
     (forall us, fst r = Some us -> I (lower + Z.of_nat n) us) /\ forall k, In k (snd r) -> P k).
  { induction n; intros Hn.
    - cbn. split; [|contradiction]. intros us E. rewrite Z.add_0_r. auto.
    - rewrite seq_S, map_app, fold_left_app. cbn [map fold_left Nat.add].
      specialize (IHn ltac:(lia)). cbv zeta in IHn. cbv zeta.
      set (r := fold_left F _ _) in *. destruct IHn as [A B]. unfold F.
      destruct (fst r) as [us|] eqn:Er; [|rewrite Er; split; [discriminate|auto]].
      specialize (A us eq_refl).
      destruct (bind_vars K (bind_var K e iv (VInt K (lower + Z.of_nat n))) args us) as [e'|] eqn:Eb; cbn [fst snd].
      + destruct (H3 (lower + Z.of_nat n) us e' ltac:(lia) A Eb) as [C D]. split.
        * intros us' E'. replace (lower + Z.of_nat (S n)) with (lower + Z.of_nat n + 1) by lia. auto.
        * intros k Hk. apply in_app_iff in Hk. destruct Hk; auto.
      + split; [discriminate|auto]. }
  intros k Hk. eapply (G (Z.to_nat (upper - lower))); auto.
Qed.

Lemma bind_vars_get e xs us e' x : bind_vars K e xs us = Some e' -> ~ In x xs -> e' x = e x.
Proof.
  revert us e'. induction xs as [|y xs IH]; intros [|u us] e' H Hx; try discriminate; cbn in H.
  - congruence.
  - destruct (bind_vars K e xs us) as [e2|] eqn:E; [|discriminate]. cbn in H. injection H as <-.
    unfold bind_var. destruct (Nat.eqb_spec x y); [subst; exfalso; apply Hx; now left|].
    eapply IH; eauto. intro; apply Hx; now right.
Qed.

(** accumulation *)
Lemma rots_fold (P : Z -> Prop) (mul : bool) period e l : forall v,
  (forall k, In k (rots e v) -> P k) -> (forall x, In x l -> P (x * period)) ->
  forall k, In k (rots e (fold_left (fun acc s => (if mul then Mul K else Add K) acc (rotate_by K acc (s * period))) l v)) -> P k.
Proof.
  induction l as [|x l IH]; intros v Hv Hl; cbn [fold_left]; auto.
  apply IH.
  - intros k. unfold rotate_by.
    assert (E : forall a b, rots e ((if mul then Mul K else Add K) a b) = rots e a ++ rots e b) by (intros; destruct mul; reflexivity).
    rewrite E. cbn [RotIdx_Model.rots eval single app]. rewrite !in_app_iff. intros [|[|H]]; auto.
    destruct (plain K v); [destruct H|]. destruct H as [<-|[]]. apply Hl. now left.
  - intros y Hy. apply Hl. now right.
Qed.

Lemma halvings_loop steps n : 0 < steps < 2 ^ 63 -> 0 <= n < Z.log2 steps ->
  In (steps / 2 ^ (n + 1)) (shift_sizes steps).
Proof.
  intros Hs Hn. rewrite shift_sizes_ok by auto. apply in_map_iff. exists (Z.to_nat n).
  split; [do 2 f_equal; lia|]. apply in_seq. lia.
Qed.
Lemma rots_accumulate_rolled (P : Z -> Prop) (mul : bool) period steps e v d :
  0 < steps < 2 ^ 63 ->
  (forall k, In k (rots e v) -> P k) -> (forall x, In x (shift_sizes steps) -> P (x * period)) ->
  accumulate_rolled K v period steps (if mul then Mul K else Add K) = Some d ->
  forall k, In k (rots e d) -> P k.
Proof.
  intros Hs Hv Hl. unfold accumulate_rolled. destruct (Z.leb_spec steps 0); [lia|].
  destruct (Z.leb_spec (Z.log2 steps) 0); intros [= <-]; auto.
  intros k. cbn [RotIdx_Model.rots]. revert k.
  apply rots_loop with (I := fun i us => exists v', us = [v'; VInt K (steps / 2 ^ (i + 1))]).
  - intros x k [<-|[<-|[]]]; auto. contradiction.
  - intros vs. cbn [evals eval]. destruct (single K (eval K e v)) as [v'|]; [|discriminate].
    cbn [bind single]. intros [= <-]. exists v'. change (2 ^ (0 + 1)) with 2. rewrite Z.quot_div_nonneg by lia. reflexivity.
  - intros i us e' Hi (v' & ->) [= <-].
    match goal with |- context [eval K ?E _] => set (e' := E) end.
    set (h := steps / 2 ^ (i + 1)) in *.
    assert (Hin : In h (shift_sizes steps)) by (apply halvings_loop; auto).
    assert (V1 : eval K e' (Var K 1) = Some [v']) by reflexivity.
    assert (V2 : eval K e' (Var K 2) = Some [VInt K h]) by reflexivity.
    clearbody e'.
    assert (Hpos : 0 < h).
    { apply Z.div_str_pos. split; [apply Z.pow_pos_nonneg; lia|].
      apply Z.le_trans with (2 ^ Z.log2 steps); [apply Z.pow_le_mono_r; lia|apply Z.log2_spec; lia]. }
    split.
    + intros k Hk. cbn [RotIdx_Model.rots flat_map] in Hk. rewrite !app_nil_r in Hk.
      assert (E : forall a b, rots e' ((if mul then Mul K else Add K) a b) = rots e' a ++ rots e' b) by (intros; destruct mul; reflexivity).
      rewrite E in Hk. cbn [RotIdx_Model.rots plain app] in Hk.
      replace (eval K e' (Mul K (Var K 2) (Const K period))) with (Some [VInt K (h * period)]) in Hk.
      2:{ cbn [eval] in V2 |- *. rewrite V2. reflexivity. }
      destruct Hk as [<-|[]]. auto.
    + intros us' E'. 
      change (evals K e' [(if mul then Mul K else Add K) (Var K 1) (Rotate K (Var K 1) (Mul K (Var K 2) (Const K period)));
                FloorDiv K (Var K 2) 2] = Some us') in E'. cbn [evals] in E'.
      destruct (single K (eval K e' ((if mul then Mul K else Add K) (Var K 1) (Rotate K (Var K 1) (Mul K (Var K 2) (Const K period)))))) as [w|];
        [|discriminate]. cbn [bind] in E'.
      replace (eval K e' (FloorDiv K (Var K 2) 2)) with (Some [VInt K (h / 2)]) in E'.
      2:{ cbn [eval] in V2 |- *. rewrite V2. cbn [bind single floor_div].
          destruct (Z.eqb_spec h 0); [lia|]. cbn [bind]. rewrite Z.quot_div_nonneg by lia. reflexivity. }
      cbn [single bind] in E'. injection E' as <-. exists w. do 2 f_equal. unfold h.
      rewrite Z.div_div by (try apply Z.pow_pos_nonneg; lia). do 2 f_equal.
      replace (i + 1 + 1) with (Z.succ (i + 1)) by lia. rewrite Z.pow_succ_r by lia. ring.
Qed.

(** baby-step giant-step *)
Lemma rots_bsgs_plain (P : Z -> Prop) e v b period steps slots skip rotf d :
  (forall k, In k (rots e v) -> P k) -> plain K b = true -> (forall k, In k (rots e b) -> P k) -> P 0 ->
  (forall i, 1 <= i < baby_steps steps -> P (period * i)) ->
  (forall j, 1 <= j < giant_steps steps -> P (period * j * baby_steps steps)) ->
  bsgs K v b period steps slots (extract_at K) skip rotf = Some d ->
  forall k, In k (rots e d) -> P k.
Proof.
  intros Hv Hb Hb' H0 Hi Hj. unfold bsgs. destruct (Z.eqb_spec (baby_steps steps) 0); [discriminate|].
  intros [= <-].
  set (ok := fun o : option (node K) => forall x, o = Some x -> forall k, In k (rots e x) -> P k).
  assert (Hadd : forall a x, ok a -> (forall k, In k (rots e x) -> P k) -> ok (add_opt K a x)).
  { intros [a|] x Ha Hx y [= <-] k; cbn [RotIdx_Model.rots]; auto. rewrite in_app_iff. intros [|]; auto. eapply Ha; eauto. }
  assert (Hin : forall j, ok (inner_sum K v b period steps (baby_steps steps) (extract_at K) skip rotf j)).
  { intros j. unfold inner_sum.
    assert (G : forall l acc, (forall i, In i l -> 0 <= i < baby_steps steps) -> ok acc -> ok
      (fold_left (fun acc i => if steps <=? j * baby_steps steps + i then acc
        else if skip (i + j * baby_steps steps) then acc
        else add_opt K acc (Mul K (rotate_by K (extract_at K b (i + j * baby_steps steps)) (rotf (baby_steps steps) j i period))
                            (if i =? 0 then v else rotate_by K v (period * i)))) l acc)).
    { induction l as [|i l IH]; intros acc Hl Ha; cbn [fold_left]; auto.
      apply IH; [intros; apply Hl; now right|].
      destruct (steps <=? _); auto. destruct (skip _); auto. apply Hadd; auto.
      intros k. cbn [RotIdx_Model.rots rotate_by extract_at plain]. rewrite Hb. cbn [app]. rewrite !app_nil_r, in_app_iff.
      intros [H|H]; auto.
      specialize (Hl i ltac:(now left)).
      destruct (Z.eqb_spec i 0); auto. cbn [RotIdx_Model.rots rotate_by eval single app] in H.
      rewrite in_app_iff in H. destruct H as [H|H]; auto.
      destruct (plain K v); [destruct H|]. destruct H as [<-|[]]. apply Hi. lia. }
    apply G; [intros i; apply upto_In|]. intros x; discriminate. }
  assert (G : forall l acc, (forall j, In j l -> 0 <= j < giant_steps steps) -> ok acc -> ok
      (fold_left (fun acc j => match inner_sum K v b period steps (baby_steps steps) (extract_at K) skip rotf j with
        | None => acc | Some s => add_opt K acc (rotate_by K s (period * j * baby_steps steps)) end) l acc)).
  { induction l as [|j l IH]; intros acc Hl Ha; cbn [fold_left]; auto.
    apply IH; [intros; apply Hl; now right|].
    specialize (Hin j). destruct (inner_sum _ _ _ _ _ _ _ _ _ j) as [s|]; auto. apply Hadd; auto.
    intros k. cbn [RotIdx_Model.rots rotate_by eval single app]. rewrite in_app_iff. intros [H|H]; [eapply Hin; eauto|].
    destruct (plain K s); [destruct H|]. destruct H as [<-|[]].
    specialize (Hl j ltac:(now left)). destruct (Z.eq_dec j 0) as [->|]; [now rewrite Z.mul_0_r|]. apply Hj. lia. }
  intros k Hk. specialize (G (upto (giant_steps steps)) None ltac:(intros j; apply upto_In) ltac:(intros x; discriminate)).
  destruct (fold_left _ _ None) as [r|]; [eapply G; eauto|destruct Hk].
Qed.

Lemma rots_bsgs_rolled (P : Z -> Prop) v b period steps slots diag d :
  (forall e k, In k (rots e v) -> P k) -> plain K b = true -> (forall e k, In k (rots e b) -> P k) -> P 0 ->
  (forall i, 1 <= i < baby_steps steps -> P (period * i)) ->
  (forall j, 1 <= j < giant_steps steps -> P (period * j * baby_steps steps)) ->
  bsgs_rolled K v b period steps slots diag = Some d ->
  forall e k, In k (rots e d) -> P k.
Proof.
  intros Hv Hb Hb' H0 Hi Hj. unfold bsgs_rolled. destruct (Z.eqb_spec (baby_steps steps) 0); [discriminate|].
  intros [= <-] e k. cbn [RotIdx_Model.rots].
  revert k. apply rots_loop with (I := fun _ _ => True); auto.
  - intros x k [<-|[<-|[]]]; [contradiction|]. cbn [RotIdx_Model.rots]. revert k.
    apply rots_loop with (I := fun _ _ => True); auto.
    + intros x k [<-|[]]. contradiction.
    + intros i us e' Hir _ Eb. split; auto.
      assert (V0 : e' 0%nat = Some (VInt K i)).
      { rewrite (bind_vars_get _ _ _ _ 0%nat Eb); [reflexivity|]. cbn. lia. }
      intros k. cbn [RotIdx_Model.rots flat_map eval]. rewrite V0. cbn [bind single arith app].
      rewrite !app_nil_r, in_app_iff. intros [H|H]; eauto.
      destruct (plain K v); [destruct H|]. destruct H as [<-|[]].
      rewrite Z.mul_comm. destruct (Z.eq_dec i 0) as [->|]; [now rewrite Z.mul_0_r|]. apply Hi. lia.
  - intros j us e' Hjr _ Eb. split; auto.
    assert (V2 : e' 2%nat = Some (VInt K j)).
    { rewrite (bind_vars_get _ _ _ _ 2%nat Eb); [reflexivity|]. cbn. lia. }
    intros k.
    set (inner := ForLoop K 5 _ _ _ _ _).
    assert (Hinner : forall k, In k (rots e' inner) -> P k).
    { clear k. unfold inner. apply rots_loop with (I := fun _ _ => True); auto.
      - intros x k [<-|[]]. contradiction.
      - intros i us' e2 _ _ _. split; auto. intros k.
        destruct diag as [|dg diag'].
        + cbn [RotIdx_Model.rots flat_map app]. rewrite !app_nil_r.
          destruct (single K (eval K e2 (Compare K CmpLT _ _))) as [[z| | |]|]; try contradiction.
          destruct (z =? 0); [contradiction|]. cbn [plain]. rewrite Hb, app_nil_r. apply Hb'.
        + cbn [RotIdx_Model.rots flat_map app]. rewrite !app_nil_r.
          destruct (single K (eval K e2 (Compare K CmpLT _ _))) as [[z| | |]|]; try contradiction.
          destruct (z =? 0); [contradiction|].
          destruct (single K (eval K e2 (Compare K CmpNE _ _))) as [[z'| | |]|]; try contradiction.
          destruct (z' =? 0); [contradiction|]. cbn [plain]. rewrite Hb, app_nil_r. apply Hb'. }
    clearbody inner. cbn [RotIdx_Model.rots flat_map plain eval]. rewrite V2. cbn [bind single arith app].
    rewrite !app_nil_r, in_app_iff. intros [H|[<-|[]]]; auto.
    destruct (Z.eq_dec j 0) as [->|]; [exact H0|].
    replace (j * baby_steps steps * period) with (period * j * baby_steps steps) by ring. apply Hj. lia.
Qed.
End Rots.

(** ** Linear transforms *)
Lemma giant_baby n1 slots rot : 1 <= n1 -> 0 < slots ->
  0 <= baby_of n1 slots rot < n1 /\ 0 <= giant_of n1 slots rot < slots /\
  (n1 | giant_of n1 slots rot) /\ giant_of n1 slots rot + baby_of n1 slots rot = rot mod slots.
Proof.
  intros H1 H2. unfold giant_of, baby_of. rewrite !normalize_rotation_ok by auto.
  pose proof (Z.mod_pos_bound rot slots H2) as B. set (r := rot mod slots) in *.
  rewrite Z.quot_div_nonneg, Z.rem_mod_nonneg by lia.
  pose proof (Z.mod_pos_bound r n1 ltac:(lia)) as B1. pose proof (Z.div_mod r n1 ltac:(lia)) as D.
  pose proof (Z.div_pos r n1 ltac:(lia) ltac:(lia)).
  rewrite (Z.mod_small (r / n1 * n1)) by nia.
  split; auto. split; [nia|]. split; [exists (r / n1); ring|lia].
Qed.
Lemma set_length_one (f : Z -> Z) c l : (forall x, In x l -> f x = c) ->
  (length (fold_left (fun s x => set_insert (f x) s) l []) <= 1)%nat.
Proof.
  intros H.
  assert (ND : forall l s, NoDup s -> NoDup (fold_left (fun s x => set_insert (f x) s) l s)).
  { induction l0; cbn; auto. intros. apply IHl0, set_insert_nodup. auto. }
  specialize (ND l [] ltac:(constructor)).
  assert (A : forall y, In y (fold_left (fun s x => set_insert (f x) s) l []) -> y = c).
  { intros y Hy. apply fold_insert_In in Hy. destruct Hy as [[]|(x & Hx & ->)]. auto. }
  destruct (fold_left (fun s x => set_insert (f x) s) l []) as [|a [|b r]]; cbn; try lia.
  pose proof (A a ltac:(now left)). pose proof (A b ltac:(right; now left)). subst.
  inversion ND. exfalso. apply H2. now left.
Qed.
Lemma best_ratio_ok fuel : forall diags slots ratio t, 0 <= t <= 63 -> t + Z.of_nat fuel = 64 ->
  0 < slots <= 2 ^ 63 -> 1 <= ratio ->
  exists u, 0 <= u /\ best_ratio_loop fuel diags slots ratio (2 ^ t) = Some (2 ^ u).
Proof.
  induction fuel as [|fuel IH]; intros diags slots ratio t Ht Hf Hs Hr; [lia|].
  cbn [best_ratio_loop]. destruct (Z.ltb_spec (2 ^ t) slots) as [Hlt|].
  2:{ exists 0. split; [lia|reflexivity]. }
  assert (t < 63). { destruct (Z_lt_ge_dec t 63); auto. replace t with 63 in * by lia. lia. }
  set (s1 := fold_left (fun s rot => set_insert (giant_of (2 ^ t) slots rot) s) diags []).
  set (s2 := fold_left (fun s rot => set_insert (baby_of (2 ^ t) slots rot) s) diags []).
  destruct (Z.ltb_spec 0 (Z.of_nat (length s1) - 1)); cbn [andb].
  2:{ replace (2 ^ t * 2) with (2 ^ (t + 1)) by (rewrite Z.pow_add_r by lia; reflexivity). apply IH; lia. }
  destruct (Z.eqb_spec (Z.of_nat (length s2) - 1) (ratio * (Z.of_nat (length s1) - 1))).
  { exists t. split; [lia|reflexivity]. }
  destruct (Z.ltb_spec (ratio * (Z.of_nat (length s1) - 1)) (Z.of_nat (length s2) - 1)).
  2:{ replace (2 ^ t * 2) with (2 ^ (t + 1)) by (rewrite Z.pow_add_r by lia; reflexivity). apply IH; lia. }
  assert (t <> 0).
  { intros ->. assert ((length s2 <= 1)%nat); [|nia]. apply set_length_one with (c := 0).
    intros x _. unfold baby_of. change (2 ^ 0) with 1. apply Z.rem_1_r. }
  exists (t - 1). split; [lia|]. f_equal. rewrite Z.quot_div_nonneg by lia.
  replace t with (t - 1 + 1) at 1 by lia. rewrite Z.pow_add_r by lia. change (2 ^ 1) with 2.
  apply Z.div_mul. lia.
Qed.
Lemma lintrans_sets n1 slots diags k : 1 <= n1 -> 0 < slots ->
  In k (fold_left (fun s rot =>
          let giant := giant_of n1 slots rot in
          let baby := baby_of n1 slots rot in
          let s := if giant =? 0 then s else set_insert giant s in
          if baby =? 0 then s else set_insert baby s) diags []) <->
  k <> 0 /\ exists rot, In rot diags /\ (k = giant_of n1 slots rot \/ k = baby_of n1 slots rot).
Proof.
  intros H1 H2. cbv zeta.
  assert (G : forall l s, In k (fold_left (fun s rot =>
          if baby_of n1 slots rot =? 0 then if giant_of n1 slots rot =? 0 then s else set_insert (giant_of n1 slots rot) s
          else set_insert (baby_of n1 slots rot) (if giant_of n1 slots rot =? 0 then s else set_insert (giant_of n1 slots rot) s)) l s) <->
     In k s \/ (k <> 0 /\ exists rot, In rot l /\ (k = giant_of n1 slots rot \/ k = baby_of n1 slots rot))).
  { induction l as [|a l IH]; intros s; cbn [fold_left].
    - split; [auto|]. intros [|(_ & x & [] & _)]; auto.
    - rewrite IH. clear IH.
      set (g := giant_of n1 slots a) in *. set (b := baby_of n1 slots a) in *.
      assert (E : In k (if b =? 0 then if g =? 0 then s else set_insert g s
          else set_insert b (if g =? 0 then s else set_insert g s)) <-> In k s \/ k <> 0 /\ (k = g \/ k = b)).
      { destruct (Z.eqb_spec b 0), (Z.eqb_spec g 0); rewrite ?set_insert_In; intuition (subst; auto; lia). }
      rewrite E. split.
      + intros [[|[]]|(H & x & Hx & Hk)]; auto; right; split; auto; [exists a|exists x]; cbn; auto.
      + intros [|(H & x & [<-|Hx] & Hk)]; auto. right. split; auto. exists x; auto. }
  rewrite G. cbn [In]. intuition.
Qed.
