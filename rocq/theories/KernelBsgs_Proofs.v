(** Proofs about baby-step giant-step kernels and what is built on them. *)
From Coq Require Import ZArith List Bool Lia Arith Ring Ring_theory.
From Verif Require Import Words NumTheory_Model Sums Kernel_Model Kernel_Proofs.
Import ListNotations.
Open Scope Z_scope.

Lemma upto_in n k : In k (upto n) <-> 0 <= k < n.
Proof.
  unfold upto. rewrite in_map_iff. split.
  - intros (x & <- & H). apply in_seq in H. lia.
  - intros H. exists (Z.to_nat k). split; [lia|]. apply in_seq. lia.
Qed.
Lemma upto_length n : length (upto n) = Z.to_nat n.
Proof. unfold upto. now rewrite map_length, seq_length. Qed.

(** how many giant steps are needed *)
Lemma giant_cover steps size : 1 <= steps -> 1 <= size ->
  let g := Z.quot (steps + size - 1) size in 1 <= g /\ steps <= g * size.
Proof.
  intros H1 H2 g. unfold g. rewrite Z.quot_div_nonneg by lia.
  pose proof (Z.div_mod (steps + size - 1) size ltac:(lia)).
  pose proof (Z.mod_pos_bound (steps + size - 1) size ltac:(lia)).
  split; [apply Z.div_le_lower_bound; lia|nia].
Qed.
Lemma baby_steps_pos steps : 1 <= steps -> 1 <= baby_steps steps.
Proof. intros. unfold baby_steps. pose proof (Z.sqrt_up_pos steps). lia. Qed.

Section Kernels.
Variable K : cring.
Notation R := (car K).
Add Ring Kring : (r_ok K).
Local Notation zero := (r0 K).
Local Infix "+r" := (radd K) (at level 50, left associativity).
Local Infix "*r" := (rmul K) (at level 40, left associativity).
Notation rsum := (big (radd K) (r0 K)).
Notation den := (den K).
Notation get := (get K).

Local Hint Resolve Kaddc Kadda Kadd0 : core.

(** an optional node, absent when the sum is empty *)
Definition oden (e : env K) (x : option (node K)) (n : nat) (f : Z -> R) : Prop :=
  match x with None => forall i, f i = zero | Some x => den e x n f end.
Lemma oden_ext e x n f g : oden e x n f -> (forall i, f i = g i) -> oden e x n g.
Proof. destruct x; cbn; intros H E; [eapply den_ext; eauto|]. intros. rewrite <- E. auto. Qed.
Lemma oden_add e x y n f g : (0 < n)%nat -> oden e x n f -> den e y n g ->
  oden e (add_opt K x y) n (fun i => f i +r g i).
Proof.
  destruct x; cbn; intros H0 H1 H2; [apply den_add; auto|].
  eapply den_ext; eauto. intros i. rewrite H1. ring.
Qed.
(** a loop over 0..m-1 whose iterations add one term each (or none) *)
Lemma oden_fold e n (step : option (node K) -> Z -> option (node K)) (t : Z -> Z -> R) m :
  (forall acc k f, 0 <= k < m -> oden e acc n f -> oden e (step acc k) n (fun i => f i +r t k i)) ->
  oden e (fold_left step (upto m) None) n (fun i => rsum (Z.to_nat m) (fun k => t (Z.of_nat k) i)).
Proof.
  intros H. unfold upto.
  assert (P : forall k, (k <= Z.to_nat m)%nat ->
    oden e (fold_left step (map Z.of_nat (seq 0 k)) None) n (fun i => rsum k (fun k => t (Z.of_nat k) i))).
  { induction k; intros Hk.
    - cbn. auto.
    - rewrite seq_S, map_app, fold_left_app. cbn [map fold_left Nat.add]. apply H; [lia|]. apply IHk. lia. }
  apply P. lia.
Qed.

Definition ind (b : bool) (x : R) : R := if b then x else zero.

Section Bsgs.
Variables (e : env K) (v b : node K) (period steps : Z) (n : nat)
  (extractf : node K -> Z -> node K) (skip : Z -> bool) (rotf : Z -> Z -> Z -> Z -> Z)
  (fv : Z -> R) (P : Z -> Z -> R).
Hypothesis n_pos : (0 < n)%nat.
Hypothesis Hv : den e v n fv.
Hypothesis Hb : forall k, 0 <= k < steps -> skip k = false -> den e (extractf b k) n (P k).

Definition term (size j i s : Z) : R :=
  ind ((j * size + i <? steps) && negb (skip (i + j * size)))
    (P (i + j * size) (s + rotf size j i period) *r fv (s + period * i)).
Lemma inner_sum_ok size j : 1 <= size -> 0 <= j ->
  oden e (inner_sum K v b period steps size extractf skip rotf j) n
    (fun s => rsum (Z.to_nat size) (fun i => term size j (Z.of_nat i) s)).
Proof.
  intros Hs Hj. unfold inner_sum. apply oden_fold. intros acc i f Hi Ha. unfold term.
  destruct (Z.leb_spec steps (j * size + i)); destruct (Z.ltb_spec (j * size + i) steps); try lia; cbn [andb ind].
  - eapply oden_ext; eauto. intros. cbn [ind]. ring.
  - destruct (skip (i + j * size)) eqn:Ez; cbn [negb ind].
    + eapply oden_ext; eauto. intros. cbn [ind]. ring.
    + apply oden_add; auto. apply den_mul; auto.
      * apply den_rotate_by; auto. apply Hb; auto. split; [|lia].
        assert (0 <= j * size) by (apply Z.mul_nonneg_nonneg; lia). lia.
      * destruct (Z.eqb_spec i 0) as [->|].
        -- eapply den_ext; eauto. intros. f_equal. lia.
        -- apply (den_rotate_by K e v (period * i)); auto.
Qed.

(** the result as a double sum *)
Lemma bsgs_double d : 1 <= steps -> bsgs K v b period steps n extractf skip rotf = Some d ->
  let size := baby_steps steps in
  den e d n (fun s => rsum (Z.to_nat (giant_steps steps)) (fun j => rsum (Z.to_nat size)
     (fun i => term size (Z.of_nat j) (Z.of_nat i) (s + period * Z.of_nat j * size)))).
Proof.
  intros Hs. unfold bsgs. pose proof (baby_steps_pos steps Hs). set (size := baby_steps steps) in *.
  destruct (Z.eqb_spec size 0); [lia|]. intros E; injection E as <-. cbv zeta.
  set (r := fold_left _ _ _).
  assert (D : oden e r n (fun s => rsum (Z.to_nat (giant_steps steps)) (fun j => rsum (Z.to_nat size)
     (fun i => term size (Z.of_nat j) (Z.of_nat i) (s + period * Z.of_nat j * size))))).
  { unfold r. apply (oden_fold e n _ (fun j s => rsum (Z.to_nat size)
       (fun i => term size j (Z.of_nat i) (s + period * j * size)))).
    intros acc j f Hj Ha. pose proof (inner_sum_ok size j ltac:(lia) ltac:(lia)) as Hi.
    destruct (inner_sum K v b period steps size extractf skip rotf j) as [x|]; cbn in Hi.
    - apply oden_add; auto. apply (den_rotate_by K e x (period * j * size)) in Hi; auto.
    - eapply oden_ext; eauto. intros i. cbn beta. rewrite Hi. ring. }
  destruct r; cbn in D; auto. eapply den_ext; [apply den_splat|]. intros. now rewrite D.
Qed.

(** the double sum as a sum over all steps *)
Lemma double_single (h : Z -> Z -> R) s : 1 <= steps ->
  let size := baby_steps steps in
  (forall j i, 0 <= j -> 0 <= i < size -> i + j * size < steps -> skip (i + j * size) = false ->
     P (i + j * size) (s + period * j * size + rotf size j i period)
      *r fv (s + period * (i + j * size)) = h (i + j * size) s) ->
  rsum (Z.to_nat (giant_steps steps)) (fun j => rsum (Z.to_nat size)
     (fun i => term size (Z.of_nat j) (Z.of_nat i) (s + period * Z.of_nat j * size))) =
  rsum (Z.to_nat steps) (fun k => ind (negb (skip (Z.of_nat k))) (h (Z.of_nat k) s)).
Proof.
  intros Hs size Hh.
  pose proof (baby_steps_pos steps Hs). fold size in H.
  pose proof (giant_cover steps size Hs ltac:(lia)) as [G1 G2].
  change (Z.quot (steps + size - 1) size) with (giant_steps steps) in G1, G2.
  transitivity (rsum (Z.to_nat (giant_steps steps) * Z.to_nat size)
     (fun k => ind ((Z.of_nat k <? steps) && negb (skip (Z.of_nat k))) (h (Z.of_nat k) s))).
  - rewrite big_prod by auto. apply big_ext. intros j Hj. apply big_ext. intros i Hi. unfold term.
    replace (Z.of_nat (j * Z.to_nat size + i)) with (Z.of_nat i + Z.of_nat j * size) by lia.
    replace (Z.of_nat j * size + Z.of_nat i) with (Z.of_nat i + Z.of_nat j * size) by lia.
    destruct (Z.ltb_spec (Z.of_nat i + Z.of_nat j * size) steps); cbn [andb ind]; auto.
    destruct (skip (Z.of_nat i + Z.of_nat j * size)) eqn:Ez; cbn [negb ind]; auto.
    rewrite <- Hh by (auto; lia). f_equal. f_equal. lia.
  - rewrite (big_cut (radd K) zero (Kaddc K) (Kadda K) (Kadd0 K) _ (Z.to_nat steps)).
    + apply big_ext. intros k Hk. destruct (Z.ltb_spec (Z.of_nat k) steps); [auto|lia].
    + nia.
    + intros k Hk. destruct (Z.ltb_spec (Z.of_nat k) steps); [lia|auto].
Qed.
Lemma bsgs_single d (h : Z -> Z -> R) : 1 <= steps -> bsgs K v b period steps n extractf skip rotf = Some d ->
  (forall j i s, 0 <= j -> 0 <= i < baby_steps steps -> i + j * baby_steps steps < steps ->
     skip (i + j * baby_steps steps) = false ->
     P (i + j * baby_steps steps) (s + period * j * baby_steps steps + rotf (baby_steps steps) j i period)
      *r fv (s + period * (i + j * baby_steps steps)) = h (i + j * baby_steps steps) s) ->
  den e d n (fun s => rsum (Z.to_nat steps)
    (fun k => ind (negb (skip (Z.of_nat k))) (h (Z.of_nat k) s))).
Proof.
  intros Hs E Hh. eapply den_ext; [exact (bsgs_double d Hs E)|]. intros s. cbn beta.
  apply double_single; auto.
Qed.
End Bsgs.

Definition ipt_sum (v : Z -> R) (p : list (list R)) (period steps : Z) (skip : Z -> bool) (s : Z) : R :=
  rsum (Z.to_nat steps) (fun k => ind (negb (skip (Z.of_nat k)))
    (get (nth k p []) s *r v (s + period * Z.of_nat k))).

Lemma den_row e p n k : (forall r, In r p -> length r = n) -> 0 <= k < Z.of_nat (length p) ->
  den e (extract_at K (Leaf K (VMat K p)) k) n (get (nth (Z.to_nat k) p [])).
Proof.
  intros H Hk. rewrite <- (H (nth (Z.to_nat k) p [])) by (apply nth_In; lia).
  eapply den_extract; try reflexivity; [lia|]. apply nth_error_nth'. lia.
Qed.
Lemma default_cancel s period size j i : s + period * j * size + default_rotation size j i period = s.
Proof. unfold default_rotation. lia. Qed.

Lemma den_bsgs_plain e v p period steps n skip fv d : (0 < n)%nat -> 1 <= steps <= Z.of_nat (length p) ->
  (forall r, In r p -> length r = n) -> den e v n fv ->
  bsgs K v (Leaf K (VMat K p)) period steps n (extract_at K) skip default_rotation = Some d ->
  den e d n (ipt_sum fv p period steps skip).
Proof.
  intros H0 Hs Hp Hv E.
  eapply den_ext.
  - eapply (bsgs_single e v (Leaf K (VMat K p)) period steps n (extract_at K) skip default_rotation fv
      (fun k => get (nth (Z.to_nat k) p [])) H0 Hv) with
      (h := fun k s => get (nth (Z.to_nat k) p []) s *r fv (s + period * k)); try eassumption; try lia.
    + intros k Hk _. apply den_row; auto. lia.
    + intros j i s Hj Hi Hk _. rewrite default_cancel. reflexivity.
  - intros s. unfold ipt_sum. apply big_ext. intros k Hk. rewrite Nat2Z.id. reflexivity.
Qed.

(** ** The rolled version *)
Lemma list_set_ok {A} (l : list A) k (x d : A) : (k < length l)%nat ->
  exists l', list_set l k x = Some l' /\ length l' = length l /\
    forall i, nth i l' d = if Nat.eqb i k then x else nth i l d.
Proof.
  revert k. induction l as [|y l IH]; intros [|k] H; cbn in H; try lia.
  - exists (x :: l). repeat split. intros [|i]; auto.
  - destruct (IH k ltac:(lia)) as (l' & E & L & N). exists (y :: l'). cbn. rewrite E. cbn.
    repeat split; auto. intros [|i]; auto. cbn. apply N.
Qed.

Definition rskip (diag : list (Z * bool)) (k : Z) : bool :=
  existsb (fun p => (fst p =? k) && snd p) diag.
Lemma diag_mask_nth diag steps k : 0 <= k < steps ->
  nth_z (diag_mask diag steps) k = Some (if rskip diag k then 0 else 1).
Proof.
  intros H. unfold nth_z. destruct (Z.ltb_spec k 0); [lia|]. unfold diag_mask.
  erewrite map_nth_error; [reflexivity|]. unfold upto. erewrite map_nth_error.
  2:{ rewrite (nth_error_nth' _ 0%nat) by (rewrite seq_length; lia). rewrite seq_nth by lia. reflexivity. }
  unfold rskip. replace (Z.of_nat (0 + Z.to_nat k)) with k by lia. reflexivity.
Qed.

Lemma eval_result0 e x v : eval K e x = Some [v] -> eval K e (ResultAt K x 0) = Some [v].
Proof. intros E. cbn [eval]. rewrite E. reflexivity. Qed.
Lemma eval_yield1 e x v : eval K e x = Some [v] -> eval K e (Yield K [x]) = Some [v].
Proof. intros E. cbn [eval]. rewrite E. reflexivity. Qed.

Lemma eval_if e c t f z : eval K e c = Some [VInt K z] ->
  eval K e (IfElse K c t f) = if z =? 0 then eval K e f else eval K e t.
Proof. intros E. cbn [eval]. rewrite E. reflexivity. Qed.

(** row k of m is the vector rotated by k periods *)
Definition rotated_rows (fv : Z -> R) (period : Z) (n : nat) (m : list (list R)) (upto : Z) : Prop :=
  forall k, 0 <= k < upto -> length (nth (Z.to_nat k) m []) = n /\
    forall s, get (nth (Z.to_nat k) m []) s = fv (s + period * k).

Lemma precompute_ok e v fv period size n : (0 < n)%nat -> 0 <= size -> (forall e, den e v n fv) ->
  exists m, eval K e (ForLoop K 0 [1%nat] [Empty K (Z.to_nat size) n] 0 size
      (Yield K [Insert K (Rotate K v (Mul K (Var K 0) (Const K period))) (Var K 1) (Var K 0)]))
    = Some [VMat K m] /\ length m = Z.to_nat size /\ rotated_rows fv period n m size.
Proof.
  intros H0 Hs Hv.
  destruct (eval_for_loop K e 0 [1%nat] [Empty K (Z.to_nat size) n] 0 size
      (Yield K [Insert K (Rotate K v (Mul K (Var K 0) (Const K period))) (Var K 1) (Var K 0)])
      [VMat K (repeat (repeat zero n) (Z.to_nat size))]
      (fun i us => exists m, us = [VMat K m] /\ length m = Z.to_nat size /\ rotated_rows fv period n m i))
    as (us & E & m & -> & L & N); auto.
  - eexists. split; [reflexivity|]. split; [apply repeat_length|]. intros k Hk. lia.
  - intros i us Hi (m & -> & L & N).
    set (e' := bind_var K (bind_var K e 0 (VInt K i)) 1 (VMat K m)).
    assert (D : den e' (Rotate K v (Mul K (Var K 0) (Const K period))) n (fun s => fv (s + i * period))).
    { apply den_rotate; auto. }
    destruct D as (w & Ew & Lw & Gw).
    destruct (list_set_ok m (Z.to_nat i) w [] ltac:(lia)) as (m' & Em & Lm & Nm).
    exists e', [VMat K m']. split; [reflexivity|]. split.
    + apply eval_yield1. change (eval K e' (Insert K (Rotate K v (Mul K (Var K 0) (Const K period))) (Var K 1) (Var K 0)))
       with (x <- single K (eval K e' (Rotate K v (Mul K (Var K 0) (Const K period)))) ;;
             y <- single K (eval K e' (Var K 1)) ;; z <- single K (eval K e' (Var K 0)) ;;
             r <- insert K x y z ;; Some [r]).
      rewrite Ew. cbn [single bind eval e' bind_var Nat.eqb insert].
      destruct (Z.ltb_spec i 0); [lia|]. rewrite Em. reflexivity.
    + exists m'. split; auto. split; [lia|]. intros k Hk. rewrite Nm.
      destruct (Nat.eqb_spec (Z.to_nat k) (Z.to_nat i)).
      * assert (k = i) as -> by lia. split; auto. intros s. rewrite Gw. f_equal. lia.
      * apply N. lia.
  - exists m. auto.
Qed.

Section Rolled.
Variables (v : node K) (p : list (list R)) (period steps : Z) (n : nat) (diag : list (Z * bool)) (fv : Z -> R).
Hypothesis n_pos : (0 < n)%nat.
Hypothesis Hsteps : 1 <= steps <= Z.of_nat (length p).
Hypothesis Hrows : forall r, In r p -> length r = n.
Hypothesis Hv : forall e, den e v n fv.
Let size := baby_steps steps.
Let b := Leaf K (VMat K p).
Let idx := Add K (Var K 5) (Mul K (Var K 2) (Const K size)).
Let rot := Mul K (Mul K (Mul K (Var K 2) (Const K size)) (Const K period)) (Const K (-1)).
Let in_bounds := Compare K CmpLT idx (Const K steps).
Let multiply :=
    Yield K [Add K (Var K 6) (Mul K (Rotate K (Extract K b idx) rot) (Extract K (Var K 4) (Var K 5)))].
Let keep := Yield K [Var K 6].
Let body :=
    match diag with
    | [] => IfElse K in_bounds multiply keep
    | _ => IfElse K in_bounds
             (Yield K [ResultAt K (IfElse K (Compare K CmpNE (Extract K (ConstTensor K (diag_mask diag steps)) idx)
                                         (Const K 0)) multiply keep) 0])
             keep
    end.
Let P k := get (nth (Z.to_nat k) p []).
Notation term := (term period steps (rskip diag) default_rotation fv P).

Lemma body_ok e j i m w f : 0 <= j -> 0 <= i < size ->
  e 2%nat = Some (VInt K j) -> e 4%nat = Some (VMat K m) -> e 5%nat = Some (VInt K i) -> e 6%nat = Some (VVec K w) ->
  length m = Z.to_nat size -> rotated_rows fv period n m size ->
  length w = n -> (forall s, get w s = f s) ->
  exists w', eval K e body = Some [VVec K w'] /\ length w' = n /\
    forall s, get w' s = f s +r term size j i s.
Proof.
  intros Hj Hi E2 E4 E5 E6 Lm Hm Lw Gw.
  assert (Ei : eval K e idx = Some [VInt K (i + j * size)]).
  { unfold idx. cbn [eval]. rewrite E2, E5. reflexivity. }
  assert (Eb : eval K e in_bounds = Some [VInt K (if i + j * size <? steps then 1 else 0)]).
  { unfold in_bounds. cbn [eval] in Ei |- *. rewrite Ei. reflexivity. }
  assert (Ek : eval K e keep = Some [VVec K w]).
  { unfold keep. cbn [eval]. rewrite E6. reflexivity. }
  assert (Hpos : 0 <= j * size) by (apply Z.mul_nonneg_nonneg; lia).
  assert (Em : i + j * size < steps -> exists w', eval K e multiply = Some [VVec K w'] /\ length w' = n /\
     forall s, get w' s = f s +r P (i + j * size) (s + default_rotation size j i period) *r fv (s + period * i)).
  { intros Hk.
    assert (D : den e (Add K (Var K 6) (Mul K (Rotate K (Extract K b idx) rot) (Extract K (Var K 4) (Var K 5)))) n
      (fun s => f s +r P (i + j * size) (s + j * size * period * -1) *r get (nth (Z.to_nat i) m []) s)).
    { apply den_add; auto; [eapply den_var; eauto|]. apply den_mul; auto.
      - apply (den_rotate K e _ _ (j * size * period * -1) n (P (i + j * size))); auto.
        + unfold P. rewrite <- (Hrows (nth (Z.to_nat (i + j * size)) p [])) by (apply nth_In; lia).
          eapply den_extract; eauto; [reflexivity|lia|]. apply nth_error_nth'. lia.
        + unfold rot. cbn [eval]. rewrite E2. reflexivity.
      - destruct (Hm i Hi) as [L _]. rewrite <- L. eapply den_extract.
        + cbn [eval]. rewrite E4. reflexivity.
        + cbn [eval]. rewrite E5. reflexivity.
        + lia.
        + apply nth_error_nth'. lia. }
    destruct D as (w' & Ew & L & G). exists w'. split; [|split; auto].
    - unfold multiply. apply eval_yield1. exact Ew.
    - intros s. rewrite G. destruct (Hm i Hi) as [_ ->]. unfold default_rotation. do 4 f_equal. lia. }
  unfold term. replace (j * size + i) with (i + j * size) by lia.
  destruct (Z.ltb_spec (i + j * size) steps) as [Hk|Hk]; cbn [andb ind].
  - destruct (Em Hk) as (wm & Ewm & Lwm & Gwm).
    destruct diag as [|d0 dl] eqn:Ed.
    + unfold body. rewrite (eval_if _ _ _ _ _ Eb). exists wm. auto.
    + assert (Ec : eval K e (Compare K CmpNE (Extract K (ConstTensor K (diag_mask (d0 :: dl) steps)) idx) (Const K 0))
         = Some [VInt K (if rskip (d0 :: dl) (i + j * size) then 0 else 1)]).
      { cbn [eval] in Ei |- *. rewrite Ei. cbn [single bind extract].
        rewrite diag_mask_nth by lia. cbn [bind single compare].
        destruct (rskip (d0 :: dl) (i + j * size)); reflexivity. }
      unfold body. rewrite (eval_if _ _ _ _ _ Eb). cbn [Z.eqb].
      destruct (rskip (d0 :: dl) (i + j * size)) eqn:Er; cbn [negb ind].
      * exists w. split; [|split; auto; intros s; rewrite Gw; ring].
        apply eval_yield1, eval_result0. rewrite (eval_if _ _ _ _ _ Ec). exact Ek.
      * exists wm. split; [|split; auto]. 
        apply eval_yield1, eval_result0. rewrite (eval_if _ _ _ _ _ Ec). exact Ewm.
  - exists w. split; [|split; auto; intros; rewrite Gw; ring].
    unfold body. destruct diag; rewrite (eval_if _ _ _ _ _ Eb); exact Ek.
Qed.

Lemma den_bsgs_rolled e d : bsgs_rolled K v b period steps n diag = Some d ->
  den e d n (ipt_sum fv p period steps (rskip diag)).
Proof.
  unfold bsgs_rolled. pose proof (baby_steps_pos steps ltac:(lia)) as Hsize. fold size in Hsize |- *.
  destruct (Z.eqb_spec size 0); [lia|]. intros E; injection E as <-.
  fold idx in_bounds. fold rot. fold multiply. fold keep. fold body.
  pose proof (giant_cover steps size ltac:(lia) ltac:(lia)) as [G1 _].
  change (Z.quot (steps + size - 1) size) with (giant_steps steps) in G1.
  destruct (precompute_ok e v fv period size n n_pos ltac:(lia) Hv) as (m & Em & Lm & Hm).
  set (pre := ForLoop K 0 [1%nat] _ _ _ _) in *.
  set (inner := ForLoop K 5 [6%nat] _ _ _ _).
  set (T := fun j s => rsum (Z.to_nat size) (fun i => term size j (Z.of_nat i) s)).
  destruct (eval_for_loop K e 2 [3%nat; 4%nat] [SplatZero K n; ResultAt K pre 0] 0 (giant_steps steps)
      (Yield K [Add K (Var K 3) (Rotate K (ResultAt K inner 0)
                             (Mul K (Mul K (Var K 2) (Const K size)) (Const K period)));
              Var K 4]) [VVec K (repeat zero n); VMat K m]
      (fun j us => exists w, us = [VVec K w; VMat K m] /\ length w = n /\
         forall s, get w s = rsum (Z.to_nat j) (fun j => T (Z.of_nat j) (s + period * Z.of_nat j * size))))
    as (us & E & w & -> & L & G).
  - cbn [evals]. rewrite (eval_result0 _ _ _ Em). reflexivity.
  - lia.
  - exists (repeat zero n). split; auto. split; [apply repeat_length|]. intros s. unfold get. apply nth_repeat.
  - intros j us Hj (w & -> & L & G).
    set (e1 := bind_var K (bind_var K (bind_var K e 2 (VInt K j)) 4 (VMat K m)) 3 (VVec K w)).
    assert (Di : den e1 (ResultAt K inner 0) n (T j)).
    { destruct (eval_for_loop K e1 5 [6%nat] [SplatZero K n] 0 size (Yield K [ResultAt K body 0])
        [VVec K (repeat zero n)]
        (fun i us => exists u, us = [VVec K u] /\ length u = n /\
           forall s, get u s = rsum (Z.to_nat i) (fun i => term size j (Z.of_nat i) s)))
        as (us & E & u & -> & Lu & Gu).
      - reflexivity.
      - lia.
      - exists (repeat zero n). split; auto. split; [apply repeat_length|]. intros s. unfold get. apply nth_repeat.
      - intros i us Hi (u & -> & Lu & Gu).
        set (e2 := bind_var K (bind_var K e1 5 (VInt K i)) 6 (VVec K u)).
        destruct (body_ok e2 j i m u _ ltac:(lia) ltac:(lia) eq_refl eq_refl eq_refl eq_refl Lm Hm Lu Gu)
          as (u' & Eu' & Lu' & Gu').
        exists e2, [VVec K u']. split; [reflexivity|]. split; [apply eval_yield1, eval_result0; exact Eu'|].
        exists u'. split; auto. split; auto. intros s. rewrite Gu'.
        replace (Z.to_nat (i + 1)) with (S (Z.to_nat i)) by lia. cbn [big]. rewrite Z2Nat.id by lia. reflexivity.
      - exists u. split; [apply eval_result0; exact E|]. auto. }
    assert (D : den e1 (Add K (Var K 3) (Rotate K (ResultAt K inner 0)
                   (Mul K (Mul K (Var K 2) (Const K size)) (Const K period)))) n
         (fun s => get w s +r T j (s + j * size * period))).
    { apply den_add; auto; [eapply den_var; [reflexivity|auto|auto]|].
      apply (den_rotate K e1 _ _ (j * size * period) n (T j)); auto. }
    destruct D as (w' & Ew' & Lw' & Gw').
    exists e1, [VVec K w'; VMat K m]. split; [reflexivity|]. split.
    + set (x := Add K (Var K 3) _) in *.
      change (eval K e1 (Yield K [x; Var K 4])) with
        (a <- single K (eval K e1 x) ;; r <- (c <- single K (eval K e1 (Var K 4)) ;; Some [c]) ;; Some (a :: r)).
      rewrite Ew'. reflexivity.
    + exists w'. split; auto. split; auto. intros s. rewrite Gw', G.
      replace (Z.to_nat (j + 1)) with (S (Z.to_nat j)) by lia. cbn [big]. rewrite Z2Nat.id by lia.
      do 2 f_equal. lia.
  - exists w. split; [|split; auto].
    + change (eval K e (ResultAt K ?x 0)) with (vs <- eval K e x ;; a <- nth_error vs 0 ;; Some [a]).
      rewrite E. reflexivity.
    + intros s. rewrite G. unfold T.
      etransitivity; [apply (double_single period steps n (rskip diag) default_rotation fv P n_pos
        (fun k s => P k s *r fv (s + period * k)) s ltac:(lia))|].
      * intros j i Hj Hi Hk _. rewrite default_cancel. reflexivity.
      * unfold ipt_sum. apply big_ext. intros k Hk. unfold P. rewrite Nat2Z.id. reflexivity.
Qed.
End Rolled.
End Kernels.
