(** Proofs about polynomial evaluation programs. *)
From Coq Require Import ZArith List Bool Lia Ring Setoid.
From Verif Require Import Words ModArith_Proofs NumTheory_Model Kernel_Model Kernel_Spec Kernel_Proofs PolyArith_Model PolyArith_Spec PolyArith_Proofs PolyCheb_Proofs PolyEval_Model PolyEval_Spec.
Import ListNotations.
Open Scope Z_scope.

Section Eval.
Variable K : cring.
Notation R := (car K).
Add Ring Kring : (r_ok K).
Local Notation "a +r b" := (radd K a b) (at level 50, left associativity).
Local Notation "a *r b" := (rmul K a b) (at level 40, left associativity).
Local Notation "a -r b" := (rsub K a b) (at level 50, left associativity).
Local Notation zero := (r0 K).
Notation weigh := (weigh K).
Notation increasing := (increasing K).
Notation run := (run K).
Notation T := (T K).

(** ** Maps *)
Lemma lookup_coeff m i : lookup K m i = coeff_at K m i.
Proof. reflexivity. Qed.
Lemma weigh_point m i psi lo hi : increasing lo hi m ->
  weigh (fun e => if e =? i then psi e else zero) m =
  match lookup K m i with Some c => c *r psi i | None => zero end.
Proof.
  unfold lookup. revert lo. induction m as [|[c e] m IH]; intros lo H; [reflexivity|]. destruct H as [B H].
  cbn [PolyArith_Spec.weigh find snd]. destruct (Z.eqb_spec e i) as [->|Hne].
  - rewrite (weigh_ext K _ (fun _ => zero)); [rewrite weigh_zero; cbn; ring|].
    intros f Hf. pose proof (inc_bounds K _ _ _ H _ Hf). destruct (Z.eqb_spec f i); [lia|auto].
  - rewrite (IH _ H). ring.
Qed.
Lemma weigh_split m (P Q : Z -> bool) i psi lo hi : increasing lo hi m ->
  (forall e, In e (map snd m) -> Q e = P e || (e =? i)) -> (forall e, In e (map snd m) -> P e = true -> e <> i) ->
  weigh (fun e => if Q e then psi e else zero) m =
  weigh (fun e => if P e then psi e else zero) m +r match lookup K m i with Some c => c *r psi i | None => zero end.
Proof.
  intros H HQ HP. rewrite <- (weigh_point m i psi lo hi H), <- weigh_add2. apply weigh_ext. intros e He. rewrite (HQ e He).
  specialize (HP e He). destruct (P e); cbn [orb].
  - destruct (Z.eqb_spec e i); [exfalso; apply HP; auto|ring].
  - destruct (Z.eqb_spec e i); ring.
Qed.
Lemma max_key_last m c e : max_key K (m ++ [(c, e)]) = Some e.
Proof. unfold max_key. rewrite rev_app_distr. reflexivity. Qed.
Lemma lookup_last m c e lo hi : increasing lo hi (m ++ [(c, e)]) -> lookup K (m ++ [(c, e)]) e = Some c.
Proof.
  unfold lookup. revert lo. induction m as [|[d f] m IH]; intros lo H; cbn [app find snd].
  - rewrite Z.eqb_refl. reflexivity.
  - destruct H as [B H]. destruct (inc_last K _ _ _ _ _ H) as (_ & _ & C). destruct (Z.eqb_spec f e); [lia|]. apply (IH _ H).
Qed.

(** ** Horner *)
Lemma horner_ok m hi x : increasing 0 hi m -> exists d, horner K m = Some d /\ run x d = value K m x.
Proof.
  intros H. unfold horner. destruct (snoc K m) as [->|(m' & c & n & E)].
  - exists (Const K zero). split; reflexivity.
  - assert (M : max_key K m = Some n) by (rewrite E; apply max_key_last).
    assert (Lk : lookup K m n = Some c) by (rewrite E in H |- *; apply (lookup_last m' c n 0 hi H)).
    rewrite M, Lk. cbn [bind].
    eexists. split; [reflexivity|].
    assert (Hn : 0 <= n) by (rewrite E in H; apply inc_last in H; lia).
    assert (F : forall k d, Z.of_nat k <= n ->
      run x d = weigh (fun e => if Z.of_nat k <=? e then rpow K x (Z.to_nat (e - Z.of_nat k)) else zero) m ->
      run x (fold_left (fun res i => let res := Mul K res (X K) in
          match lookup K m i with Some c => Add K res (Const K c) | None => res end)
        (map (fun j => Z.of_nat k - 1 - Z.of_nat j) (seq 0 k)) d) = value K m x).
    { induction k as [|k IH]; intros d Hk Hd.
      - cbn [seq map fold_left]. rewrite Hd. unfold value. apply weigh_ext. intros e He. pose proof (inc_bounds K _ _ _ H _ He).
        destruct (Z.leb_spec (Z.of_nat 0) e); [|lia]. do 2 f_equal. lia.
      - cbn [seq map fold_left]. rewrite <- seq_shift, map_map.
        replace (Z.of_nat (S k) - 1 - Z.of_nat 0) with (Z.of_nat k) by lia.
        rewrite (map_ext _ (fun j => Z.of_nat k - 1 - Z.of_nat j)) by (intros; lia).
        apply IH; [lia|].
        rewrite (above_step K m (Z.of_nat k) (fun e => rpow K x (Z.to_nat (e - Z.of_nat k))) hi H). rewrite Z.sub_diag. cbn [Z.to_nat rpow].
        assert (Q : run x d *r x = weigh (fun e => if Z.of_nat k + 1 <=? e then rpow K x (Z.to_nat (e - Z.of_nat k)) else zero) m).
        { rewrite Hd, Kmulc, <- weigh_mul_l. apply weigh_ext. intros e _. replace (Z.of_nat (S k)) with (Z.of_nat k + 1) by lia.
          destruct (Z.leb_spec (Z.of_nat k + 1) e); [|ring].
          replace (Z.to_nat (e - Z.of_nat k)) with (S (Z.to_nat (e - (Z.of_nat k + 1)))) by lia. reflexivity. }
        rewrite lookup_coeff. destruct (coeff_at K m (Z.of_nat k)); cbn [PolyEval_Spec.run]; rewrite Q; ring. }
    specialize (F (Z.to_nat n) (Const K c)). rewrite Z2Nat.id in F by auto. apply F; [lia|]. cbn [PolyEval_Spec.run].
    rewrite (weigh_ext K _ (fun e => if e =? n then r1 K else zero)).
    + rewrite (weigh_point m n (fun _ => r1 K) 0 hi H), Lk. ring.
    + intros e He. rewrite E in H. destruct (inc_last K _ _ _ _ _ H) as (A & _ & _). rewrite E in He. pose proof (inc_bounds K _ _ _ A _ He).
      destruct (Z.leb_spec n e), (Z.eqb_spec e n); try lia; auto. subst. rewrite Z.sub_diag. reflexivity.
Qed.

(** ** Powers *)
Lemma at_lookup {A} (l : list A) i : 0 <= i < Z.of_nat (length l) -> exists a, at_ l i = Some a /\ nth_error l (Z.to_nat i) = Some a.
Proof.
  intros H. unfold at_. destruct (Z.ltb_spec i 0); [lia|]. destruct (nth_error l (Z.to_nat i)) eqn:E; eauto.
  apply nth_error_None in E. lia.
Qed.
Definition powers_ok (f : nat -> R) (x : R) (l : list (dag K)) : Prop :=
  forall j d, nth_error l j = Some d -> run x d = f j /\ depth K d <= Z.log2_up (Z.of_nat j).
Lemma powers_snoc f x l d : powers_ok f x l -> run x d = f (length l) -> depth K d <= Z.log2_up (Z.of_nat (length l)) -> powers_ok f x (l ++ [d]).
Proof.
  intros H1 H2 H3 j e Hj. destruct (Nat.lt_ge_cases j (length l)).
  - rewrite nth_error_app1 in Hj by auto. auto.
  - rewrite nth_error_app2 in Hj by auto. destruct (j - length l)%nat as [|r] eqn:E; [|destruct r; discriminate].
    cbn in Hj. injection Hj as <-. assert (j = length l) by lia. subst. auto.
Qed.
Lemma log2_up_even n : 0 < n -> Z.log2_up (2 * n) = 1 + Z.log2_up n.
Proof. intros. rewrite Z.log2_up_double by auto. lia. Qed.
Lemma log2_up_odd n : 0 < n -> Z.log2_up (2 * n + 1) = 1 + Z.log2_up (n + 1).
Proof.
  intros. rewrite Z.log2_up_succ_double by auto. rewrite (Z.log2_up_eqn (n + 1)) by lia. replace (Z.pred (n + 1)) with n by lia. lia.
Qed.
Lemma log2_up_mono a b : a <= b -> Z.log2_up a <= Z.log2_up b.
Proof. apply Z.log2_up_le_mono. Qed.

Lemma compute_powers_ok k x : 1 <= k ->
  exists l, compute_powers K k = Some l /\ Z.of_nat (length l) = k + 1 /\ powers_ok (rpow K x) x l.
Proof.
  intros Hk. unfold compute_powers. destruct (Z.geb_spec k 1); [|lia].
  assert (G : forall n l, (2 <= length l)%nat -> powers_ok (rpow K x) x l ->
    exists l', fold_left (fun acc i => l <- acc ;; a <- at_ l (i / 2) ;;
       b <- (if i mod 2 =? 0 then at_ l (i / 2) else at_ l (i / 2 + 1)) ;; Some (l ++ [Mul K a b]))
      (map (fun j => Z.of_nat (length l) + Z.of_nat j) (seq 0 n)) (Some l) = Some l' /\
      length l' = (length l + n)%nat /\ powers_ok (rpow K x) x l').
  { induction n as [|n IH]; intros l Hl P; [exists l; cbn; auto with arith|].
    cbn [seq map fold_left bind]. replace (Z.of_nat (length l) + Z.of_nat 0) with (Z.of_nat (length l)) by lia. set (i := Z.of_nat (length l)) in *.
    destruct (at_lookup l (i / 2)) as (a & -> & Ha). { split; [apply Z.div_pos; lia|]. apply Z.div_lt_upper_bound; lia. }
    cbn [bind].
    assert (Hi2 : i = 2 * (i / 2) + i mod 2) by (apply Z.div_mod; lia). pose proof (Z.mod_pos_bound i 2 ltac:(lia)).
    destruct (P _ _ Ha) as [Ra Da].
    assert (exists b, (if i mod 2 =? 0 then Some a else at_ l (i / 2 + 1)) = Some b /\
       run x b = rpow K x (Z.to_nat (i - i / 2)) /\ depth K b <= Z.log2_up (i - i / 2)) as (b & -> & Rb & Db).
    { destruct (Z.eqb_spec (i mod 2) 0).
      - exists a. split; [reflexivity|]. replace (i - i / 2) with (i / 2) by lia. split; auto.
        rewrite Z2Nat.id in Da by lia. auto.
      - destruct (at_lookup l (i / 2 + 1)) as (b & E & Hb); [lia|]. exists b. split; auto. replace (i - i / 2) with (i / 2 + 1) by lia.
        destruct (P _ _ Hb) as [R1 D1]. rewrite Z2Nat.id in D1 by lia. auto. }
    cbn [bind]. rewrite <- seq_shift, map_map.
    destruct (IH (l ++ [Mul K a b])) as (l' & E & L & P').
    - rewrite app_length. cbn. lia.
    - apply powers_snoc; auto.
      + cbn [PolyEval_Spec.run]. rewrite Ra, Rb, <- rpow_add. f_equal. lia.
      + cbn [depth]. fold i. rewrite Z2Nat.id in Da by lia.
        assert (1 + Z.log2_up (i - i / 2) = Z.log2_up i).
        { destruct (Z.eqb_spec (i mod 2) 0).
          - rewrite <- log2_up_even by lia. f_equal. lia.
          - replace (i - i / 2) with (i / 2 + 1) by lia. rewrite <- log2_up_odd by lia. f_equal. lia. }
        pose proof (log2_up_mono (i / 2) (i - i / 2) ltac:(lia)). lia.
    - exists l'. split; [|split; auto].
      + rewrite <- E. f_equal. apply map_ext. intros j. rewrite app_length. cbn [length]. lia.
      + rewrite L, app_length. cbn. lia. }
  destruct (G (Z.to_nat (k - 1)) [Const K (r1 K); X K]) as (l & E & L & P).
  - cbn. lia.
  - intros [|[|j]] d Hd; cbn in Hd; try (injection Hd as <-); cbn; try (split; [|reflexivity]); auto.
    + ring.
    + destruct j; discriminate.
  - exists l. split; [exact E|]. split; auto. rewrite L. cbn [length]. lia.
Qed.

(** ** Monomial Paterson-Stockmeyer *)
Section PS.
Variables (m : list (R * Z)) (hi n k : Z) (x : R) (powers : list (dag K)).
Hypothesis Hm : increasing 0 hi m.
Hypothesis Hk : 1 <= k.
Hypothesis Hn : 0 <= n.
Hypothesis Hmax : forall e, In e (map snd m) -> e <= n.
Hypothesis Hpl : Z.of_nat (length powers) = k + 1.
Hypothesis Hp : powers_ok (rpow K x) x powers.

Lemma power_at i : 0 <= i <= k -> exists d, at_ powers i = Some d /\ run x d = rpow K x (Z.to_nat i).
Proof.
  intros H. destruct (at_lookup powers i) as (d & E & Hd); [lia|]. exists d. split; auto. apply (Hp _ _ Hd).
Qed.
Lemma chunk_ok i : 0 <= i -> i * k <= n ->
  exists d, chunk K m powers k n i = Some d /\
    run x d = weigh (fun e => if (i * k <=? e) && (e <? (i + 1) * k) then rpow K x (Z.to_nat (e - i * k)) else zero) m.
Proof.
  intros Hi Hin. unfold chunk. set (lo := i * k) in *. set (h := Z.min ((i + 1) * k - 1) n).
  assert (Hh : lo <= h) by (unfold h, lo in *; lia).
  assert (Hhk : h < lo + k) by (unfold h, lo in *; lia).
  assert (G : forall cnt, Z.of_nat cnt <= h + 1 - lo ->
    exists v, fold_left
         (fun acc j => v <- acc ;;
            match lookup K m j with
            | None => Some v
            | Some c =>
                let p := j - lo in
                term <- (if p =? 0 then Some (Const K c) else (xp <- at_ powers p ;; Some (Mul K (Const K c) xp))) ;;
                Some (match v with None => Some term | Some w => Some (Add K w term) end)
            end)
         (map (fun j => lo + Z.of_nat j) (seq 0 cnt)) (Some None) = Some v /\
      run_opt K x v = weigh (fun e => if (lo <=? e) && (e <? lo + Z.of_nat cnt) then rpow K x (Z.to_nat (e - lo)) else zero) m).
  { induction cnt as [|cnt IH]; intros Hc.
    - exists None. split; [reflexivity|]. cbn [run_opt]. rewrite (weigh_ext K _ (fun _ => zero)); [symmetry; apply weigh_zero|].
      intros e _. destruct (Z.leb_spec lo e), (Z.ltb_spec e (lo + Z.of_nat 0)); cbn [andb]; auto; lia.
    - destruct IH as (v & E & V); [lia|]. rewrite seq_S, map_app, fold_left_app, E. cbn [map fold_left bind Nat.add].
      set (j := lo + Z.of_nat cnt) in *.
      assert (W := weigh_split m (fun e => (lo <=? e) && (e <? j)) (fun e => (lo <=? e) && (e <? lo + Z.of_nat (S cnt))) j
        (fun e => rpow K x (Z.to_nat (e - lo))) 0 hi Hm).
      rewrite W; clear W.
      2:{ intros e _. unfold j. destruct (Z.leb_spec lo e), (Z.ltb_spec e (lo + Z.of_nat cnt)), (Z.ltb_spec e (lo + Z.of_nat (S cnt))), (Z.eqb_spec e (lo + Z.of_nat cnt)); cbn; auto; lia. }
      2:{ intros e _ He. apply andb_prop in He. destruct He as [_ He]. apply Z.ltb_lt in He. unfold j. lia. }
      rewrite <- V. destruct (lookup K m j) as [c|].
      + assert (exists t, (if j - lo =? 0 then Some (Const K c) else (xp <- at_ powers (j - lo) ;; Some (Mul K (Const K c) xp))) = Some t /\
                  run x t = c *r rpow K x (Z.to_nat (j - lo))) as (t & -> & Rt).
        { destruct (Z.eqb_spec (j - lo) 0) as [->|]; [eexists; split; [reflexivity|]; cbn; ring|].
          destruct (power_at (j - lo)) as (xp & -> & Rx); [unfold j in *; lia|]. cbn [bind]. eexists. split; [reflexivity|]. cbn. rewrite Rx. ring. }
        cbn [bind]. eexists. split; [reflexivity|]. destruct v; cbn [run_opt PolyEval_Spec.run]; rewrite Rt; ring.
      + eexists. split; [reflexivity|]. ring. }
  destruct (G (Z.to_nat (h + 1 - lo))) as (v & E & V); [lia|]. cbv zeta in E |- *. fold lo. fold h. rewrite E. cbn [bind]. eexists. split; [reflexivity|].
  transitivity (run_opt K x v); [destruct v; reflexivity|]. rewrite V. apply weigh_ext. intros e He. rewrite Z2Nat.id by lia.
  specialize (Hmax e He). unfold h, lo in *.
  destruct (Z.leb_spec (i * k) e), (Z.ltb_spec e (i * k + (Z.min ((i + 1) * k - 1) n + 1 - i * k))), (Z.ltb_spec e ((i + 1) * k)); cbn; auto; lia.
Qed.
Definition cnt := ceil_div (n + 1) k.
Lemma cnt_ok : 1 <= cnt /\ n + 1 <= cnt * k /\ (cnt - 1) * k <= n.
Proof.
  unfold cnt, ceil_div. pose proof (Z.div_mod (n + 1 + k - 1) k ltac:(lia)). pose proof (Z.mod_pos_bound (n + 1 + k - 1) k ltac:(lia)).
  assert (1 <= (n + 1 + k - 1) / k) by (apply Z.div_le_lower_bound; lia). nia.
Qed.
Lemma chunks_ok c : Z.of_nat c <= cnt -> exists l,
  fold_left (fun acc i => l <- acc ;; d <- chunk K m powers k n i ;; Some (l ++ [d])) (map Z.of_nat (seq 0 c)) (Some []) = Some l /\
  length l = c /\ forall i d, nth_error l i = Some d ->
    run x d = weigh (fun e => if (Z.of_nat i * k <=? e) && (e <? (Z.of_nat i + 1) * k) then rpow K x (Z.to_nat (e - Z.of_nat i * k)) else zero) m.
Proof.
  pose proof cnt_ok as (C1 & C2 & C3).
  induction c as [|c IH]; intros Hc.
  - exists []. split; [reflexivity|]. split; auto. intros [|i] d Hd; discriminate.
  - destruct IH as (l & E & L & P); [lia|]. rewrite seq_S, map_app, fold_left_app, E. cbn [map fold_left bind Nat.add].
    destruct (chunk_ok (Z.of_nat c)) as (d & Ed & Rd); [lia|nia|]. rewrite Ed. cbn [bind]. eexists. split; [reflexivity|].
    split; [rewrite app_length; cbn; lia|]. intros i e Hi. destruct (Nat.lt_ge_cases i (length l)).
    + rewrite nth_error_app1 in Hi by auto. auto.
    + rewrite nth_error_app2 in Hi by auto. destruct (i - length l)%nat as [|r] eqn:Er; [|destruct r; discriminate].
      cbn in Hi. injection Hi as <-. assert (i = c) by lia. subst i. auto.
Qed.
Definition hstep (l : list (dag K)) (acc : option (dag K)) (i : Z) : option (dag K) :=
  res <- acc ;; xk <- at_ powers k ;; ch <- at_ l i ;; Some (Add K (Mul K res xk) ch).
Lemma ps_combine l xk : length l = Z.to_nat cnt -> at_ powers k = Some xk ->
  (forall i d, nth_error l i = Some d ->
    run x d = weigh (fun e => if (Z.of_nat i * k <=? e) && (e <? (Z.of_nat i + 1) * k) then rpow K x (Z.to_nat (e - Z.of_nat i * k)) else zero) m) ->
  forall c d, Z.of_nat c < cnt -> run x d = weigh (fun e => if Z.of_nat c * k <=? e then rpow K x (Z.to_nat (e - Z.of_nat c * k)) else zero) m ->
  exists r, fold_left (hstep l) (map (fun j => Z.of_nat c - 1 - Z.of_nat j) (seq 0 c)) (Some d) = Some r /\ run x r = value K m x.
Proof.
  intros Ll Exk Hl. induction c as [|c IH]; intros d Hc Hd.
  - exists d. split; [reflexivity|]. rewrite Hd. unfold value. apply weigh_ext. intros e He. pose proof (inc_bounds K _ _ _ Hm _ He).
    destruct (Z.leb_spec (Z.of_nat 0 * k) e); [|lia]. do 2 f_equal. lia.
  - cbn [seq map fold_left]. replace (Z.of_nat (S c) - 1 - Z.of_nat 0) with (Z.of_nat c) by lia.
    destruct (at_lookup l (Z.of_nat c)) as (ch & Ech & Hch); [lia|]. rewrite Nat2Z.id in Hch.
    assert (Eh : hstep l (Some d) (Z.of_nat c) = Some (Add K (Mul K d xk) ch)) by (unfold hstep; cbn [bind]; rewrite Exk; cbn [bind]; rewrite Ech; reflexivity).
    rewrite Eh.
    rewrite <- seq_shift, map_map.
    destruct (IH (Add K (Mul K d xk) ch)) as (r & E & Rr); [lia| |].
    + cbn [PolyEval_Spec.run]. rewrite (Hl _ _ Hch), Hd. destruct (power_at k) as (xk' & Exk' & Rxk); [lia|].
      rewrite Exk in Exk'. injection Exk' as <-. rewrite Rxk, Kmulc, <- weigh_mul_l, <- weigh_add2. apply weigh_ext. intros e He.
      replace (Z.of_nat (S c)) with (Z.of_nat c + 1) by lia.
      destruct (Z.leb_spec ((Z.of_nat c + 1) * k) e), (Z.leb_spec (Z.of_nat c * k) e), (Z.ltb_spec e ((Z.of_nat c + 1) * k)); cbn [andb]; try nia; try ring.
      rewrite <- rpow_add, <- Z2Nat.inj_add by nia. replace (k + (e - (Z.of_nat c + 1) * k)) with (e - Z.of_nat c * k) by lia. ring.
    + exists r. split; auto. rewrite <- E. f_equal. apply map_ext. intros j. lia.
Qed.
End PS.
Lemma ps_monomial_ok k m hi x : 1 <= k -> increasing 0 hi m -> exists d, ps_monomial_with K k m = Some d /\ run x d = value K m x.
Proof.
  intros Hk H. unfold ps_monomial_with. destruct (snoc K m) as [->|(m' & c & n & E)].
  - exists (Const K zero). split; reflexivity.
  - assert (M : max_key K m = Some n) by (rewrite E; apply max_key_last). rewrite M. destruct (compute_powers_ok k x Hk) as (pw & -> & Lp & Pp). cbn [bind].
    assert (Hn : 0 <= n) by (rewrite E in H; apply inc_last in H; lia).
    assert (Hmax : forall e, In e (map snd m) -> e <= n).
    { intros e He. rewrite E in H, He. destruct (inc_last K _ _ _ _ _ H) as (A & _). pose proof (inc_bounds K _ _ _ A _ He). lia. }
    destruct (cnt_ok n k pw Hk Hn Lp) as (C1 & C2 & C3). fold (cnt n k) in *.
    destruct (chunks_ok m hi n k x pw H Hk Hn Hmax Lp Pp (Z.to_nat (cnt n k))) as (l & -> & L & Pl); [lia|]. cbn [bind].
    destruct (at_lookup l (cnt n k - 1)) as (d & -> & Hd); [lia|]. cbn [bind].
    destruct (at_lookup pw k) as (xk & Exk & _); [lia|].
    destruct (ps_combine m hi n k x pw H Hk Lp Pp l xk L Exk Pl (Z.to_nat (cnt n k - 1)) d) as (r & Er & Rr); [lia| |].
    + rewrite (Pl _ _ Hd). apply weigh_ext. intros e He. specialize (Hmax e He). rewrite Z2Nat.id by lia.
      destruct (Z.leb_spec ((cnt n k - 1) * k) e), (Z.ltb_spec e ((cnt n k - 1 + 1) * k)); cbn [andb]; auto; nia.
    + exists r. split; auto. rewrite <- Er. rewrite Z2Nat.id by lia. unfold hstep. f_equal. apply map_ext. intros j. lia.
Qed.
End Eval.
