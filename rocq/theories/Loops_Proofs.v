(** Lemmas about the static loops. *)

From Coq Require Import ZArith List Bool Lia.
From Verif Require Import Loops_Model.
Import ListNotations.
Open Scope Z_scope.

(** * Operational specification *)

(** A counted loop (scf.for, affine.for): run the body while the induction
    variable is below the upper bound. *)
Inductive runs_for {S : Type} (upper step : Z) (body : Z -> S -> S) : Z -> S -> S -> Prop :=
  | for_stop iv s : upper <= iv -> runs_for upper step body iv s s
  | for_next iv s r :
      iv < upper ->
      runs_for upper step body (iv + step) (body iv s) r ->
      runs_for upper step body iv s r.

Lemma runs_for_det S u st (b : Z -> S -> S) iv s r1 :
  runs_for u st b iv s r1 -> forall r2, runs_for u st b iv s r2 -> r1 = r2.
Proof.
  induction 1 as [iv s H|iv s r H H1 IH]; intros r2 H2.
  - inversion H2; subst; [reflexivity|lia].
  - inversion H2; subst; [lia|auto].
Qed.

Lemma runs_for_total S u st (b : Z -> S -> S) :
  0 < st -> forall iv s, exists r, runs_for u st b iv s r.
Proof.
  intros Hst iv.
  remember (Z.to_nat (u - iv)) as n eqn:E.
  revert iv E. induction n as [n IH] using lt_wf_ind; intros iv E s.
  destruct (Z_lt_le_dec iv u) as [L|L].
  - destruct (IH (Z.to_nat (u - (iv + st))) ltac:(lia) (iv + st) eq_refl (b iv s)) as (r & Hr).
    exists r. apply for_next; auto.
  - exists s. now apply for_stop.
Qed.

(** Iterations that leave the state alone. *)
Lemma runs_for_idle S u st (b : Z -> S -> S) :
  0 < st ->
  forall iv s, (forall k s', iv <= k < u -> b k s' = s') -> runs_for u st b iv s s.
Proof.
  intros Hst iv.
  remember (Z.to_nat (u - iv)) as n eqn:E.
  revert iv E. induction n as [n IH] using lt_wf_ind; intros iv E s Hid.
  destruct (Z_lt_le_dec iv u) as [L|L].
  - apply for_next; [assumption|].
    rewrite Hid by lia.
    apply (IH (Z.to_nat (u - (iv + st)))); [lia|reflexivity|].
    intros k s' Hk. apply Hid. lia.
  - now apply for_stop.
Qed.

(** Skip idle iterations up to an aligned position. *)
Lemma runs_for_skip S u st (b : Z -> S -> S) l s r :
  0 < st ->
  forall n iv,
  l = iv + Z.of_nat n * st ->
  (forall k s', iv <= k < l -> b k s' = s') ->
  l <= u ->
  runs_for u st b l s r -> runs_for u st b iv s r.
Proof.
  intros Hst. induction n as [|n IH]; intros iv E Hid Hu Hr.
  - replace iv with l by lia. assumption.
  - rewrite Nat2Z.inj_succ in E.
    apply for_next; [nia|]. rewrite Hid by nia.
    apply IH; [nia| |assumption|assumption].
    intros k s' Hk. apply Hid. nia.
Qed.

(** Replace the body by one that agrees below [u], and extend with idle
    iterations up to [u']. *)
Lemma runs_for_extend S u u' st (b b' : Z -> S -> S) :
  0 < st -> u <= u' ->
  forall iv s r,
  (forall k s', iv <= k < u -> b' k s' = b k s') ->
  (forall k s', u <= k < u' -> b' k s' = s') ->
  runs_for u st b iv s r -> runs_for u' st b' iv s r.
Proof.
  intros Hst Hu iv s r Hsame Hid H.
  induction H as [iv s H|iv s r H H1 IH].
  - apply runs_for_idle; [assumption|]. intros k s' Hk. apply Hid. lia.
  - apply for_next; [lia|]. rewrite Hsame by lia.
    apply IH. intros k s' Hk. apply Hsame. lia.
Qed.

Lemma convert_for_ok S all (f : for_op S) (g : affine_for S) s r :
  convert_for all f = Some g ->
  0 < f_step f ->
  a_lower g <= f_lower f ->
  f_upper f <= a_upper g ->
  (f_step f | f_lower f - a_lower g) ->
  runs_for (f_upper f) (f_step f) (f_body f) (f_lower f) s r ->
  runs_for (a_upper g) (a_step g) (a_body g) (a_lower g) s r.
Proof.
  unfold convert_for. intros Hc Hst Hl Hu (d & Hd) Hr.
  destruct (negb all && negb (f_lower_secret f) && negb (f_upper_secret f)) eqn:E0; [discriminate|].
  destruct (static_bound _ (f_attr_lower f) _) as [l|] eqn:El; [|discriminate].
  destruct (static_bound _ (f_attr_upper f) _) as [u|] eqn:Eu; [|discriminate].
  injection Hc as <-. cbn [a_lower a_upper a_step a_body] in *.
  destruct (negb (f_lower_secret f) && negb (f_upper_secret f)) eqn:E1.
  - (* public bounds *)
    destruct (f_lower_secret f), (f_upper_secret f); try discriminate.
    cbn in El, Eu. injection El as <-. injection Eu as <-. assumption.
  - set (b' := fun iv s0 => if for_guard f iv then f_body f iv s0 else s0).
    assert (Hlow : forall k s', l <= k < f_lower f -> k < u -> b' k s' = s').
    { intros k s' Hk Hku. unfold b', for_guard.
      destruct (f_lower_secret f) eqn:Els.
      - assert (E : Z.leb (f_lower f) k = false) by (apply Z.leb_gt; lia).
        rewrite E. now destruct (f_upper_secret f).
      - cbn in El. injection El as <-. lia. }
    assert (Hhigh : forall k s', f_upper f <= k < u -> b' k s' = s').
    { intros k s' Hk. unfold b', for_guard.
      destruct (f_upper_secret f) eqn:Eus.
      - assert (E : Z.ltb k (f_upper f) = false) by (apply Z.ltb_ge; lia).
        rewrite E. rewrite andb_false_r. now destruct (f_lower_secret f).
      - cbn in Eu. injection Eu as <-. lia. }
    assert (Hmid : forall k s', f_lower f <= k < f_upper f -> b' k s' = f_body f k s').
    { intros k s' Hk. unfold b', for_guard.
      assert (Ea : Z.leb (f_lower f) k = true) by (apply Z.leb_le; lia).
      assert (Eb : Z.ltb k (f_upper f) = true) by (apply Z.ltb_lt; lia).
      rewrite Ea, Eb. now destruct (f_lower_secret f), (f_upper_secret f). }
    destruct (Z_lt_le_dec (f_lower f) (f_upper f)) as [L|L].
    + apply (runs_for_skip S u (f_step f) b' (f_lower f) s r Hst (Z.to_nat d) l).
      * rewrite Z2Nat.id by nia. lia.
      * intros k s' Hk. apply Hlow; lia.
      * lia.
      * apply (runs_for_extend S (f_upper f) u (f_step f) (f_body f)); auto.
    + assert (r = s) as -> by (inversion Hr; subst; [reflexivity|lia]).
      apply runs_for_idle; [assumption|].
      intros k s' Hk.
      destruct (Z_lt_le_dec k (f_lower f)); [apply Hlow; lia|apply Hhigh; lia].
Qed.

(** * while *)

(** The value of a forwarded operand. *)
Definition fwd_value {V} (s : list V) (f : fwd_src V) : option V :=
  match f with
  | FwdArg k => nth_error s k
  | FwdOuterArg v => Some v
  | FwdResult g => Some (g s)
  end.

Fixpoint fwd_values {V} (s : list V) (fs : list (fwd_src V)) : option (list V) :=
  match fs with
  | [] => Some []
  | f :: fs' =>
      match fwd_value s f, fwd_values s fs' with
      | Some v, Some vs => Some (v :: vs)
      | _, _ => None
      end
  end.

(** scf.while: the before region computes the condition and the forwarded
    values from the loop-carried values; if the condition holds, the after
    region maps the forwarded values to the next loop-carried values,
    otherwise they are the results. The number counts body executions. *)
Inductive runs_while {V : Type} (w : while_op V) : nat -> list V -> list V -> Prop :=
  | while_stop s vs :
      w_cond w s = false -> fwd_values s (w_fwd w) = Some vs ->
      runs_while w 0 s vs
  | while_next n s vs r :
      w_cond w s = true -> fwd_values s (w_fwd w) = Some vs ->
      runs_while w n (w_body w vs) r ->
      runs_while w (S n) s r.

(** Operand [i] of scf.condition is argument [i] of the before region. *)
Definition forwards_in_place {V} (w : while_op V) (n : nat) : Prop :=
  w_fwd w = map FwdArg (seq 0 n).

Lemma fwd_values_seq V (s : list V) k n pre :
  length pre = k -> length s = n ->
  fwd_values (pre ++ s) (map FwdArg (seq k n)) = Some s.
Proof.
  revert s k pre. induction n as [|n IH]; intros s k pre Hp Hs.
  - destruct s; [reflexivity|discriminate].
  - destruct s as [|x s]; [discriminate|]. injection Hs as Hs.
    cbn [seq map fwd_values fwd_value].
    rewrite nth_error_app2 by lia. replace (k - length pre)%nat with O by lia.
    cbn [nth_error].
    specialize (IH s (S k) (pre ++ [x])).
    rewrite <- app_assoc in IH. cbn [app] in IH. rewrite IH; [reflexivity| |assumption].
    rewrite app_length. cbn. lia.
Qed.

Lemma fwd_values_id V (s : list V) :
  fwd_values s (map FwdArg (seq 0 (length s))) = Some s.
Proof. exact (fwd_values_seq V s 0 (length s) [] eq_refl eq_refl). Qed.

Lemma iter_fixed A (b : A -> A) n s : b s = s -> Nat.iter n b s = s.
Proof. intros H. induction n as [|n IH]; [reflexivity|].
  change (b (Nat.iter n b s) = s). now rewrite IH.
Qed.

Lemma iter_shift A (b : A -> A) n s : Nat.iter (S n) b s = Nat.iter n b (b s).
Proof. 
  induction n as [|n IH]; [reflexivity|].
  change (b (Nat.iter (S n) b s) = b (Nat.iter n b (b s))). now rewrite IH.
Qed.

Lemma while_static_ok V (w : while_op V) k n s r :
  forwards_in_place w k ->
  (forall vs, length vs = k -> length (w_body w vs) = k) ->
  length s = k ->
  runs_while w n s r ->
  forall m, (n <= m)%nat ->
  Nat.iter m (fun x => if w_cond w x then w_body w x else x) s = r.
Proof.
  intros Hf Hb Hs H. revert Hs.
  induction H as [s vs Hc Hv|n s vs r Hc Hv H IH]; intros Hs m Hm.
  - rewrite Hf, <- Hs, fwd_values_id in Hv. injection Hv as <-.
    apply iter_fixed. now rewrite Hc.
  - rewrite Hf, <- Hs, fwd_values_id in Hv. injection Hv as <-.
    destruct m as [|m]; [lia|].
    rewrite iter_shift, Hc. apply IH; [now apply Hb|lia].
Qed.

Lemma to_int32_small z : -2147483648 <= z < 2147483648 -> to_int32 z = z.
Proof. intros H. unfold to_int32. rewrite Z.mod_small; lia. Qed.

Lemma convert_while_ok V (w : while_op V) k n s r m count body :
  convert_while w = Some (count, body) ->
  forwards_in_place w k ->
  (forall vs, length vs = k -> length (w_body w vs) = k) ->
  length s = k ->
  runs_while w n s r ->
  w_max_iter w = Some m -> Z.of_nat n <= m < 2147483648 ->
  static_loop count body s = r.
Proof.
  unfold convert_while. intros Hc Hf Hb Hs Hr Hm Hn.
  destruct (forallb _ _); [|discriminate].
  destruct (w_cond_secret w); [|discriminate].
  rewrite Hm in Hc. injection Hc as <- <-.
  unfold static_loop. rewrite to_int32_small by lia.
  apply (while_static_ok V w k n s r); auto. lia.
Qed.

(** * Scans *)

Lemma fold_extract_miss V (t : list V) idx l x :
  (forall i, In i l -> (i < length t)%nat /\ Z.of_nat i <> idx) ->
  fold_left
    (fun acc i =>
       match acc, nth_error t i with
       | Some prev, Some cur => Some (if Z.eqb (Z.of_nat i) idx then cur else prev)
       | _, _ => None
       end) l (Some x) = Some x.
Proof.
  revert x. induction l as [|i l IH]; intros x H; [reflexivity|].
  cbn [fold_left].
  destruct (H i (or_introl eq_refl)) as [H1 H2].
  destruct (nth_error t i) as [c|] eqn:E.
  - apply Z.eqb_neq in H2. rewrite H2. apply IH. intros j Hj. apply H. now right.
  - apply nth_error_None in E. lia.
Qed.

Lemma scan_extract_ok V (t : list V) i :
  (i < length t)%nat -> scan_extract t (Z.of_nat i) = nth_error t i.
Proof.
  intros Hi. unfold scan_extract.
  destruct (nth_error t 0) as [x0|] eqn:E0.
  2:{ apply nth_error_None in E0. lia. }
  assert (Eseq : seq 0 (length t) = seq 0 i ++ i :: seq (S i) (length t - S i)).
  { replace (length t) with (i + S (length t - S i))%nat at 1 by lia.
    rewrite seq_app. reflexivity. }
  rewrite Eseq, fold_left_app.
  rewrite fold_extract_miss.
  2:{ intros j Hj. apply in_seq in Hj. lia. }
  cbn [fold_left].
  destruct (nth_error t i) as [c|] eqn:Ei.
  2:{ apply nth_error_None in Ei. lia. }
  rewrite Z.eqb_refl. apply fold_extract_miss.
  intros j Hj. apply in_seq in Hj. lia.
Qed.

Lemma insert_at_some V (t : list V) i v :
  (i < length t)%nat ->
  exists r, insert_at t i v = Some r /\ length r = length t /\
  nth_error r i = Some v /\
  forall j, j <> i -> nth_error r j = nth_error t j.
Proof.
  revert i. induction t as [|x t IH]; intros i Hi; [cbn in Hi; lia|].
  destruct i as [|i].
  - exists (v :: t). cbn. repeat split; auto. intros [|j] Hj; [lia|reflexivity].
  - cbn in Hi. destruct (IH i ltac:(lia)) as (r & E & L & H1 & H2).
    exists (x :: r). cbn [insert_at]. rewrite E. cbn. repeat split; auto.
    intros [|j] Hj; [reflexivity|]. cbn. apply H2. lia.
Qed.

Lemma fold_insert_miss V (t : list V) idx v l :
  (forall i, In i l -> (i < length t)%nat /\ Z.of_nat i <> idx) ->
  fold_left
    (fun acc i =>
       match acc with
       | None => None
       | Some prev =>
           match insert_at prev i v with
           | None => None
           | Some new => Some (if Z.eqb (Z.of_nat i) idx then new else prev)
           end
       end) l (Some t) = Some t.
Proof.
  induction l as [|i l IH]; intros H; [reflexivity|].
  cbn [fold_left].
  destruct (H i (or_introl eq_refl)) as [H1 H2].
  destruct (insert_at_some V t i v H1) as (r & E & _). rewrite E.
  apply Z.eqb_neq in H2. rewrite H2. apply IH. intros j Hj. apply H. now right.
Qed.

Lemma scan_insert_ok V (t : list V) i v :
  (i < length t)%nat -> scan_insert t (Z.of_nat i) v = insert_at t i v.
Proof.
  intros Hi. unfold scan_insert.
  assert (Eseq : seq 0 (length t) = seq 0 i ++ i :: seq (S i) (length t - S i)).
  { replace (length t) with (i + S (length t - S i))%nat at 1 by lia.
    rewrite seq_app. reflexivity. }
  rewrite Eseq, fold_left_app.
  rewrite fold_insert_miss.
  2:{ intros j Hj. apply in_seq in Hj. lia. }
  cbn [fold_left].
  destruct (insert_at_some V t i v Hi) as (r & E & L & _). rewrite E.
  rewrite Z.eqb_refl. apply fold_insert_miss.
  intros j Hj. apply in_seq in Hj. rewrite L. lia.
Qed.
