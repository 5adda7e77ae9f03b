(** Lemmas about forwarding and mask folding. *)

From Coq Require Import ZArith List Bool Lia.
From Coq Require Import Reals.
From Flocq Require Import Core IEEE754.BinarySingleNaN.
From Verif Require Import Words TensorIndex_Model TensorIndex_Proofs Forward_Model.
Import ListNotations.
Open Scope Z_scope.

Lemma list_eqb_eq a b : list_eqb a b = true <-> a = b.
Proof.
  revert b. induction a as [|x a IH]; intros [|y b]; cbn; split; intros H;
    try discriminate; try reflexivity.
  - apply andb_prop in H. destruct H as [H1 H2]. apply Z.eqb_eq in H1. apply IH in H2. congruence.
  - injection H as -> ->. rewrite Z.eqb_refl. now apply IH.
Qed.

Lemma names_eqb_eq a b : names_eqb a b = true <-> a = b.
Proof.
  revert b. induction a as [|x a IH]; intros [|y b]; cbn; split; intros H;
    try discriminate; try reflexivity.
  - apply andb_prop in H. destruct H as [H1 H2]. apply Nat.eqb_eq in H1. apply IH in H2. congruence.
  - injection H as -> ->. rewrite Nat.eqb_refl. now apply IH.
Qed.

Section Memory.
Context {V : Type} (buf : nat -> nat) (ix : nat -> Z).
Implicit Types (p : list (instr V)) (s : memory V) (d : data V).

(** The location a memref value and index operands denote at run time. *)
Definition location (m : nat) (idx : list nat) : nat * list Z := (buf m, map ix idx).

Definition defines (i : instr V) (x : nat) : Prop :=
  match i with Load dst _ _ => dst = x | Compute dst _ => dst = x | _ => False end.

(** An operation that may write location [l], or an operation with unknown
    effects. *)
Definition may_write (i : instr V) (l : nat * list Z) : Prop :=
  match i with
  | Store _ m idx => location m idx = l
  | Effect _ | Region _ => True
  | _ => False
  end.
Definition may_read (i : instr V) (l : nat * list Z) : Prop :=
  match i with
  | Load _ m idx => location m idx = l
  | Effect _ | Region _ => True
  | _ => False
  end.

(** Accesses the pattern cannot see: another name for the same location, or a
    region-free operation with unknown memory effects. *)
Definition hidden_write (m : nat) (idx : list nat) (i : instr V) : Prop :=
  match i with
  | Store _ m' idx' => (m', idx') <> (m, idx) /\ location m' idx' = location m idx
  | Effect _ => True
  | _ => False
  end.
Definition hidden_read (m : nat) (idx : list nat) (i : instr V) : Prop :=
  match i with
  | Load _ m' idx' => (m', idx') <> (m, idx) /\ location m' idx' = location m idx
  | Effect _ => True
  | _ => False
  end.

Lemma exec_app p q st : exec buf ix (p ++ q) st = exec buf ix q (exec buf ix p st).
Proof. apply fold_left_app. Qed.

Lemma set_mem_same s b i v : set_mem s b i v b i = v.
Proof.
  unfold set_mem. rewrite Nat.eqb_refl.
  assert (H : list_eqb i i = true) by now apply list_eqb_eq. now rewrite H.
Qed.

Lemma set_mem_other s b i v b' i' : (b', i') <> (b, i) -> set_mem s b i v b' i' = s b' i'.
Proof.
  intros H. unfold set_mem. destruct (Nat.eqb b' b) eqn:E1; [|reflexivity].
  destruct (list_eqb i' i) eqn:E2; [|reflexivity].
  apply Nat.eqb_eq in E1. apply list_eqb_eq in E2. congruence.
Qed.

(** Operations that neither write the location nor redefine the value. *)
Lemma exec_keeps mid v l : forall s d,
  (forall i, In i mid -> ~ defines i v /\ ~ may_write i l) ->
  fst (exec buf ix mid (s, d)) (fst l) (snd l) = s (fst l) (snd l) /\
  snd (exec buf ix mid (s, d)) v = d v.
Proof.
  induction mid as [|i mid IH]; intros s d H; [split; reflexivity|].
  unfold exec. cbn [fold_left]. fold (exec buf ix mid (exec1 buf ix (s, d) i)).
  destruct (H i (or_introl eq_refl)) as [Hd Hw].
  assert (Hm : forall j, In j mid -> ~ defines j v /\ ~ may_write j l)
    by (intros j Hj; apply H; now right).
  destruct i as [x m idx|dst m idx|dst f|f|f]; cbn [exec1] in *.
  - destruct (IH (set_mem s (buf m) (map ix idx) (d x)) d Hm) as [H1 H2].
    split; [|exact H2]. rewrite H1. apply set_mem_other.
    intros E. apply Hw. cbn. unfold location. destruct l. cbn in E. congruence.
  - destruct (IH s (set_data d dst (s (buf m) (map ix idx))) Hm) as [H1 H2].
    split; [exact H1|]. rewrite H2. unfold set_data.
    destruct (Nat.eqb v dst) eqn:E; [|reflexivity]. apply Nat.eqb_eq in E. now elim Hd.
  - destruct (IH s (set_data d dst (f d)) Hm) as [H1 H2].
    split; [exact H1|]. rewrite H2. unfold set_data.
    destruct (Nat.eqb v dst) eqn:E; [|reflexivity]. apply Nat.eqb_eq in E. now elim Hd.
  - now elim Hw.
  - now elim Hw.
Qed.

Lemma forward_ok p1 v m idx mid dst m' idx' p2 p' st :
  forward p1 v m idx mid dst m' idx' p2 = Some p' ->
  (forall i, In i mid -> ~ defines i v) ->
  (forall i, In i mid -> ~ hidden_write m idx i) ->
  exec buf ix p' st = exec buf ix (p1 ++ Store v m idx :: mid ++ Load dst m' idx' :: p2) st.
Proof.
  unfold forward. intros Hf Hd Hw.
  destruct (forwardable m idx mid m' idx') eqn:E; [|discriminate]. injection Hf as <-.
  unfold forwardable in E. rewrite !andb_true_iff in E. destruct E as [[[E1 E2] E3] E4].
  apply Nat.eqb_eq in E1. apply names_eqb_eq in E2. subst m' idx'.
  assert (Hw' : forall i, In i mid -> ~ may_write i (location m idx)).
  { intros i Hi Hx. specialize (Hw i Hi). rewrite forallb_forall in E3. specialize (E3 i Hi).
    apply negb_true_iff in E4.
    assert (E5 : same_store m idx i = false).
    { destruct (same_store m idx i) eqn:E5; [|reflexivity].
      rewrite <- E4. symmetry. apply existsb_exists. now exists i. }
    destruct i as [x m2 i2|dst2 m2 i2|dst2 f|f|f]; cbn in *; try tauto; try discriminate.
    apply Hw. split; [|exact Hx]. intros X. injection X as -> ->.
    rewrite Nat.eqb_refl in E5. cbn in E5.
    assert (Hl : names_eqb idx idx = true) by now apply names_eqb_eq. congruence. }
  clear Hw. rename Hw' into Hw.
  rewrite !exec_app. destruct (exec buf ix p1 st) as [s d].
  change (Store v m idx :: mid ++ Compute dst (fun d0 => d0 v) :: p2)
    with ([Store v m idx] ++ mid ++ [Compute dst (fun d0 => d0 v)] ++ p2).
  change (Store v m idx :: mid ++ Load dst m idx :: p2)
    with ([Store v m idx] ++ mid ++ [Load dst m idx] ++ p2).
  rewrite !exec_app.
  set (st1 := exec buf ix [Store v m idx] (s, d)).
  assert (E1 : st1 = (set_mem s (buf m) (map ix idx) (d v), d)) by reflexivity.
  destruct (exec_keeps mid v (location m idx) (set_mem s (buf m) (map ix idx) (d v)) d) as [H1 H2].
  { intros i Hi. split; auto. }
  rewrite E1. destruct (exec buf ix mid _) as [s2 d2]. cbn [fst snd location] in H1, H2.
  f_equal. cbn. rewrite H1, H2. now rewrite set_mem_same.
Qed.

(** Two memories that differ at most at one location. *)
Definition agree_except (l : nat * list Z) (s s' : memory V) : Prop :=
  forall b i, (b, i) <> l -> s b i = s' b i.

Lemma exec_agree mid l : forall s s' d,
  (forall i, In i mid -> ~ may_read i l) ->
  agree_except l s s' ->
  snd (exec buf ix mid (s, d)) = snd (exec buf ix mid (s', d)) /\
  agree_except l (fst (exec buf ix mid (s, d))) (fst (exec buf ix mid (s', d))).
Proof.
  induction mid as [|i mid IH]; intros s s' d H Ha; [split; [reflexivity|exact Ha]|].
  unfold exec. cbn [fold_left].
  fold (exec buf ix mid (exec1 buf ix (s, d) i)). fold (exec buf ix mid (exec1 buf ix (s', d) i)).
  assert (Hr := H i (or_introl eq_refl)).
  assert (Hm : forall j, In j mid -> ~ may_read j l) by (intros j Hj; apply H; now right).
  destruct i as [x m idx|dst m idx|dst f|f|f]; cbn [exec1] in *.
  - apply IH; [exact Hm|]. intros b i Hb. unfold set_mem.
    destruct (Nat.eqb b (buf m) && list_eqb i (map ix idx)); [reflexivity|now apply Ha].
  - assert (E : s (buf m) (map ix idx) = s' (buf m) (map ix idx)).
    { apply Ha. intros E. apply Hr. exact E. }
    rewrite E. apply IH; assumption.
  - apply IH; assumption.
  - now elim Hr.
  - now elim Hr.
Qed.

Lemma remove_store_ok p1 v m idx mid v' m' idx' p2 p' st :
  remove_store p1 v m idx mid v' m' idx' p2 = Some p' ->
  (forall i, In i mid -> ~ hidden_read m idx i) ->
  exists q, p' = p1 ++ q ++ p2 /\
  let st1 := exec buf ix (p1 ++ q) st in
  let st2 := exec buf ix (p1 ++ Store v m idx :: mid ++ [Store v' m' idx']) st in
  snd st1 = snd st2 /\ forall b i, fst st1 b i = fst st2 b i.
Proof.
  unfold remove_store. intros Hf Hr.
  destruct (_ && _ && _ && _) eqn:E; [|discriminate]. injection Hf as <-.
  rewrite !andb_true_iff in E. destruct E as [[[E1 E2] E3] E4].
  apply Nat.eqb_eq in E1. apply names_eqb_eq in E2. subst m' idx'.
  assert (Hr' : forall i, In i mid -> ~ may_read i (location m idx)).
  { intros i Hi Hx. specialize (Hr i Hi). rewrite forallb_forall in E3. specialize (E3 i Hi).
    apply negb_true_iff in E4.
    assert (E5 : same_load m idx i = false).
    { destruct (same_load m idx i) eqn:E5; [|reflexivity].
      rewrite <- E4. symmetry. apply existsb_exists. now exists i. }
    destruct i as [x m2 i2|dst m2 i2|dst f|f|f]; cbn in *; try tauto; try discriminate.
    apply Hr. split; [|exact Hx]. intros X. injection X as -> ->.
    rewrite Nat.eqb_refl in E5. cbn in E5.
    assert (Hl : names_eqb idx idx = true) by now apply names_eqb_eq. congruence. }
  clear Hr. rename Hr' into Hr.
  exists (mid ++ [Store v' m idx]). split; [now rewrite <- !app_assoc|].
  cbv zeta. rewrite !exec_app. destruct (exec buf ix p1 st) as [s d].
  change (Store v m idx :: mid ++ [Store v' m idx])
    with ([Store v m idx] ++ mid ++ [Store v' m idx]).
  rewrite !exec_app.
  change (exec buf ix [Store v m idx] (s, d)) with (set_mem s (buf m) (map ix idx) (d v), d).
  destruct (exec_agree mid (location m idx) s (set_mem s (buf m) (map ix idx) (d v)) d Hr) as [H1 H2].
  { intros b i Hb. symmetry. apply set_mem_other. exact Hb. }
  destruct (exec buf ix mid (s, d)) as [s1 d1].
  destruct (exec buf ix mid (set_mem s (buf m) (map ix idx) (d v), d)) as [s2 d2].
  cbn [fst snd] in H1, H2. subst d2. cbn. split; [reflexivity|].
  intros b i. unfold set_mem.
  destruct (Nat.eqb b (buf m) && list_eqb i (map ix idx)) eqn:E; [reflexivity|].
  apply H2. unfold location. intros X. injection X as -> ->.
  rewrite Nat.eqb_refl in E. cbn in E.
  assert (Hl : list_eqb (map ix idx) (map ix idx) = true) by now apply list_eqb_eq.
  congruence.
Qed.
End Memory.

(** * Inserts and extracts *)

Section Tensors.
Context {V : Type} (ix : nat -> Z) (sc : nat -> V).

Definition ofr_value (o : ofr) : Z := match o with OConst z => z | OVal x => ix x end.

(** The element of a tensor at given indices (which are within bounds). *)
Fixpoint element (shape : list Z) (t : tdef V) (idx : list Z) : option V :=
  match t with
  | TInsert x dest i => if list_eqb (map ofr_value i) idx then Some (sc x) else element shape dest idx
  | TSplat v => Some v
  | TDense elems => nth_error elems (Z.to_nat (row_major shape idx))
  | TFromElements xs => option_map sc (nth_error xs (Z.to_nat (row_major shape idx)))
  | TOpaque f => Some (f idx)
  end.

Definition result_value (r : fwd_result V) : V :=
  match r with RScalar x => sc x | RAttr v => v end.

(** Every index list of the insertions in a definition. *)
Fixpoint insert_indices (t : tdef V) : list (list ofr) :=
  match t with TInsert _ dest i => i :: insert_indices dest | _ => [] end.

Lemma ofrs_eqb_eq a b : ofrs_eqb a b = true -> a = b.
Proof.
  revert b. induction a as [|x a IH]; intros [|y b] H; cbn in H; try discriminate; [reflexivity|].
  apply andb_prop in H. destruct H as [H1 H2].
  f_equal; [|now apply IH].
  destruct x, y; cbn in H1; try discriminate.
  - apply Z.eqb_eq in H1. congruence.
  - apply Nat.eqb_eq in H1. congruence.
Qed.

Lemma const_indices_ok l r : const_indices l = Some r -> map ofr_value l = r.
Proof.
  revert r. induction l as [|[z|x] l IH]; intros r H; cbn in H; try discriminate.
  - now injection H as <-.
  - destruct (const_indices l) as [r'|]; [|discriminate]. injection H as <-.
    cbn. f_equal. now apply IH.
Qed.

Lemma attr_position_ok shape idx : attr_position shape idx = row_major shape idx.
Proof.
  revert idx. induction shape as [|d s IH]; intros [|i r]; cbn; reflexivity || now rewrite IH.
Qed.

Lemma value_at_ok shape t idx r :
  num_elements shape < 2147483648 ->
  in_bounds shape (map ofr_value idx) ->
  (* indices that are equal at run time are recognised as equal *)
  (forall i, In i (insert_indices t) -> map ofr_value i = map ofr_value idx -> ofrs_eqb i idx = true) ->
  value_at shape t idx = Some r ->
  element shape t (map ofr_value idx) = Some (result_value r).
Proof.
  intros Hn Hb. induction t as [x dest IH i|v|elems|xs|f]; intros Hal Hv; cbn [value_at element] in *.
  - destruct (ofrs_eqb i idx) eqn:E.
    + injection Hv as <-. apply ofrs_eqb_eq in E. subst i.
      assert (Hl : list_eqb (map ofr_value idx) (map ofr_value idx) = true) by now apply list_eqb_eq.
      now rewrite Hl.
    + destruct (list_eqb (map ofr_value i) (map ofr_value idx)) eqn:E2.
      * apply list_eqb_eq in E2. rewrite (Hal i (or_introl eq_refl) E2) in E. discriminate.
      * apply IH; [|assumption]. intros j Hj. apply Hal. now right.
  - now injection Hv as <-.
  - destruct (const_indices idx) as [l|] eqn:Ec; [|discriminate].
    rewrite (const_indices_ok _ _ Ec) in *.
    destruct (valid_index shape l); [|discriminate].
    rewrite attr_position_ok in Hv.
    destruct (nth_error elems _); [|discriminate]. cbn in Hv. now injection Hv as <-.
  - destruct (const_indices idx) as [l|] eqn:Ec; [|discriminate].
    rewrite (const_indices_ok _ _ Ec) in *.
    rewrite (flattened_index_ok shape l Hb Hn) in Hv.
    destruct (nth_error xs _); [|discriminate]. cbn in Hv. now injection Hv as <-.
  - discriminate.
Qed.
End Tensors.

(** * Masks *)

Lemma vmul_length w a b : length a = length b -> length (vmul w a b) = length a.
Proof.
  revert b. induction a as [|x a IH]; intros [|y b] H; cbn in *; try discriminate; [reflexivity|].
  f_equal. apply IH. now injection H.
Qed.

Lemma intersect_vmul w a b : 0 < w ->
  is_mask a = true -> is_mask b = true -> intersect a b = vmul w a b.
Proof.
  intros Hw. revert b. induction a as [|x a IH]; intros [|y b] Ha Hb; try reflexivity.
  unfold is_mask in Ha, Hb. cbn [forallb] in Ha, Hb.
  apply andb_prop in Ha, Hb. destruct Ha as [Hx Ha], Hb as [Hy Hb].
  cbn [intersect vmul]. f_equal; [|apply IH; assumption].
  assert (H2 : 1 < 2 ^ w) by (apply Z.pow_gt_1; lia).
  apply orb_prop in Hx, Hy. rewrite !Z.eqb_eq in Hx, Hy.
  unfold muli, wrap.
  destruct Hx as [-> | ->], Hy as [-> | ->]; cbn [Z.land Z.mul Pos.land Pos.mul];
    rewrite ?Z.mod_0_l, ?Z.mod_1_l by lia; reflexivity.
Qed.

Lemma vmul_comm w a b : vmul w a b = vmul w b a.
Proof.
  revert b. induction a as [|x a IH]; intros [|y b]; try reflexivity.
  cbn. f_equal; [|apply IH]. unfold muli. f_equal. lia.
Qed.

Lemma vmul_assoc w a b c : vmul w a (vmul w b c) = vmul w (vmul w a b) c.
Proof.
  revert b c. induction a as [|x a IH]; intros [|y b] [|z c]; try reflexivity.
  cbn. f_equal; [|apply IH]. unfold muli, wrap.
  rewrite Zmult_mod_idemp_r, Zmult_mod_idemp_l. f_equal. lia.
Qed.

Lemma merge_ok w e v m1 m2 t : 0 < w ->
  merge v m1 m2 = Some t ->
  meval w e t = vmul w (meval w e v) (vmul w (meval w e m1) (meval w e m2)).
Proof.
  intros Hw. unfold merge, mask_of.
  destruct m1 as [a| |]; try discriminate. destruct (is_mask a) eqn:Ea; [|discriminate].
  destruct m2 as [b| |]; try discriminate. destruct (is_mask b) eqn:Eb; [|discriminate].
  intros H. injection H as <-. cbn. now rewrite (intersect_vmul w) by assumption.
Qed.

Lemma fold_masks_ok w e k t t' : 0 < w ->
  fold_masks k t = Some t' -> meval w e t' = meval w e t.
Proof.
  intros Hw H.
  assert (AC : forall a b c, vmul w a (vmul w b c) = vmul w b (vmul w a c)).
  { intros a b c. rewrite !vmul_assoc. now rewrite (vmul_comm w a b). }
  destruct k as [|[|[|[|[|[|k]]]]]]; (destruct t as [m|x|a b]; [discriminate H|discriminate H|]).
  - destruct b as [m|x|b c]; try discriminate H. cbn [fold_masks] in H.
    rewrite (merge_ok w e _ _ _ _ Hw H). cbn [meval].
    rewrite (AC _ (meval w e a)). f_equal. apply vmul_comm.
  - destruct b as [m|x|b c]; try discriminate H. cbn [fold_masks] in H.
    rewrite (merge_ok w e _ _ _ _ Hw H). cbn [meval]. apply AC.
  - destruct b as [m|x|b c]; try discriminate H. cbn [fold_masks] in H.
    rewrite (merge_ok w e _ _ _ _ Hw H). reflexivity.
  - destruct a as [m|x|a c]; try discriminate H. cbn [fold_masks] in H.
    rewrite (merge_ok w e _ _ _ _ Hw H). cbn [meval].
    rewrite (AC _ (meval w e b)). rewrite (vmul_comm w (vmul w (meval w e a) (meval w e c))).
    f_equal. apply vmul_comm.
  - destruct a as [m|x|a c]; try discriminate H. cbn [fold_masks] in H.
    rewrite (merge_ok w e _ _ _ _ Hw H). cbn [meval].
    rewrite <- vmul_assoc. f_equal. apply vmul_comm.
  - destruct a as [m|x|a c]; try discriminate H. cbn [fold_masks] in H.
    rewrite (merge_ok w e _ _ _ _ Hw H). cbn [meval]. apply vmul_comm.
  - discriminate H.
Qed.

(** * Floating-point masks *)

Section FloatMasks.
Variables prec emax : Z.
Context {Hp : Prec_gt_0 prec} {He : Prec_lt_emax prec emax}.
Notation fpn := (binary_float prec emax).
Variable md : mode.

(** Same value up to the sign of zero (NaNs are not distinguished). *)
Definition same_float (x y : fpn) : Prop :=
  x = y \/ exists s s', x = B754_zero s /\ y = B754_zero s'.

Lemma bone_shape : exists m e H, (Bone : fpn) = B754_finite false m e H.
Proof.
  generalize (Bone_correct prec emax Hp He) (is_finite_Bone prec emax Hp He)
             (Bsign_Bone prec emax Hp He).
  destruct (Bone : fpn) as [s|s| |s m e H] eqn:E; cbn; intros H1 H2 H3; try discriminate.
  - exfalso. apply R1_neq_R0. now symmetry.
  - subst s. now exists m, e, H.
Qed.

Lemma fmul_one_l (x : fpn) : fmul prec emax md Bone x = x.
Proof.
  destruct (is_finite x) eqn:Hx.
  - unfold fmul. generalize (Bmult_correct prec emax Hp He md Bone x).
    rewrite Bone_correct, Rmult_1_l.
    rewrite round_generic; [|apply valid_rnd_round_mode|apply generic_format_B2R].
    rewrite Rlt_bool_true by apply abs_B2R_lt_emax.
    intros (H1 & H2 & H3). rewrite Hx, is_finite_Bone in H2.
    apply B2R_Bsign_inj; [exact H2|exact Hx|exact H1|].
    rewrite H3.
    + rewrite Bsign_Bone. now destruct (Bsign x).
    + destruct (Bmult md Bone x); cbn in *; congruence.
  - destruct bone_shape as (m & e & H & E). unfold fmul. rewrite E.
    destruct x as [s|s| |s m' e' H']; try discriminate Hx; cbn.
    + now destruct s.
    + reflexivity.
Qed.

Lemma fmul_one_r (x : fpn) : fmul prec emax md x Bone = x.
Proof.
  destruct (is_finite x) eqn:Hx.
  - unfold fmul. generalize (Bmult_correct prec emax Hp He md x Bone).
    rewrite Bone_correct, Rmult_1_r.
    rewrite round_generic; [|apply valid_rnd_round_mode|apply generic_format_B2R].
    rewrite Rlt_bool_true by apply abs_B2R_lt_emax.
    intros (H1 & H2 & H3). rewrite Hx, is_finite_Bone in H2.
    apply B2R_Bsign_inj; [exact H2|exact Hx|exact H1|].
    rewrite H3.
    + rewrite Bsign_Bone. now destruct (Bsign x).
    + destruct (Bmult md x Bone); cbn in *; congruence.
  - destruct bone_shape as (m & e & H & E). unfold fmul. rewrite E.
    destruct x as [s|s| |s m' e' H']; try discriminate Hx; cbn.
    + now destruct s.
    + reflexivity.
Qed.

Lemma beqb_one (x : fpn) : Beqb x Bone = true -> x = Bone.
Proof.
  intros H. destruct (is_finite x) eqn:Hx.
  - rewrite Beqb_correct in H by (assumption || apply is_finite_Bone).
    revert H. case Req_bool_spec; intros H H0; [|discriminate H0]. clear H0.
    rewrite Bone_correct in H.
    assert (Hs : Bsign x = false).
    { destruct x as [s|s| |s m e Hb]; cbn in *; try discriminate.
      - exfalso. apply R1_neq_R0. now symmetry.
      - destruct s; [|reflexivity]. exfalso.
        assert (B := F2R_lt_0 radix2 (Float radix2 (Z.neg m) e) eq_refl).
        change (F2R (Float radix2 (SpecFloat.cond_Zopp true (Z.pos m)) e) < 0)%R in B. rewrite H in B. apply (Rlt_not_le _ _ B). apply Rle_0_1. }
    apply B2R_Bsign_inj; [assumption|apply is_finite_Bone|now rewrite Bone_correct|].
    now rewrite Bsign_Bone.
  - destruct bone_shape as (m & e & Hb & E). rewrite E in H.
    destruct x as [s|s| |s m' e' H']; try discriminate Hx; try destruct s; cbv in H; discriminate H.
Qed.

Lemma beqb_one_refl : Beqb (Bone : fpn) Bone = true.
Proof.
  rewrite Beqb_correct by apply is_finite_Bone. apply Req_bool_true. reflexivity.
Qed.

Lemma mask_elem_cases (x a : fpn) :
  float_mask_elem prec emax x = Some a ->
  (exists s, x = B754_zero s) /\ a = B754_zero false \/ x = Bone /\ a = Bone.
Proof.
  unfold float_mask_elem. intros H.
  assert (Hone : forall y : fpn, (if Beqb y Bone then Some (Babs y) else None) = Some a ->
                                 y = Bone /\ a = Bone).
  { intros y Hy. destruct (Beqb y Bone) eqn:E; [|discriminate]. apply beqb_one in E.
    injection Hy as <-. subst y. split; [reflexivity|].
    destruct bone_shape as (m & e & Hb & ->). reflexivity. }
  destruct x as [s|s| |s m e Hb].
  - left. injection H as <-. split; [now exists s|reflexivity].
  - right. now apply Hone.
  - right. now apply Hone.
  - right. now apply Hone.
Qed.

Lemma zero_mul s (x : fpn) :
  (is_finite x = true /\ (exists s', fmul prec emax md (B754_zero s) x = B754_zero s') /\
   (exists s', fmul prec emax md x (B754_zero s) = B754_zero s')) \/
  (is_finite x = false /\ fmul prec emax md (B754_zero s) x = B754_nan /\
   fmul prec emax md x (B754_zero s) = B754_nan).
Proof.
  destruct x as [s'|s'| |s' m e H]; cbn; [left|right|right|left].
  - split; [reflexivity|]. split; eexists; reflexivity.
  - split; [reflexivity|]. split; reflexivity.
  - split; [reflexivity|]. split; reflexivity.
  - split; [reflexivity|]. split; eexists; reflexivity.
Qed.

Lemma zero_zero s s' : exists s'', fmul prec emax md (B754_zero s) (B754_zero s') = B754_zero s''.
Proof. cbn. eexists. reflexivity. Qed.

Lemma float_fold_ok k m1 m2 v r :
  (k < 6)%nat ->
  float_after prec emax md m1 m2 v = Some r -> same_float r (float_before prec emax md k m1 m2 v).
Proof.
  unfold float_after. intros Hk H.
  destruct (float_mask_elem prec emax m1) as [a|] eqn:E1; [|discriminate].
  destruct (float_mask_elem prec emax m2) as [b|] eqn:E2; [|discriminate].
  injection H as <-. apply mask_elem_cases in E1, E2.
  destruct E1 as [[[s1 ->] ->]|[-> ->]], E2 as [[[s2 ->] ->]|[-> ->]].
  - assert (EI : float_intersect prec emax (B754_zero false) (B754_zero false) = B754_zero false).
    { unfold float_intersect. now destruct (_ && _). }
    rewrite EI. clear EI.
    destruct v as [s|s| |s m e Hb];
      destruct k as [|[|[|[|[|[|k]]]]]]; try lia; cbn;
      (left; reflexivity) || (right; eexists; eexists; split; reflexivity).
  - assert (EI : float_intersect prec emax (B754_zero false) Bone = B754_zero false).
    { unfold float_intersect. now destruct (_ && _). }
    rewrite EI. clear EI.
    destruct k as [|[|[|[|[|[|k]]]]]]; try lia; cbn [float_before];
      rewrite ?fmul_one_l, ?fmul_one_r;
    destruct v as [s|s| |s m e Hb]; cbn;
      (left; reflexivity) || (right; eexists; eexists; split; reflexivity).
  - assert (EI : float_intersect prec emax Bone (B754_zero false) = B754_zero false).
    { unfold float_intersect. rewrite beqb_one_refl. cbn [andb].
      destruct bone_shape as (m & e & Hb & ->). reflexivity. }
    rewrite EI. clear EI.
    destruct k as [|[|[|[|[|[|k]]]]]]; try lia; cbn [float_before];
      rewrite ?fmul_one_l, ?fmul_one_r;
    destruct v as [s|s| |s m e Hb]; cbn;
      (left; reflexivity) || (right; eexists; eexists; split; reflexivity).
  - assert (EI : float_intersect prec emax Bone Bone = Bone).
    { unfold float_intersect. now rewrite beqb_one_refl. }
    rewrite EI. clear EI.
    destruct k as [|[|[|[|[|[|k]]]]]]; try lia; cbn [float_before];
      rewrite ?fmul_one_l, ?fmul_one_r; left; reflexivity.
Qed.
End FloatMasks.
