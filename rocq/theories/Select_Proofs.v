(** Lemmas about if-to-select, select-to-arithmetic and comparison-to-sign. *)

From Coq Require Import ZArith List Bool Lia QArith Reals Lra.
From Flocq Require Import Core IEEE754.BinarySingleNaN Plus_error.
From Verif Require Import Words Select_Model.
Import ListNotations.
Open Scope Z_scope.

(** * Straight-line code *)

Lemma run_ops_other ops e x :
  ~ In x (map o_dst ops) -> run_ops ops e x = e x.
Proof.
  revert e. induction ops as [|o ops IH]; intros e H; [reflexivity|].
  cbn [map In] in H. unfold run_ops in *. cbn [fold_left].
  rewrite IH by tauto. unfold run_op, set_env.
  destruct (Nat.eqb x (o_dst o)) eqn:E; [|reflexivity].
  apply Nat.eqb_eq in E. exfalso. apply H. left. now symmetry.
Qed.

(** Two environments that agree on everything the code may read. *)
Lemma run_ops_agree ops e1 e2 (P : nat -> Prop) :
  (forall x, P x -> e1 x = e2 x) ->
  (forall o x, In o ops -> In x (o_args o) -> P x \/ In x (map o_dst ops)) ->
  (* each argument is defined before its use *)
  (forall pre o post x, ops = pre ++ o :: post -> In x (o_args o) ->
     P x \/ In x (map o_dst pre)) ->
  forall x, P x \/ In x (map o_dst ops) -> run_ops ops e1 x = run_ops ops e2 x.
Proof.
  revert e1 e2 P. induction ops as [|o ops IH]; intros e1 e2 P He _ Hdef x Hx.
  - destruct Hx as [Hx|[]]. now apply He.
  - unfold run_ops. cbn [fold_left].
    apply (IH (run_op e1 o) (run_op e2 o) (fun y => P y \/ y = o_dst o)).
    + intros y [Hy| ->]; unfold run_op, set_env.
      * assert (Em : map e1 (o_args o) = map e2 (o_args o)).
        { apply map_ext_in. intros z Hz.
          destruct (Hdef [] o ops z eq_refl Hz) as [H|[]]. now apply He. }
        rewrite Em. destruct (Nat.eqb y (o_dst o)); [reflexivity|now apply He].
      * rewrite Nat.eqb_refl. f_equal. apply map_ext_in. intros z Hz.
        destruct (Hdef [] o ops z eq_refl Hz) as [H|[]]. now apply He.
    + intros o' y Ho' Hy. destruct (in_split _ _ Ho') as (l1 & l2 & El).
      destruct (Hdef (o :: l1) o' l2 y) as [H|H]; [cbn; now f_equal|assumption|now left; left|].
      cbn [map In] in H. destruct H as [H|H]; [left; right; now symmetry|].
      right. rewrite El, map_app. apply in_or_app. now left.
    + intros pre o' post y E Hy.
      destruct (Hdef (o :: pre) o' post y) as [H|H];
        [cbn; now f_equal|assumption|now left; left|].
      cbn [map In] in H. destruct H as [H|H]; [left; right; now symmetry|now right].
    + cbn [map In] in Hx. destruct Hx as [Hx|[Hx|Hx]]; auto.
Qed.

(** [outer] are the names visible outside of the scf.if. Every name has one
    definition, an operation of a region sees the outer names and the earlier
    operations of its own region. *)
Definition in_scope (outer : nat -> Prop) (ops : list op) (yield : list nat) : Prop :=
  (forall pre o post x, ops = pre ++ o :: post -> In x (o_args o) ->
     outer x \/ In x (map o_dst pre)) /\
  (forall x, In x yield -> outer x \/ In x (map o_dst ops)).

Definition well_scoped (outer : nat -> Prop) (i : if_op) : Prop :=
  outer (i_cond i) /\
  in_scope outer (i_then i) (i_then_yield i) /\
  in_scope outer (i_else i) (i_else_yield i) /\
  (forall x, In x (map o_dst (i_then i)) -> ~ outer x /\ ~ In x (map o_dst (i_else i))) /\
  (forall x, In x (map o_dst (i_else i)) -> ~ outer x).

Lemma hoisted_then outer i e x :
  well_scoped outer i ->
  outer x \/ In x (map o_dst (i_then i)) ->
  run_ops (i_then i ++ i_else i) e x = run_ops (i_then i) e x.
Proof.
  intros (_ & _ & _ & H1 & H2) Hx. unfold run_ops. rewrite fold_left_app.
  change (run_ops (i_else i) (run_ops (i_then i) e) x = run_ops (i_then i) e x).
  apply run_ops_other. intros Hin.
  destruct Hx as [Hx|Hx]; [exact (H2 _ Hin Hx)|exact (proj2 (H1 _ Hx) Hin)].
Qed.

Lemma hoisted_else outer i e x :
  well_scoped outer i ->
  outer x \/ In x (map o_dst (i_else i)) ->
  run_ops (i_then i ++ i_else i) e x = run_ops (i_else i) e x.
Proof.
  intros (_ & _ & (Hd & _) & H1 & H2) Hx. unfold run_ops. rewrite fold_left_app.
  change (run_ops (i_else i) (run_ops (i_then i) e) x = run_ops (i_else i) e x).
  apply (run_ops_agree (i_else i) _ _ outer); [| |exact Hd|exact Hx].
  - intros y Hy. apply run_ops_other. intros Hin. exact (proj1 (H1 _ Hin) Hy).
  - intros o y Ho Hy. destruct (in_split _ _ Ho) as (l1 & l2 & El).
    destruct (Hd l1 o l2 y El Hy) as [H|H]; [now left|right].
    rewrite El, map_app. apply in_or_app. now left.
Qed.

Lemma hoisted_outer outer i e x :
  well_scoped outer i -> outer x -> run_ops (i_then i ++ i_else i) e x = e x.
Proof.
  intros (_ & _ & _ & H1 & H2) Hx. apply run_ops_other.
  rewrite map_app. intros Hin. apply in_app_or in Hin.
  destruct Hin as [H|H]; [exact (proj1 (H1 _ H) Hx)|exact (H2 _ H Hx)].
Qed.

Lemma map_combine_select (e e1 e2 : env) (sel : val -> val -> val -> val) c l1 l2 b :
  length l1 = length l2 ->
  (forall x, In x l1 -> e x = e1 x) -> (forall x, In x l2 -> e x = e2 x) ->
  (forall x y, In x l1 -> In y l2 -> sel c (e1 x) (e2 y) = if Z.eqb b 1 then e1 x else e2 y) ->
  map (fun p => sel c (e (fst p)) (e (snd p))) (combine l1 l2) =
  if Z.eqb b 1 then map e1 l1 else map e2 l2.
Proof.
  revert l2. induction l1 as [|x l1 IH]; intros [|y l2] Hl H1 H2 Hs; try discriminate Hl.
  - now destruct (Z.eqb b 1).
  - cbn [combine map fst snd]. rewrite IH.
    + rewrite H1, H2, Hs by (now left). now destruct (Z.eqb b 1).
    + now injection Hl.
    + intros z Hz. apply H1. now right.
    + intros z Hz. apply H2. now right.
    + intros z z' Hz Hz'. apply Hs; now right.
Qed.

Lemma convert_if_ok outer i ops pairs e b (sel : val -> val -> val -> val) :
  well_scoped outer i ->
  length (i_then_yield i) = length (i_else_yield i) ->
  convert_if i = Some (ops, pairs) ->
  e (i_cond i) = Some b ->
  (forall x y, In x (i_then_yield i) -> In y (i_else_yield i) ->
     sel (Some b) (run_ops (i_then i) e x) (run_ops (i_else i) e y) =
     if Z.eqb b 1 then run_ops (i_then i) e x else run_ops (i_else i) e y) ->
  map (fun p => sel (run_ops ops e (i_cond i)) (run_ops ops e (fst p)) (run_ops ops e (snd p)))
      pairs =
  if Z.eqb b 1 then map (run_ops (i_then i) e) (i_then_yield i)
  else map (run_ops (i_else i) e) (i_else_yield i).
Proof.
  intros Hw Hl Hc Hb Hs. unfold convert_if in Hc.
  destruct (forallb _ _); [|discriminate]. injection Hc as <- <-.
  rewrite (hoisted_outer outer i e _ Hw (proj1 Hw)), Hb.
  apply map_combine_select; [assumption| | |assumption].
  - intros x Hx. apply (hoisted_then outer); [assumption|].
    destruct Hw as (_ & (_ & Hy) & _). now apply Hy.
  - intros x Hx. apply (hoisted_else outer); [assumption|].
    destruct Hw as (_ & _ & (_ & Hy) & _). now apply Hy.
Qed.

(** * Select *)

Lemma select_int_ok w c t f :
  1 < w -> is_word w t -> is_word w f -> (c = 0 \/ c = 1) ->
  select_int w (Some c) (Some t) (Some f) = select (Some c) (Some t) (Some f).
Proof.
  unfold is_word. intros Hw Ht Hf Hc.
  destruct Hc as [-> | ->].
  - change (Some (wrap w (wrap w (0 * t) + wrap w (1 * f))) = Some f).
    unfold wrap. rewrite Z.mul_0_l, Z.mul_1_l, (Z.mod_0_l (2 ^ w)) by lia.
    rewrite (Z.mod_small f) by lia. rewrite Z.add_0_l, Z.mod_small by lia. reflexivity.
  - change (Some (wrap w (wrap w (1 * t) + wrap w (0 * f))) = Some t).
    unfold wrap. rewrite Z.mul_0_l, Z.mul_1_l, (Z.mod_0_l (2 ^ w)) by lia.
    rewrite (Z.mod_small t) by lia. rewrite Z.add_0_r, Z.mod_small by lia. reflexivity.
Qed.

(** * Floats *)

Section FP.
Variables prec emax : Z.
Context (Hp : Prec_gt_0 prec) (He : Prec_lt_emax prec emax).
Notation fexp := (SpecFloat.fexp prec emax).

Let Hval : Valid_exp fexp := fexp_correct prec emax Hp.

Lemma round_B2R (x : fp prec emax) :
  round radix2 fexp (round_mode mode_NE) (B2R x) = B2R x.
Proof. apply round_generic; [apply valid_rnd_N|apply generic_format_B2R]. Qed.

Lemma small_B2R (x : fp prec emax) : Rlt_bool (Rabs (B2R x)) (bpow radix2 emax) = true.
Proof. apply Rlt_bool_true, abs_B2R_lt_emax. Qed.

Lemma mult_one (x : fp prec emax) :
  is_finite x = true ->
  B2R (Bmult mode_NE (Bone (prec_lt_emax_ := He)) x) = B2R x /\
  is_finite (Bmult mode_NE (Bone (prec_lt_emax_ := He)) x) = true.
Proof.
  intros Hx. generalize (Bmult_correct prec emax Hp He mode_NE Bone x).
  rewrite Bone_correct, Rmult_1_l, round_B2R, small_B2R.
  intros (H1 & H2 & _). split; [assumption|]. rewrite H2, Hx.
  now rewrite is_finite_Bone.
Qed.

Lemma mult_zero (x : fp prec emax) :
  is_finite x = true ->
  B2R (Bmult mode_NE (B754_zero false : fp prec emax) x) = 0%R /\
  is_finite (Bmult mode_NE (B754_zero false : fp prec emax) x) = true.
Proof.
  destruct x; cbn; intros; try discriminate; split; reflexivity.
Qed.

Lemma select_float_ok c (t f : fp prec emax) :
  is_finite t = true -> is_finite f = true ->
  is_finite (select_float c t f) = true /\
  B2R (select_float c t f) = B2R (if c then t else f).
Proof.
  intros Ht Hf. unfold select_float.
  destruct c; cbn [negb uitofp].
  - destruct (mult_one t Ht) as [A1 A2]. destruct (mult_zero f Hf) as [B1 B2].
    generalize (Bplus_correct prec emax Hp He mode_NE _ _ A2 B2).
    rewrite A1, B1, Rplus_0_r, round_B2R, small_B2R.
    intros (C1 & C2 & _). split; assumption.
  - destruct (mult_one f Hf) as [A1 A2]. destruct (mult_zero t Ht) as [B1 B2].
    generalize (Bplus_correct prec emax Hp He mode_NE _ _ B2 A2).
    rewrite A1, B1, Rplus_0_l, round_B2R, small_B2R.
    intros (C1 & C2 & _). split; assumption.
Qed.

Lemma fp_sign_lt0 (x : fp prec emax) : (B2R x < 0)%R -> fp_sign x = Some (-1)%Q.
Proof.
  destruct x as [s|s| |s m e Hb]; cbn [B2R]; intros H; try lra.
  destruct s; [reflexivity|].
  assert (0 < F2R (Float radix2 (cond_Zopp false (Z.pos m)) e))%R by (apply F2R_gt_0; reflexivity).
  lra.
Qed.

Lemma fp_sign_gt0 (x : fp prec emax) : (0 < B2R x)%R -> fp_sign x = Some 1%Q.
Proof.
  destruct x as [s|s| |s m e Hb]; cbn [B2R]; intros H; try lra.
  destruct s; [|reflexivity].
  assert (F2R (Float radix2 (cond_Zopp true (Z.pos m)) e) < 0)%R by (apply F2R_lt_0; reflexivity).
  lra.
Qed.

Lemma fp_sign_zero (x : fp prec emax) :
  is_finite x = true -> B2R x = 0%R -> fp_sign x = Some 0%Q.
Proof.
  destruct x as [s|s| |s m e Hb]; cbn [B2R is_finite]; intros H1 H2; try discriminate; [reflexivity|].
  exfalso. apply F2R_neq_0 in H2; [assumption|]. destruct s; discriminate.
Qed.

Lemma B2R_sign_true (x : fp prec emax) : Bsign x = true -> is_finite x = true -> (B2R x <= 0)%R.
Proof.
  destruct x as [s|s| |s m e Hb]; cbn [Bsign B2R is_finite]; intros Hs H; try discriminate; try lra.
  subst s. apply F2R_le_0. discriminate.
Qed.
Lemma B2R_sign_false (x : fp prec emax) : Bsign x = false -> is_finite x = true -> (0 <= B2R x)%R.
Proof.
  destruct x as [s|s| |s m e Hb]; cbn [Bsign B2R is_finite]; intros Hs H; try discriminate; try lra.
  subst s. apply F2R_ge_0. discriminate.
Qed.

(** The sign of the rounded difference is the sign of the difference. *)
Lemma fp_sign_minus (a b : fp prec emax) :
  is_finite a = true -> is_finite b = true ->
  fp_sign (Bminus mode_NE a b) =
  Some (match Rcompare (B2R a) (B2R b) with Lt => (-1)%Q | Eq => 0%Q | Gt => 1%Q end).
Proof.
  intros Fa Fb.
  generalize (Bminus_correct prec emax Hp He mode_NE a b Fa Fb).
  set (d := Bminus mode_NE a b).
  destruct (Rlt_bool _ _) eqn:Eo.
  - intros (H1 & H2 & H3).
    destruct (Rcompare_spec (B2R a) (B2R b)) as [L|L|L].
    + (* a < b *)
      assert (Hn : B2R d <> 0%R).
      { rewrite H1. unfold Rminus. apply round_plus_neq_0.
        - exact Hval.
        - apply monotone_exp_not_FTZ; [exact Hval|exact (fexp_monotone prec emax)].
        - apply valid_rnd_N.
        - apply generic_format_B2R.
        - apply generic_format_opp, generic_format_B2R.
        - lra. }
      rewrite Rcompare_Lt in H3 by lra.
      apply fp_sign_lt0. generalize (B2R_sign_true d H3 H2). lra.
    + apply fp_sign_zero; [assumption|].
      rewrite H1, L, Rminus_diag_eq by reflexivity. apply round_0. apply valid_rnd_N.
    + assert (Hn : B2R d <> 0%R).
      { rewrite H1. unfold Rminus. apply round_plus_neq_0.
        - exact Hval.
        - apply monotone_exp_not_FTZ; [exact Hval|exact (fexp_monotone prec emax)].
        - apply valid_rnd_N.
        - apply generic_format_B2R.
        - apply generic_format_opp, generic_format_B2R.
        - lra. }
      rewrite Rcompare_Gt in H3 by lra.
      apply fp_sign_gt0. generalize (B2R_sign_false d H3 H2). lra.
  - intros (H1 & H2).
    unfold binary_overflow in H1. cbn in H1.
    assert (Hs : fp_sign d = Some (if Bsign a then (-1)%Q else 1%Q)).
    { destruct d; cbn in H1; try discriminate H1. injection H1 as ->. reflexivity. }
    rewrite Hs. f_equal.
    destruct (Bsign a) eqn:Ea.
    + assert (Eb : Bsign b = false) by now destruct (Bsign b).
      generalize (B2R_sign_true a Ea Fa) (B2R_sign_false b Eb Fb). intros L1 L2.
      destruct (Rcompare_spec (B2R a) (B2R b)) as [L|L|L]; [reflexivity| |lra].
      exfalso.
      assert (B2R a - B2R b = 0)%R by lra.
      rewrite H, round_0, Rabs_R0, Rlt_bool_true in Eo; [discriminate| |apply valid_rnd_N].
      apply bpow_gt_0.
    + assert (Eb : Bsign b = true) by now destruct (Bsign b).
      generalize (B2R_sign_false a Ea Fa) (B2R_sign_true b Eb Fb). intros L1 L2.
      destruct (Rcompare_spec (B2R a) (B2R b)) as [L|L|L]; [lra| |reflexivity].
      exfalso.
      assert (B2R a - B2R b = 0)%R by lra.
      rewrite H, round_0, Rabs_R0, Rlt_bool_true in Eo; [discriminate| |apply valid_rnd_N].
      apply bpow_gt_0.
Qed.
End FP.
