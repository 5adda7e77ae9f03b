(** Chebyshev evaluation over the real numbers: the effect of dropping small
    coefficients, and the map from an interval to the unit interval. *)
From Coq Require Import ZArith List Bool Lia Reals Lra.
From Verif Require Import Words Kernel_Model Kernel_Spec PolyArith_Model PolyArith_Spec PolyCheb_Proofs PolyEval_Model PolyEval_Spec PolyEvalCheb_Proofs.
Import ListNotations.
Open Scope R_scope.

Definition Rcring : cring :=
  {| car := R; r0 := 0; r1 := 1; radd := Rplus; rmul := Rmult; rsub := Rminus; ropp := Ropp; r_ok := RTheory |}.

Lemma T_cos n a : T Rcring n (cos a) = cos (INR n * a).
Proof.
  assert (G : T Rcring n (cos a) = cos (INR n * a) /\ T Rcring (S n) (cos a) = cos (INR (S n) * a)).
  { induction n as [|n [IH1 IH2]].
    - split; [rewrite T_0|rewrite T_1]; cbn; [rewrite Rmult_0_l, cos_0; reflexivity|rewrite Rmult_1_l; reflexivity].
    - split; auto. rewrite T_S, IH2, IH1. cbn [rsub rmul Rcring PolyArith_Model.two radd r1].
      replace (INR (S (S n)) * a) with (INR (S n) * a + a) by (rewrite (S_INR (S n)); ring).
      replace (INR n * a) with (INR (S n) * a - a) by (rewrite S_INR; ring).
      rewrite cos_plus, cos_minus. unfold two. cbn. ring. }
  apply G.
Qed.
Lemma T_bound n x : -1 <= x <= 1 -> Rabs (T Rcring n x) <= 1.
Proof.
  intros H. rewrite <- (cos_acos x H). rewrite T_cos. apply Rabs_le. apply COS_bound.
Qed.

Section Drop.
Variable small : R -> bool.
Variable t : R.
Hypothesis small_ok : forall c, small c = true -> Rabs c <= t.
Hypothesis t_pos : 0 <= t.
Notation keep := (keep Rcring small).

Lemma rsum_close n (f g : nat -> R) : (forall i, (i < n)%nat -> Rabs (f i - g i) <= t) -> Rabs (rsum Rcring n f - rsum Rcring n g) <= INR n * t.
Proof.
  induction n as [|n IH]; intros H.
  - cbn. rewrite Rminus_0_r, Rabs_R0. lra.
  - specialize (IH ltac:(intros; apply H; lia)). specialize (H n ltac:(lia)).
    rewrite S_INR. change (rsum Rcring (S n) f) with (rsum Rcring n f + f n). change (rsum Rcring (S n) g) with (rsum Rcring n g + g n).
    pose proof (Rabs_triang (rsum Rcring n f - rsum Rcring n g) (f n - g n)) as P.
    replace (rsum Rcring n f + f n - (rsum Rcring n g + g n)) with (rsum Rcring n f - rsum Rcring n g + (f n - g n)) by ring. lra.
Qed.
Lemma keep_close c : Rabs (keep c - c) <= t.
Proof.
  unfold PolyEvalCheb_Proofs.keep. destruct (small c) eqn:E.
  - replace (r0 Rcring - c) with (- c) by (cbn; ring). rewrite Rabs_Ropp. auto.
  - replace (c - c) with 0 by ring. rewrite Rabs_R0. auto.
Qed.
Lemma Rabs_mul_le a b u : Rabs a <= u -> Rabs b <= 1 -> Rabs (a * b) <= u.
Proof.
  intros Ha Hb. rewrite Rabs_mult. pose proof (Rabs_pos a). pose proof (Rabs_pos b). nra.
Qed.
Lemma series_close c x : -1 <= x <= 1 -> Rabs (series Rcring (map keep c) x - series Rcring c x) <= INR (length c) * t.
Proof.
  intros Hx. unfold series. rewrite map_length. apply rsum_close. intros i Hi.
  rewrite (nth_indep (map keep c) (r0 Rcring) (keep (r0 Rcring))) by (rewrite map_length; auto). rewrite map_nth.
  set (a := nth i c (r0 Rcring)). change (Rabs (keep a * T Rcring i x - a * T Rcring i x) <= t).
  replace (keep a * T Rcring i x - a * T Rcring i x) with ((keep a - a) * T Rcring i x) by ring.
  apply Rabs_mul_le; [apply keep_close|apply T_bound; auto].
Qed.
Lemma hornerv_close l x y : -1 <= x <= 1 -> Rabs y <= 1 ->
  Rabs (hornerv Rcring (map (map keep) l) y x - hornerv Rcring l y x) <= INR (total Rcring l) * t.
Proof.
  intros Hx Hy. induction l as [|c l IH].
  - cbn. rewrite Rminus_0_r, Rabs_R0. lra.
  - cbn [total fold_right]. fold (total Rcring l). rewrite plus_INR.
    change (hornerv Rcring (map (map keep) (c :: l)) y x) with (series Rcring (map keep c) x + y * hornerv Rcring (map (map keep) l) y x).
    change (hornerv Rcring (c :: l) y x) with (series Rcring c x + y * hornerv Rcring l y x).
    pose proof (series_close c x Hx) as S.
    set (h1 := hornerv Rcring (map (map keep) l) y x) in *. set (h2 := hornerv Rcring l y x) in *.
    replace (series Rcring (map keep c) x + y * h1 - (series Rcring c x + y * h2))
      with ((series Rcring (map keep c) x - series Rcring c x) + (h1 - h2) * y) by ring.
    pose proof (Rabs_triang (series Rcring (map keep c) x - series Rcring c x) ((h1 - h2) * y)) as P.
    pose proof (Rabs_mul_le (h1 - h2) y _ IH Hy). lra.
Qed.
End Drop.

(** Patterns.cpp:196-199 *)
Definition rescale (lower upper : R) : R := 2 / (upper - lower).
Definition shift (lower upper : R) : R := - (upper + lower) / (upper - lower).
Lemma scaled_input_ok is1 isz lower upper x : (forall c, is1 c = true -> c = 1) -> (forall c, isz c = true -> c = 0) -> lower < upper ->
  run Rcring x (scaled_input Rcring is1 isz (rescale lower upper) (shift lower upper)) = 2 * (x - lower) / (upper - lower) - 1.
Proof.
  intros H1 H2 Hlu. unfold scaled_input.
  assert (M : run Rcring x (if is1 (rescale lower upper) then X Rcring else Mul Rcring (X Rcring) (Const Rcring (rescale lower upper))) = x * rescale lower upper).
  { destruct (is1 _) eqn:E; [apply H1 in E; rewrite E; symmetry; apply Rmult_1_r|reflexivity]. }
  assert (S : run Rcring x (scaled_input Rcring is1 isz (rescale lower upper) (shift lower upper)) = x * rescale lower upper + shift lower upper).
  { unfold scaled_input. destruct (isz _) eqn:E; [apply H2 in E; rewrite E, M; symmetry; apply Rplus_0_r|].
    match goal with |- run _ _ (Add _ ?a ?b) = _ => change (run Rcring x a + shift lower upper = x * rescale lower upper + shift lower upper) end.
    rewrite M. reflexivity. }
  unfold scaled_input in S. rewrite S. change (x * rescale lower upper + shift lower upper = 2 * (x - lower) / (upper - lower) - 1). unfold rescale, shift. field. lra.
Qed.
Lemma unit_interval lower upper x : lower < upper -> lower <= x <= upper -> -1 <= 2 * (x - lower) / (upper - lower) - 1 <= 1.
Proof.
  intros Hlu Hx. assert (E : 2 * (x - lower) / (upper - lower) = 2 * ((x - lower) / (upper - lower))) by (field; lra). rewrite E.
  assert (0 <= (x - lower) / (upper - lower) <= 1); [|lra]. split.
  - apply Rmult_le_pos; [lra|]. apply Rlt_le, Rinv_0_lt_compat. lra.
  - apply (Rmult_le_reg_r (upper - lower)); [lra|]. unfold Rdiv. rewrite Rmult_assoc, Rinv_l by lra. lra.
Qed.
