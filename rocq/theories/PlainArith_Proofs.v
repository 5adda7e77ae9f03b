(** Proofs about arith-to-mod-arith and secret-to-mod-arith. *)
From Coq Require Import ZArith List Bool Lia.
From Verif Require Import Words ModArith_Model ModArith_Proofs PlainArith_Spec PlainArith_Model.
Open Scope Z_scope.

Lemma pow2_split w : 1 <= w -> 2 ^ w = 2 * 2 ^ (w - 1) /\ 0 < 2 ^ (w - 1).
Proof. intro H. split; [rewrite <- Z.pow_succ_r by lia; f_equal; lia|apply Z.pow_pos_nonneg; lia]. Qed.
Lemma mod_half w x : 1 <= w -> (x mod 2 ^ w) mod 2 ^ (w - 1) = x mod 2 ^ (w - 1).
Proof.
  intro H. destruct (pow2_split w H) as [E P]. rewrite (Z.mod_eq x (2 ^ w)) by lia. rewrite E at 1.
  replace (x - 2 * 2 ^ (w - 1) * (x / 2 ^ w)) with (x + (- 2 * (x / 2 ^ w)) * 2 ^ (w - 1)) by lia. apply Z_mod_plus_full.
Qed.
Lemma wrap_word w x : 0 <= x < 2 ^ w -> wrap w x = x.
Proof. intro H. unfold wrap. apply Z.mod_small. exact H. Qed.
Lemma pow2_le a b : 0 <= a <= b -> 2 ^ a <= 2 ^ b.
Proof. intro H. apply Z.pow_le_mono_r; lia. Qed.

Theorem natural_ok w env : 1 <= w -> (forall v, 0 <= env v < 2 ^ w) -> forall e, no_extension e -> fits w e ->
  run_mod (fun v => env v mod 2 ^ (w - 1)) (convert 0 w e) = Some (machine w env e mod 2 ^ (w - 1)).
Proof.
  intros Hw Henv. destruct (pow2_split w Hw) as [E P]. pose proof (pow2_split (w + 1) ltac:(lia)) as [E' _]. replace (w + 1 - 1) with w in E' by lia.
  assert (Q : 0 < 2 ^ (w - 1) < 2 ^ (w + 1 - 1)) by (replace (w + 1 - 1) with w by lia; lia).
  assert (B : forall x, 0 <= x mod 2 ^ (w - 1) < 2 ^ (w - 1)) by (intro x; apply Z.mod_pos_bound; lia).
  induction e as [v|dense c|a IHa b IHb|a IHa b IHb|a IHa b IHb|s from a IHa]; intros Hn Hf; cbn [no_extension fits] in Hn, Hf.
  - reflexivity.
  - cbn [convert]. unfold convert_constant, storage, modulus_of. cbn [Z.eqb run_mod machine]. unfold fold_constant.
    rewrite remui_pos by lia. f_equal. destruct dense.
    + unfold wrap. rewrite Z.mod_mod by lia.
      replace (sgn w c mod 2 ^ (w + 1) mod 2 ^ (w - 1)) with (sgn w c mod 2 ^ (w - 1)).
      * unfold sgn. destruct (Z.ltb_spec c (2 ^ (w - 1))); [reflexivity|]. rewrite E. replace (c - 2 * 2 ^ (w - 1)) with (c + (-2) * 2 ^ (w - 1)) by lia. apply Z_mod_plus_full.
      * pose proof (mod_half (w + 1) (sgn w c) ltac:(lia)) as M. replace (w + 1 - 1) with w in M by lia.
        rewrite <- (mod_half w (sgn w c)) by lia. rewrite <- M. rewrite mod_half by lia. reflexivity.
    + unfold wrap. rewrite Z.mod_mod by lia. rewrite (Z.mod_small c) by lia. reflexivity.
  - destruct Hn as [N1 N2]. destruct Hf as [F1 F2]. cbn [convert run_mod machine]. unfold storage, modulus_of in *. cbn [Z.eqb] in *. rewrite (IHa N1 F1), (IHb N2 F2). cbn [bind].
    rewrite lower_add_ok by (try lia; auto). rewrite mod_half by lia. rewrite <- Zplus_mod. reflexivity.
  - destruct Hn as [N1 N2]. destruct Hf as [F1 F2]. cbn [convert run_mod machine]. unfold storage, modulus_of in *. cbn [Z.eqb] in *. rewrite (IHa N1 F1), (IHb N2 F2). cbn [bind].
    rewrite lower_sub_ok by (try lia; auto). rewrite mod_half by lia. rewrite <- Zminus_mod. reflexivity.
  - destruct Hn as [N1 N2]. destruct Hf as [F1 F2]. cbn [convert run_mod machine]. unfold storage, modulus_of in *. cbn [Z.eqb] in *. rewrite (IHa N1 F1), (IHb N2 F2). cbn [bind].
    rewrite lower_mul_ok by (try lia; auto). rewrite mod_half by lia. rewrite <- Zmult_mod. reflexivity.
  - destruct Hn.
Qed.

Theorem modulus_ok q env : 0 < q < 2 ^ 63 -> forall e w, 1 <= w <= 64 -> fits w e -> dense_nonneg w e ->
  run_mod (fun v => env v mod q) (convert q w e) = Some (exact env e mod q).
Proof.
  intros Hq. assert (Eq : q =? 0 = false) by lia. assert (Q : 0 < q < 2 ^ (64 - 1)) by (change (64 - 1) with 63; exact Hq).
  assert (B : forall x, 0 <= x mod q < q) by (intro x; apply Z.mod_pos_bound; lia).
  induction e as [v|dense c|a IHa b IHb|a IHa b IHb|a IHa b IHb|s from a IHa]; intros w Hw Hf Hd; cbn [fits dense_nonneg] in Hf, Hd.
  - reflexivity.
  - cbn [convert]. unfold convert_constant, storage, modulus_of. rewrite Eq. cbn [run_mod exact]. unfold fold_constant. rewrite remui_pos by lia. f_equal. f_equal.
    pose proof (pow2_le w 64 ltac:(lia)). pose proof (pow2_split w ltac:(lia)) as [E P].
    assert (W : 0 <= c < 2 ^ 64) by lia.
    destruct dense.
    + unfold sgn. destruct (Z.ltb_spec c (2 ^ (w - 1))); [|specialize (Hd eq_refl); lia]. rewrite (wrap_word 64 c W). apply wrap_word. exact W.
    + rewrite (wrap_word 64 c W). apply wrap_word. exact W.
  - destruct Hf as [F1 F2]. destruct Hd as [D1 D2]. cbn [convert run_mod exact]. unfold storage, modulus_of in *. rewrite Eq in *. rewrite (IHa w Hw F1 D1), (IHb w Hw F2 D2). cbn [bind].
    rewrite lower_add_ok by (try lia; auto). rewrite <- Zplus_mod. reflexivity.
  - destruct Hf as [F1 F2]. destruct Hd as [D1 D2]. cbn [convert run_mod exact]. unfold storage, modulus_of in *. rewrite Eq in *. rewrite (IHa w Hw F1 D1), (IHb w Hw F2 D2). cbn [bind].
    rewrite lower_sub_ok by (try lia; auto). rewrite <- Zminus_mod. reflexivity.
  - destruct Hf as [F1 F2]. destruct Hd as [D1 D2]. cbn [convert run_mod exact]. unfold storage, modulus_of in *. rewrite Eq in *. rewrite (IHa w Hw F1 D1), (IHb w Hw F2 D2). cbn [bind].
    rewrite lower_mul_ok by (try lia; auto). rewrite <- Zmult_mod. reflexivity.
  - destruct Hf as [F1 F2]. cbn [convert run_mod exact]. unfold storage, modulus_of in *. rewrite Eq in *. rewrite (IHa from ltac:(lia) F2 Hd). cbn [bind].
    rewrite modswitch_ok by (try lia; auto). f_equal. destruct (_ <? _); [apply Z.mod_mod; lia|].
    replace (exact env a mod q - q) with (exact env a mod q + (-1) * q) by lia. rewrite Z_mod_plus_full. apply Z.mod_mod; lia.
Qed.

Theorem extension_ok w w' s v : 2 <= w < w' -> 0 <= v < 2 ^ w ->
  - 2 ^ (w - 2) <= (if s : bool then sgn w v else v) < 2 ^ (w - 2) ->
  run_mod (fun _ => v mod 2 ^ (w - 1)) (convert 0 w' (AExt s w (AVar 0))) =
    Some (machine w' (fun _ => v) (AExt s w (AVar 0)) mod 2 ^ (w' - 1)).
Proof.
  intros Hw Hv Hc. cbn [convert run_mod]. unfold storage, modulus_of. cbn [Z.eqb bind machine].
  destruct (pow2_split w ltac:(lia)) as [E P]. pose proof (pow2_split (w - 1) ltac:(lia)) as [E2 P2]. replace (w - 1 - 1) with (w - 2) in * by lia.
  destruct (pow2_split w' ltac:(lia)) as [E' P'].
  rewrite modswitch_ok; try lia; try (replace (w + 1 - 1) with w by lia; lia); try (replace (w' + 1 - 1) with w' by lia; lia);
    try (apply Z.mod_pos_bound; lia).
  f_equal. replace (2 ^ (w - 1) / 2) with (2 ^ (w - 2)) by (rewrite E2, Z.mul_comm, Z.div_mul; lia).
  assert (A : (if v mod 2 ^ (w - 1) <? 2 ^ (w - 2) then v mod 2 ^ (w - 1) else v mod 2 ^ (w - 1) - 2 ^ (w - 1)) = if s then sgn w v else v).
  { assert (N : v mod 2 ^ (w - 1) = if 0 <=? (if s then sgn w v else v) then (if s then sgn w v else v) else (if s then sgn w v else v) + 2 ^ (w - 1)).
    { destruct s; unfold sgn in *.
      - destruct (Z.ltb_spec v (2 ^ (w - 1))).
        + destruct (Z.leb_spec 0 v); [|lia]. apply Z.mod_small; lia.
        + destruct (Z.leb_spec 0 (v - 2 ^ w)); [lia|]. symmetry. apply (Z.mod_unique_pos v (2 ^ (w - 1)) 1); lia.
      - destruct (Z.leb_spec 0 v); [|lia]. apply Z.mod_small; lia. }
    rewrite N. destruct (Z.leb_spec 0 (if s then sgn w v else v)); destruct (Z.ltb_spec (if 0 <=? 0 then 0 else 0) 0); try lia;
      match goal with |- (if ?a <? ?b then _ else _) = _ => destruct (Z.ltb_spec a b) end; lia. }
  rewrite A. destruct s; [|reflexivity]. symmetry. apply mod_half. lia.
Qed.

(** *** secret-to-mod-arith *)
Lemma encode_ok w q x : 1 <= w <= 64 -> 0 < q < 2 ^ 63 -> 0 <= x < 2 ^ (w - 1) -> encode w x = x.
Proof.
  intros Hw Hq Hx. unfold encode, sgn. destruct (Z.ltb_spec x (2 ^ (w - 1))); [|lia]. apply wrap_word.
  pose proof (pow2_le (w - 1) 64 ltac:(lia)). lia.
Qed.

Section SecretToModArith.
Variables w q : Z.
Variables secret plain : nat -> Z.
Hypothesis Hw : 1 <= w <= 64.
Hypothesis Hq : 0 < q < 2 ^ 63.
Hypothesis Hp : forall v, 0 <= plain v < 2 ^ (w - 1) /\ plain v < q.

Let op_ok (op : Z -> Z -> Z -> Z -> option Z) (f : Z -> Z -> Z) : Prop :=
  (forall a b, 0 <= a < q -> 0 <= b < q -> op 64 q a b = Some (f a b mod q)) /\ (forall a b, f (a mod q) (b mod q) mod q = f a b mod q).
(** How the value of a program is represented. *)
Let represents (x : bool * Z) (e : sexpr) : Prop :=
  match e with Plain v => x = (false, plain v) | _ => x = (true, secret_value secret plain e mod q) end.

Lemma as_secret_ok x e : represents x e -> as_secret w x = secret_value secret plain e mod q /\ (fst x = false -> is_plain e).
Proof.
  intro H. unfold represents in H. destruct e; subst x; cbn [as_secret fst snd secret_value is_plain]; split; try reflexivity; try discriminate; try tauto.
  unfold as_secret. cbn [fst snd]. destruct (Hp v). rewrite (encode_ok w q) by auto. symmetry. apply Z.mod_small. lia.
Qed.
Lemma binop_ok op f e1 e2 x y : op_ok op f -> represents x e1 -> represents y e2 -> ~ (is_plain e1 /\ is_plain e2) ->
  convert_binop op w q x y = Some (true, f (secret_value secret plain e1) (secret_value secret plain e2) mod q).
Proof.
  intros [O1 O2] H1 H2 N. destruct (as_secret_ok x e1 H1) as [A1 P1]. destruct (as_secret_ok y e2 H2) as [A2 P2].
  unfold convert_binop. rewrite A1, A2. pose proof (Z.mod_pos_bound (secret_value secret plain e1) q ltac:(lia)). pose proof (Z.mod_pos_bound (secret_value secret plain e2) q ltac:(lia)).
  assert (T : fst x || fst y = true). { destruct (fst x); [reflexivity|]. destruct (fst y); [reflexivity|]. exfalso. apply N. auto. }
  rewrite T, O1 by lia. cbn [option_map]. rewrite O2. reflexivity.
Qed.
Let q64 : 0 < q < 2 ^ (64 - 1) := Hq.
Lemma run_secret_ok : forall e, on_secrets e ->
  exists x, run_secret w q (fun v => secret v mod q) plain e = Some x /\ represents x e.
Proof.
  assert (OA : op_ok lower_add Z.add) by (split; [intros; apply lower_add_ok; auto; lia|intros; symmetry; apply Zplus_mod]).
  assert (OS : op_ok lower_sub Z.sub) by (split; [intros; apply lower_sub_ok; auto; lia|intros; symmetry; apply Zminus_mod]).
  assert (OM : op_ok lower_mul Z.mul) by (split; [intros; apply lower_mul_ok; auto; lia|intros; symmetry; apply Zmult_mod]).
  induction e as [v|v|a IHa b IHb|a IHa b IHb|a IHa b IHb]; intro H; cbn [on_secrets] in H.
  - exists (true, secret v mod q). split; reflexivity.
  - exists (false, plain v). split; reflexivity.
  - destruct H as (N & Sa & Sb). destruct (IHa Sa) as (x & Ex & Rx). destruct (IHb Sb) as (y & Ey & Ry). cbn [run_secret]. rewrite Ex, Ey. cbn [bind].
    rewrite (binop_ok lower_add Z.add a b x y OA Rx Ry N). eexists. split; reflexivity.
  - destruct H as (N & Sa & Sb). destruct (IHa Sa) as (x & Ex & Rx). destruct (IHb Sb) as (y & Ey & Ry). cbn [run_secret]. rewrite Ex, Ey. cbn [bind].
    rewrite (binop_ok lower_sub Z.sub a b x y OS Rx Ry N). eexists. split; reflexivity.
  - destruct H as (N & Sa & Sb). destruct (IHa Sa) as (x & Ex & Rx). destruct (IHb Sb) as (y & Ey & Ry). cbn [run_secret]. rewrite Ex, Ey. cbn [bind].
    rewrite (binop_ok lower_mul Z.mul a b x y OM Rx Ry N). eexists. split; reflexivity.
Qed.
Lemma run_secret_value e : on_secrets e -> ~ is_plain e ->
  run_secret w q (fun v => secret v mod q) plain e = Some (true, secret_value secret plain e mod q).
Proof. intros H N. destruct (run_secret_ok e H) as (x & -> & R). destruct e; cbn in R, N; subst x; try reflexivity. destruct (N I). Qed.
End SecretToModArith.

Lemma run_secret_ext w q s1 s2 plain : (forall v, s1 v = s2 v) -> forall e, run_secret w q s1 plain e = run_secret w q s2 plain e.
Proof. intros H e. induction e; cbn [run_secret]; rewrite ?IHe1, ?IHe2, ?H; reflexivity. Qed.

Lemma reveal_ok w q x : 1 <= w <= 64 -> 0 < q < 2 ^ 63 -> 0 <= x < q -> reveal w q x = Some (x mod 2 ^ w).
Proof.
  intros Hw Hq Hx. unfold reveal. rewrite lift_standard_ok; try lia.
  - cbn [bind]. f_equal. assert (Hs : sgn 64 x = x). { unfold sgn. change (64 - 1) with 63. destruct (Z.ltb_spec x (2 ^ 63)); lia. }
    rewrite Hs, (Z.mod_small x q) by lia. destruct (Z.ltb_spec w 64); [reflexivity|]. assert (w = 64) by lia. subst w. symmetry. apply Z.mod_small. lia.
  - unfold is_word. lia.
Qed.
