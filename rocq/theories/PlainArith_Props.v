(** C86: integer programs executed on integers modulo a number. *)
From Coq Require Import ZArith List Bool Lia.
From Verif Require Import Words ModArith_Model PlainArith_Spec PlainArith_Model PlainArith_Proofs.
Open Scope Z_scope.

(** *** arith-to-mod-arith *)

(** With the given modulus q, programs compute their exact result modulo q, if no element of a constant tensor is negative. *)
Theorem C86_modulus : forall q w e env, 0 < q < 2 ^ 63 -> 1 <= w <= 64 -> fits w e -> dense_nonneg w e ->
  run_mod (fun v => env v mod q) (convert q w e) = Some (exact env e mod q).
Proof. intros. apply modulus_ok; assumption. Qed.
Print Assumptions C86_modulus.

(** Without a given modulus, programs compute the result on machine integers without its highest bit. *)
Theorem C86_natural_partial : forall w e env, 1 <= w <= 63 -> no_extension e -> fits w e -> (forall v, 0 <= env v < 2 ^ w) ->
  run_mod (fun v => env v mod 2 ^ (w - 1)) (convert 0 w e) = Some (machine w env e mod 2 ^ (w - 1)).
Proof. intros. apply natural_ok; try assumption; lia. Qed.
Print Assumptions C86_natural_partial.

(** Extensions are right for values in the middle half of the range. *)
Theorem C86_extension_partial : forall w w' (s : bool) v, 2 <= w < w' -> w' <= 63 -> 0 <= v < 2 ^ w ->
  - 2 ^ (w - 2) <= (if s then sgn w v else v) < 2 ^ (w - 2) ->
  run_mod (fun _ => v mod 2 ^ (w - 1)) (convert 0 w' (AExt s w (AVar 0))) =
    Some (machine w' (fun _ => v) (AExt s w (AVar 0)) mod 2 ^ (w' - 1)).
Proof. intros. apply extension_ok; assumption. Qed.
Print Assumptions C86_extension_partial.

(** 100 + 100 is 72 for integers of eight bits. *)
Theorem C86_natural_refuted : exists w e env, 1 <= w <= 63 /\ no_extension e /\ fits w e /\ (forall v, 0 <= env v < 2 ^ (w - 1)) /\
  run_mod env (convert 0 w e) <> Some (machine w env e).
Proof.
  exists 8, (AAdd (AVar 0) (AVar 1)), (fun _ => 100). cbn. split; [lia|]. split; [auto|]. split; [auto|]. split; [intros _; lia|].
  vm_compute. discriminate.
Qed.
Print Assumptions C86_natural_refuted.
Theorem C86_extension_refuted : exists w w' v, 2 <= w < w' /\ 0 <= v < 2 ^ (w - 1) /\
  forall s, run_mod (fun _ => v) (convert 0 w' (AExt s w (AVar 0))) <> Some (machine w' (fun _ => v) (AExt s w (AVar 0)) mod 2 ^ (w' - 1)).
Proof. exists 8, 16, 100. split; [lia|]. split; [lia|]. intros [|]; vm_compute; discriminate. Qed.
Print Assumptions C86_extension_refuted.

(** The constant -1 does not become -1 modulo q, neither in a tensor nor as a scalar. *)
Theorem C86_constant_refuted : exists q w c, 0 < q < 2 ^ 63 /\ 0 <= c < 2 ^ w /\
  forall dense env, run_mod env (convert q w (AConst dense c)) <> Some (sgn w c mod q).
Proof. exists 7, 8, 255. split; [lia|]. split; [lia|]. intros [|] env; vm_compute; discriminate. Qed.
Print Assumptions C86_constant_refuted.

(** *** secret-to-mod-arith *)

(** Every program computes its exact result modulo the plaintext modulus. *)
Theorem C86_secret : forall w q secret plain e, 1 <= w <= 64 -> 0 < q < 2 ^ 63 ->
  (forall v, 0 <= plain v < 2 ^ (w - 1) /\ plain v < q) -> on_secrets e -> ~ is_plain e ->
  run_secret w q (fun v => secret v mod q) plain e = Some (true, secret_value secret plain e mod q).
Proof. intros. apply run_secret_value; assumption. Qed.
Print Assumptions C86_secret.

(** With concealing and revealing it returns what machine integers give, if the exact result is neither negative nor too large. *)
Theorem C86_execute : forall w q secret plain e, 1 <= w <= 64 -> 0 < q < 2 ^ 63 ->
  (forall v, 0 <= secret v < 2 ^ (w - 1) /\ secret v < q) -> (forall v, 0 <= plain v < 2 ^ (w - 1) /\ plain v < q) ->
  on_secrets e -> ~ is_plain e -> 0 <= secret_value secret plain e < q ->
  execute w q secret plain e = Some (secret_value secret plain e mod 2 ^ w).
Proof.
  intros w q secret plain e Hw Hq Hs Hp He Hn Hv. unfold execute.
  rewrite (run_secret_ext w q _ (fun v => secret v mod q)).
  - rewrite C86_secret by assumption. cbn [bind fst snd]. rewrite (Z.mod_small _ q) by exact Hv. apply reveal_ok; assumption.
  - intro v. destruct (Hs v). rewrite (encode_ok w q) by assumption. symmetry. apply Z.mod_small. lia.
Qed.
Print Assumptions C86_execute.

(** Negative results are not returned, *)
Theorem C86_negative_result_refuted : exists w q secret plain e, 1 <= w <= 64 /\ 0 < q < 2 ^ 63 /\
  (forall v, 0 <= secret v < 2 ^ (w - 1) /\ secret v < q) /\ on_secrets e /\ - q < 2 * secret_value secret plain e < q /\
  execute w q secret plain e <> Some (secret_value secret plain e mod 2 ^ w).
Proof.
  exists 16, 65537, (fun v => Z.of_nat (Nat.min v 1)), (fun _ => 0), (SSub (Secret 0) (Secret 1)). split; [lia|]. split; [lia|]. split.
  - intro v. assert (Nat.min v 1 <= 1)%nat by lia. change (2 ^ (16 - 1)) with 32768. lia.
  - split; [cbn; tauto|]. split; [vm_compute; split; reflexivity|]. vm_compute. discriminate.
Qed.
Print Assumptions C86_negative_result_refuted.
(** negative plaintexts are not encoded modulo q: 3 * -1 is 0, *)
Theorem C86_negative_plain_refuted : exists w q secret plain, 1 <= w <= 64 /\ 0 < q < 2 ^ 63 /\
  (forall v, 0 <= secret v < q) /\ (forall v, 0 <= plain v < 2 ^ w) /\ exists r,
  run_secret w q secret plain (SMul (Secret 0) (Plain 0)) = Some (true, r) /\
  r mod q <> (secret 0%nat * sgn w (plain 0%nat)) mod q.
Proof.
  exists 16, 65537, (fun _ => 3), (fun _ => 65535). split; [lia|]. split; [lia|]. split; [intros; lia|]. split; [intros; lia|].
  eexists. split; [vm_compute; reflexivity|]. vm_compute. discriminate.
Qed.
Print Assumptions C86_negative_plain_refuted.
(** and a plaintext larger than the modulus cannot be subtracted. *)
Theorem C86_large_plain_refuted : exists w q secret plain, 1 <= w <= 64 /\ 0 < q < 2 ^ 63 /\
  (forall v, 0 <= secret v < q) /\ (forall v, 0 <= plain v < 2 ^ (w - 1)) /\ exists r,
  run_secret w q secret plain (SSub (Secret 0) (Plain 0)) = Some (true, r) /\
  r mod q <> (secret 0%nat - plain 0%nat) mod q.
Proof.
  exists 32, 65537, (fun _ => 3), (fun _ => 100000). split; [lia|]. split; [lia|]. split; [intros; lia|]. split; [intros; lia|].
  eexists. split; [vm_compute; reflexivity|]. vm_compute. discriminate.
Qed.
Print Assumptions C86_large_plain_refuted.

(** *** Examples *)
Definition program : aexpr := AMul (AAdd (AVar 0) (AConst true 5)) (AExt true 8 (ASub (AVar 1) (AConst false 200))).
Example C86_nonvacuous : fits 16 program /\ dense_nonneg 16 program /\
  run_mod (fun v => Z.of_nat v mod 97) (convert 97 16 program) = Some ((5 * (1 - 200)) mod 97).
Proof. vm_compute. intuition congruence. Qed.
Example C86_natural_nonvacuous :
  run_mod (fun v => Z.of_nat v mod 128) (convert 0 8 (AMul (ASub (AVar 0) (AConst true 255)) (AVar 3))) = Some 3 /\
  run_mod (fun _ => 253 mod 128) (convert 0 16 (AExt true 8 (AVar 0))) = Some 32765.
Proof. vm_compute. auto. Qed.
Example C86_execute_nonvacuous :
  execute 16 65537 (fun v => Z.of_nat v + 10) (fun v => Z.of_nat v + 1) (SSub (SMul (Secret 0) (Secret 1)) (SAdd (Plain 0) (Secret 2))) = Some 97.
Proof. vm_compute. reflexivity. Qed.
