(** C61: integers split into 8-bit chunks in 16-bit ciphertexts. *)
From Coq Require Import ZArith List Bool Lia.
From Verif Require Import Words CggiQuart_Model CggiQuart_Spec CggiQuart_Proofs.
Import ListNotations.
Open Scope Z_scope.

(** The lowered program computes every supported expression: sums of any size over arguments and over
    constants with bytes below 128, zero extensions of those, and products under a bound. *)
Theorem C61_supported_partial e : supported e ->
  exists cs, lower e = Some cs /\ decode cs mod 2 ^ width e = sem e.
Proof. intros H. destruct (supported_ok e H) as (_ & cs & E & _ & D). eauto. Qed.
Print Assumptions C61_supported_partial.

(** Adding chunks below 2^15 never loses a carry, and the chunks of the sum stay at most 510. *)
Theorem C61_add a b n : length a = n -> length b = n ->
  Forall (fun c => 0 <= c < 2 ^ 15) a -> Forall (fun c => 0 <= c < 2 ^ 15) b ->
  exists out, lower_add a b = Some out /\ length out = n /\ Forall (fun c => 0 <= c <= 510) out /\
  decode out mod 256 ^ Z.of_nat n = (decode a + decode b) mod 256 ^ Z.of_nat n.
Proof. apply add_correct. Qed.
Print Assumptions C61_add.

(** A product of two 32-bit integers given by proper bytes is right exactly when the cross product of the
    two low bytes fits 16 bits. *)
Theorem C61_mul_iff a0 a1 a2 a3 b0 b1 b2 b3 : Forall byte [a0; a1; a2; a3] -> Forall byte [b0; b1; b2; b3] ->
  exists out, lower_mul [a0; a1; a2; a3] [b0; b1; b2; b3] = Some out /\
  (decode out mod 2 ^ 32 = (decode [a0; a1; a2; a3] * decode [b0; b1; b2; b3]) mod 2 ^ 32 <-> a0 * b1 + a1 * b0 < 2 ^ 16).
Proof.
  intros Ha Hb. destruct (mul_correct a0 a1 a2 a3 b0 b1 b2 b3) as (o0 & o1 & o2 & o3 & E & F & V).
  eexists. split; [exact E|]. rewrite V. clear V E F.
  repeat match goal with H : Forall _ (_ :: _) |- _ => inversion H; clear H; subst end. unfold byte in *.
  assert (Z0 : a0 * b0 / 2 ^ 16 = 0) by (apply Z.div_small; change (2 ^ 16) with 65536; nia). rewrite Z0, Z.mul_0_r, Z.sub_0_r.
  set (P := decode _ * decode _). set (c := a0 * b1 + a1 * b0).
  assert (C : 0 <= c < 2 * 65536) by (unfold c; nia).
  change (2 ^ 16) with 65536. change (2 ^ 24) with 16777216. change (2 ^ 32) with 4294967296. split.
  - intros E. destruct (Z.ltb_spec c 65536); auto. exfalso.
    replace (c / 65536) with 1 in E by (apply Z.div_unique with (r := c - 65536); lia).
    pose proof (Z.div_mod (P - 16777216 * 1) 4294967296 ltac:(lia)). pose proof (Z.div_mod P 4294967296 ltac:(lia)). lia.
  - intros H. rewrite Z.div_small by lia. f_equal. lia.
Qed.
Print Assumptions C61_mul_iff.

(** 0xFFFF * 0xFFFF on i32 *)
Theorem C61_mul_refuted :
  let e := EMul (EIn 32 [255; 255; 0; 0]) (EIn 32 [255; 255; 0; 0]) in
  exists cs, lower e = Some cs /\ decode cs mod 2 ^ width e = 4278059009 /\ sem e = 4294836225.
Proof. cbv zeta. eexists. split; [vm_compute; reflexivity|]. split; vm_compute; reflexivity. Qed.
Print Assumptions C61_mul_refuted.

(** The constant 128 of type i16 becomes 0xFF80. *)
Theorem C61_constant_refuted : exists cs, lower (EConst 16 128) = Some cs /\ decode cs mod 2 ^ 16 = 65408.
Proof. eexists. split; [vm_compute; reflexivity|vm_compute; reflexivity]. Qed.
Print Assumptions C61_constant_refuted.

(** A constant whose width is no multiple of 8 fails an assertion. *)
Theorem C61_constant_width w v : 1 <= w <= 64 -> ~ (8 | w) -> lower (EConst w v) = None.
Proof.
  intros W D. cbn [lower]. unfold lower_const.
  assert (N : exists n, nb_chunks w = Some n) by (unfold nb_chunks; destruct (Z.leb_spec w 64); [eauto|lia]). destruct N as [n N].
  rewrite N. cbn [bind]. apply nb_chunks_eq in N; auto.
  destruct n as [|n]; [lia|]. rewrite seq_S. cbn [plus].
  assert (w < 8 * Z.of_nat (S n)) by (assert (w <> 8 * Z.of_nat (S n)) by (intros ->; apply D; exists (Z.of_nat (S n)); lia); lia).
  assert (X : forall l, const_loop w v (l ++ [n]) = None).
  { induction l as [|i l IH].
    - cbn [app const_loop]. unfold extract_bits. change half_width with 8. rewrite (proj2 (Z.leb_gt (8 + Z.of_nat n * 8) w)) by lia. rewrite andb_false_r. reflexivity.
    - cbn [app const_loop]. rewrite IH. destruct (extract_bits _ _ _ _); reflexivity. }
  apply X.
Qed.
Print Assumptions C61_constant_width.

(** Sign extension of -1 from i8 to i16 gives 255; zero extension of the i16 sum 0xFFFF + 1 = 0 gives 65536. *)
Theorem C61_ext_refuted :
  (exists cs, lower (EExtS 16 (EIn 8 [255])) = Some cs /\ decode cs = 255 /\ sem (EExtS 16 (EIn 8 [255])) = 65535) /\
  (exists cs, let e := EExtU 32 (EAdd (EIn 16 [255; 255]) (EIn 16 [1; 0])) in
     lower e = Some cs /\ decode cs mod 2 ^ 32 = 65536 /\ sem e = 0).
Proof. split; eexists; (split; [vm_compute; reflexivity|split; vm_compute; reflexivity]). Qed.
Print Assumptions C61_ext_refuted.

(** 0x7F01 * 0xFF + (0x0000FFFF + 0xFFFFFF01), and a scaled sum *)
Example C61_nonvacuous :
  let x := EIn 32 [1; 127; 0; 0] in let y := EIn 32 [255; 255; 0; 0] in let z := EIn 32 [1; 255; 255; 255] in
  let e := EAdd (EMul (EAdd y z) (EConst 32 100)) (EMul x (EExtU 32 (EIn 8 [255]))) in
  supported e /\ lower e = Some [255; 29; 226; 0] /\ sem e = 14818815.
Proof.
  cbv zeta. split; [|split; vm_compute; reflexivity].
  assert (KI : forall w cs, 1 <= w <= 64 -> 8 * (Z.of_nat (length cs) - 1) < w <= 8 * Z.of_nat (length cs) -> forallb (fun c => (0 <=? c) && (c <? 256)) cs = true ->
    decode cs < 2 ^ w -> canonical (EIn w cs)).
  { intros w cs A B C D. constructor; auto. apply Forall_forall. rewrite forallb_forall in C. intros c Hc. specialize (C c Hc).
    apply andb_true_iff in C. destruct C as [C1 C2]. apply Z.leb_le in C1. apply Z.ltb_lt in C2. unfold byte. lia. }
  assert (KC : canonical (EConst 32 100)).
  { constructor; try lia. exists 4; lia. intros i Hi. apply Z.bits_above_log2; [lia|]. change (Z.log2 100) with 6. lia. }
  apply S_add; [|apply S_mul|reflexivity].
  - apply S_scale; auto; [|cbn; lia|vm_compute; discriminate].
    apply S_add; [| |reflexivity]; apply S_canonical; apply KI; cbn; try lia; reflexivity.
  - apply KI; cbn; try lia; reflexivity.
  - constructor; [apply KI; cbn; try lia; reflexivity|cbn; lia].
  - reflexivity.
  - cbn; lia.
  - vm_compute. reflexivity.
Qed.
