(** C82: lookup tables and gates keep their meaning on the way from the netlist to the backends. *)
From Coq Require Import Ascii String List Bool NArith ZArith Lia.
From Verif Require Import Lut_Spec Lut_Model Lut_Proofs.
Import ListNotations.
Local Open Scope N_scope.

(** A $lut of up to 3 or 4 inputs is imported as a truth table that gives the same bit. *)
Theorem C82_import k lut a : (k = 3 \/ k = 4)%nat -> (1 <= length a <= k)%nat ->
  exists ins table, import_lut (techmap k lut a) = Some (ins, table) /\
    length ins = k /\ table < 2 ^ (2 ^ N.of_nat k) /\ truth_table table ins = yosys_lut lut a.
Proof.
  intros Hk Ha.
  assert (H31 : (2 ^ k <= 31)%nat) by (destruct Hk as [-> | ->]; cbn; lia).
  set (c := techmap k lut a).
  assert (Hlen : length (ports c) = (2 ^ k)%nat) by (unfold c, techmap; cbn [ports]; rewrite map_length, seq_length; reflexivity).
  destruct (assemble_some (2 ^ k) 0 (ports c)) as [table Ht]; [lia|lia|].
  assert (Hin : lut_inputs c = rev (a ++ repeat false (k - length a))).
  { unfold c, lut_inputs, techmap. cbn [connections].
    destruct Hk as [-> | ->]; destruct a as [|a0 [|a1 [|a2 [|a3 [|a4 a]]]]]; cbn in Ha; try lia; reflexivity. }
  assert (Hval : lsb_value (a ++ repeat false (k - length a)) = lsb_value a).
  { clear -a. induction a as [|b a IH]; cbn [app lsb_value length Nat.sub].
    - rewrite Nat.sub_0_r. induction k as [|k IHk]; [reflexivity|]. cbn [repeat lsb_value N.b2n]. rewrite IHk. reflexivity.
    - destruct k as [|k]; [cbn [repeat]; rewrite app_nil_r; reflexivity|].
      f_equal. f_equal. clear IH. change (S k - S (length a))%nat with (k - length a)%nat. generalize (k - length a)%nat as n. intro n.
      induction a as [|b' a IH]; cbn [app lsb_value]; [|rewrite IH; reflexivity].
      induction n as [|n IHn]; [reflexivity|]. cbn [repeat lsb_value N.b2n]. rewrite IHn. reflexivity. }
  exists (lut_inputs c), table. unfold import_lut, lut_value. change (digit c) with k. rewrite Ht.
  assert (Hl : length (lut_inputs c) = k) by (rewrite Hin, rev_length, app_length, repeat_length; lia).
  rewrite Hl, Nat.eqb_refl. split; [reflexivity|]. split; [reflexivity|].
  pose proof (assemble_testbit _ _ _ _ Ht) as Hbit. split.
  - destruct (N.lt_ge_cases table (2 ^ (2 ^ N.of_nat k))) as [H|H]; auto. exfalso.
    assert (Hn : table <> 0) by (pose proof (N.pow_nonzero 2 (2 ^ N.of_nat k)); lia).
    pose proof (N.bit_log2 table Hn) as Hb. rewrite Hbit in Hb.
    pose proof (N.log2_le_mono _ _ H) as Hlog. rewrite N.log2_pow2 in Hlog by lia.
    destruct (N.ltb_spec (N.log2 table) (N.of_nat (0 + 2 ^ k))) as [Hlt|_].
    + rewrite Nat.add_0_l, N_pow2_nat in Hlt. lia.
    + rewrite andb_false_r in Hb. discriminate Hb.
  - unfold truth_table, yosys_lut. rewrite Hin, msb_value_rev, Hval, Hbit.
    pose proof (lsb_value_bound a) as Hb.
    assert (Hk2 : lsb_value a < N.of_nat (2 ^ k)).
    { rewrite N_pow2_nat. eapply N.lt_le_trans; [exact Hb|]. apply N.pow_le_mono_r; lia. }
    destruct (N.leb_spec (N.of_nat 0) (lsb_value a)); [|lia]. destruct (N.ltb_spec (lsb_value a) (N.of_nat (0 + 2 ^ k))); [|lia].
    cbn [andb]. rewrite Nat.sub_0_r. unfold c, techmap. cbn [ports].
    set (f := fun i => (Nat.ltb i (2 ^ length a)) && N.testbit lut (N.of_nat i)).
    rewrite (nth_indep _ false (f 0%nat)) by (rewrite map_length, seq_length; lia).
    rewrite map_nth, seq_nth by lia. unfold f. rewrite Nat.add_0_l, N2Nat.id.
    destruct (Nat.ltb_spec (N.to_nat (lsb_value a)) (2 ^ length a)) as [_|Hge]; [reflexivity|].
    assert (N.of_nat (2 ^ length a) <= lsb_value a) by lia. rewrite N_pow2_nat in *. lia.
Qed.
Print Assumptions C82_import.
Example C82_import_nonvacuous :
  import_lut (techmap 4 100 [true; false; true]) = Some ([false; true; false; true], 100) /\ yosys_lut 100 [true; false; true] = true.
Proof. vm_compute. auto. Qed.

(** The truth tables with secret inputs of a module, with the width that secret-to-cggi picks for all ciphertexts: what
    runs on tfhe-rs, and for three inputs after cggi-decompose-operations and on jaxite, is the bit of the table. *)
Theorem C82_backends ops ins table : In (TruthTable (length ins)) ops ->
  (length ins = 3 \/ length ins = 4)%nat -> existsb fst ins = true -> table < 2 ^ (2 ^ N.of_nat (length ins)) ->
  exists op, lower_truth_table ins table = Some op /\
    tfhe_rust (find_lut_size ops) op = truth_table table (map snd ins) /\
    (length ins = 3%nat ->
      decompose (find_lut_size ops) op = Some (truth_table table (map snd ins)) /\
      jaxite op = Some (truth_table table (map snd ins))).
Proof.
  intros Hin Hlen Hsec Hsize. pose proof (find_lut_size_in ops _ Hin 1%nat) as Hw. fold (find_lut_size ops) in Hw. cbn [comb_size] in Hw.
  unfold lower_truth_table, encode_inputs. rewrite Hsec. set (w := find_lut_size ops) in *. clearbody w. pose proof (pow_ge w _ Hw) as Hpw.
  destruct Hlen as [Hlen|Hlen].
  - destruct ins as [|[s0 x] [|[s1 y] [|[s2 z] [|]]]]; try discriminate Hlen. cbn [map snd length] in *.
    eexists. split; [reflexivity|]. change (2 ^ Z.of_nat 3)%Z with 8%Z in Hpw. split; [|intros _; split].
    + unfold tfhe_rust, bootstrap, truth_table. rewrite !shl_bit by (cbn; lia).
      rewrite (add_small w (2 ^ 2 * _)) by (destruct x, y; cbn; lia). rewrite add_small by (destruct x, y, z; cbn; lia). f_equal. destruct x, y, z; reflexivity.
    + unfold decompose, expand_lut. rewrite expand_lincomb_message. cbn [combine].
      assert (Hv : bootstrap_verify w table = true).
      { unfold bootstrap_verify. apply N.leb_le. pose proof (size_le_pow _ _ Hsize).
        assert (2 ^ N.of_nat 3 <= 2 ^ N.of_nat w) by (apply N.pow_le_mono_r; lia). lia. }
      rewrite Hv. unfold truth_table. f_equal. rewrite wrap_small by (destruct x, y, z; cbn; lia). f_equal. destruct x, y, z; reflexivity.
    + unfold jaxite, jaxite_lut3, truth_table. rewrite N.mod_small by exact Hsize. f_equal. f_equal. destruct x, y, z; reflexivity.
  - destruct ins as [|[s0 x] [|[s1 y] [|[s2 z] [|[s3 u] [|]]]]]; try discriminate Hlen. cbn [map snd length] in *.
    eexists. split; [reflexivity|]. change (2 ^ Z.of_nat 4)%Z with 16%Z in Hpw. split; [|intro H3; discriminate H3].
    unfold tfhe_rust, bootstrap, truth_table. rewrite !shl_bit by (cbn; lia).
    rewrite (add_small w (2 ^ 2 * _)) by (destruct x, y; cbn; lia). rewrite (add_small w (2 ^ 1 * _)) by (destruct x, y, z; cbn; lia).
    rewrite add_small by (destruct x, y, z, u; cbn; lia). f_equal. destruct x, y, z, u; reflexivity.
Qed.
Print Assumptions C82_backends.
Example C82_backends_nonvacuous :
  let ops := [OtherComb 1; TruthTable 3; TruthTable 4] in let ins := [(true, true); (false, false); (true, true)] in
  find_lut_size ops = 4%nat /\ lower_truth_table ins 32 = Some (Lut3 true false true 32) /\
  decompose 4 (Lut3 true false true 32) = Some true /\ truth_table 32 [true; false; true] = true.
Proof. vm_compute. auto. Qed.

(** Tables with two inputs, from two bits of plaintext on. *)
Theorem C82_lut2 w b a table : (2 <= w)%nat -> table < 2 ^ 4 ->
  tfhe_rust w (Lut2 b a table) = truth_table table [b; a] /\ decompose w (Lut2 b a table) = Some (truth_table table [b; a]).
Proof.
  intros Hw Hsize. pose proof (pow_ge w 2 Hw) as Hpw. change (2 ^ Z.of_nat 2)%Z with 4%Z in Hpw. split.
  - unfold tfhe_rust, bootstrap, truth_table. rewrite !shl_bit by (cbn; lia).
    rewrite add_small by (destruct a, b; cbn; lia). destruct a, b; reflexivity.
  - unfold decompose, expand_lut. rewrite expand_lincomb_message. cbn [combine].
    assert (Hv : bootstrap_verify w table = true).
    { unfold bootstrap_verify. apply N.leb_le. pose proof (size_le_pow _ _ Hsize).
      assert (2 ^ N.of_nat 2 <= 2 ^ N.of_nat w) by (apply N.pow_le_mono_r; lia). cbn in *. lia. }
    rewrite Hv. unfold truth_table. f_equal. rewrite wrap_small by (destruct a, b; cbn; lia). destruct a, b; reflexivity.
Qed.
Print Assumptions C82_lut2.
Example C82_lut2_nonvacuous : decompose 2 (Lut2 true false 4) = Some true /\ decompose 2 (Lut2 false true 4) = Some false.
Proof. vm_compute. auto. Qed.

(** From the netlist: a $lut of up to three inputs. *)
Theorem C82_netlist ops lut a secret : In (TruthTable 3) ops -> (1 <= length a <= 3)%nat ->
  length secret = 3%nat -> existsb (fun s => s) secret = true ->
  exists ins table op, import_lut (techmap 3 lut a) = Some (ins, table) /\
    lower_truth_table (combine secret ins) table = Some op /\
    tfhe_rust (find_lut_size ops) op = yosys_lut lut a /\ decompose (find_lut_size ops) op = Some (yosys_lut lut a) /\
    jaxite op = Some (yosys_lut lut a).
Proof.
  intros Hin Ha Hs Hex. destruct (C82_import 3 lut a) as [ins [table [Hi [Hl [Hb Heq]]]]]; auto.
  destruct secret as [|s0 [|s1 [|s2 [|]]]]; try discriminate Hs. destruct ins as [|x [|y [|z [|]]]]; try discriminate Hl.
  destruct (C82_backends ops (combine [s0; s1; s2] [x; y; z]) table) as [op [Ho [Ht Hj]]]; auto.
  cbn [combine map snd length] in *. destruct (Hj eq_refl) as [Hd Hx].
  exists [x; y; z], table, op. rewrite <- Heq. auto.
Qed.
Print Assumptions C82_netlist.
Example C82_netlist_nonvacuous :
  import_lut (techmap 3 8 [true; true]) = Some ([false; true; true], 8) /\
  lower_truth_table (combine [false; true; false] [false; true; true]) 8 = Some (Lut3 false true true 8) /\ yosys_lut 8 [true; true] = true.
Proof. vm_compute. auto. Qed.

(** The gates that cggi-decompose-operations expands: if the resulting bootstrap verifies, it computes the gate; from two
    bits of plaintext on it does, with one bit it does not. *)
Theorem C82_gates w g a b :
  (forall r, expand_gate w g a b = Some r -> r = gate_bit g a b) /\
  (g = AND \/ g = OR \/ g = XOR -> (expand_gate w g a b = None <-> (w <= 1)%nat)).
Proof.
  assert (Hw : (w <= 1 \/ 2 <= w)%nat) by lia. destruct Hw as [Hw|Hw].
  - assert (Hw' : (w = 0 \/ w = 1)%nat) by lia. destruct Hw' as [-> | ->]; (split; [intro r; destruct g, a, b; cbn; discriminate|]);
      (intros [-> | [-> | ->]]; destruct a, b; cbn; split; auto; lia).
  - pose proof (pow_ge w 2 Hw) as Hp. change (2 ^ Z.of_nat 2)%Z with 4%Z in Hp.
    assert (Hm : add w (shl w (N.b2n b) 1) (N.b2n a) = 2 * N.b2n b + N.b2n a).
    { rewrite shl_bit by (cbn; lia). rewrite add_small by (destruct a, b; cbn; lia). destruct a, b; reflexivity. }
    assert (Hv : forall t, t < 2 ^ 4 -> bootstrap_verify w t = true).
    { intros t Ht. unfold bootstrap_verify. apply N.leb_le. apply size_le_pow in Ht.
      assert (2 ^ N.of_nat 2 <= 2 ^ N.of_nat w) by (apply N.pow_le_mono_r; lia). cbn in *. lia. }
    unfold expand_gate. rewrite Hm. split; [intro r|intro Hg].
    + destruct g; cbn [gate_table]; try discriminate; rewrite Hv by reflexivity; intro H; injection H as <-; destruct a, b; reflexivity.
    + destruct Hg as [-> | [-> | ->]]; cbn [gate_table]; rewrite Hv by reflexivity; split; [discriminate|lia|discriminate|lia|discriminate|lia].
Qed.
Print Assumptions C82_gates.
Example C82_gates_nonvacuous : expand_gate 2 XOR true true = Some false /\ expand_gate 3 OR false true = Some true /\ expand_gate 1 AND true true = None.
Proof. vm_compute. auto. Qed.

(** cggi.lut_lincomb with coefficients that are not negative and add up to less than 2^w. *)
Theorem C82_lincomb_partial w ins cs table : ins <> [] -> lincomb_verify w ins cs table = true ->
  (forall c, In c cs -> 0 <= c)%Z -> (fold_right Z.add 0 cs < 2 ^ Z.of_nat w)%Z ->
  expand_lincomb w ins cs table = Some (N.testbit table (Z.to_N (linear ins cs))).
Proof.
  intros Hne Hv Hpos Hsum. unfold lincomb_verify in Hv. apply andb_true_iff in Hv as [Hv Ht]. apply andb_true_iff in Hv as [Hlen _].
  apply Nat.eqb_eq in Hlen. rewrite expand_lincomb_message. destruct (combine ins cs) eqn:E.
  { destruct ins; [contradiction|]. destruct cs; [discriminate Hlen|discriminate E]. }
  unfold bootstrap_verify. rewrite Ht. f_equal. f_equal. apply wrap_small.
  assert (H : (0 <= linear ins cs <= fold_right Z.add 0 cs)%Z); [|lia].
  clear -Hpos Hlen. revert cs Hpos Hlen. induction ins as [|b ins IH]; intros [|c cs] Hpos Hlen; try discriminate Hlen; [cbn; lia|].
  unfold linear in *. cbn [combine map fold_right fst snd]. specialize (IH cs).
  assert (0 <= c)%Z by (apply Hpos; left; auto). destruct IH; [intros c' Hc'; apply Hpos; right; auto|injection Hlen; auto|].
  destruct b; cbn [Z.b2z]; lia.
Qed.
Print Assumptions C82_lincomb_partial.
Example C82_lincomb_nonvacuous : lincomb_verify 3 [true; true; false] [1; 2; 3]%Z 200 = true /\ expand_lincomb 3 [true; true; false] [1; 2; 3]%Z 200 = Some true.
Proof. vm_compute. auto. Qed.

(** The verifier bounds every coefficient, not their sum: an operation that it accepts can wrap around. *)
Theorem C82_lincomb_refuted : exists w ins cs table, lincomb_verify w ins cs table = true /\ (forall c, In c cs -> 0 <= c)%Z /\
  expand_lincomb w ins cs table <> Some (N.testbit table (Z.to_N (linear ins cs))).
Proof.
  exists 3%nat, [true; true; true; true], [1; 2; 3; 2]%Z, 69. split; [reflexivity|]. split; [cbn; intros c [<-|[<-|[<-|[<-|[]]]]]; lia|].
  vm_compute. discriminate.
Qed.
Print Assumptions C82_lincomb_refuted.

(** A lut3 on ciphertexts with two bits of plaintext, which no verifier refuses once it is expanded, loses its first input. *)
Theorem C82_narrow_refuted : exists c b a table r, table < 2 ^ 8 /\ decompose 2 (Lut3 c b a table) = Some r /\ r <> truth_table table [c; b; a].
Proof. exists true, false, false, 1, true. vm_compute. repeat split; auto. discriminate. Qed.
Print Assumptions C82_narrow_refuted.

(** A truth table on plaintexts is read with all inputs negated and in the opposite order. *)
Theorem C82_plain_exact ins table : table < 2 ^ (2 ^ N.of_nat (length ins)) ->
  plain_truth_table ins table = truth_table table (rev (map negb ins)).
Proof.
  intro H. unfold plain_truth_table. rewrite build_select_spec by (rewrite rev_length; auto). unfold truth_table. rewrite map_rev. reflexivity.
Qed.
Print Assumptions C82_plain_exact.
Example C82_plain_nonvacuous : plain_truth_table [true; false; false] 8 = false /\ plain_truth_table [false; false; true] 8 = true.
Proof. vm_compute. auto. Qed.
Theorem C82_plain_refuted : exists ins table, length ins = 3%nat /\ table < 2 ^ 8 /\ plain_truth_table ins table <> truth_table table ins.
Proof. exists [true; true; true], 128. vm_compute. repeat split; auto. discriminate. Qed.
Print Assumptions C82_plain_refuted.

(** Gates that boolean-vectorize packs keep their meaning on tfhe-rs. *)
Theorem C82_packed_gates ops i g l r : nth_error ops i = Some (g, l, r) ->
  nth_error (tfhe_packed (batch_gates ops)) i = Some (Some (gate_bit g l r)) /\ length (tfhe_packed (batch_gates ops)) = length ops.
Proof.
  intro H. assert (E : tfhe_packed (batch_gates ops) = map (fun o => Some (gate_bit (fst (fst o)) (snd (fst o)) (snd o))) ops).
  { clear H. unfold batch_gates, tfhe_packed. induction ops as [|[[g' l'] r'] ops IH]; [reflexivity|]. cbn [map combine fst snd]. f_equal; [destruct g'; reflexivity|exact IH]. }
  rewrite E, map_length. split; auto. rewrite nth_error_map, H. reflexivity.
Qed.
Print Assumptions C82_packed_gates.
Example C82_packed_gates_nonvacuous : tfhe_packed (batch_gates [(XNOR, true, true); (NOR, false, true); (NAND, true, true)]) = [Some true; Some false; Some false].
Proof. vm_compute. auto. Qed.

(** Tables that boolean-vectorize packs are read by jaxite with the inputs in the opposite order. *)
Theorem C82_pmap_exact ops p i c b a t : batch_lut3 ops = Some p -> nth_error ops i = Some (Lut3 c b a t) -> t < 2 ^ 8 ->
  nth_error (pmap_lut3 p) i = Some (Some (truth_table t [a; b; c])).
Proof.
  intros Hp Hi Ht.
  assert (H : nth_error (tables p) i = Some t /\ nth_error (opA p) i = Some c /\ nth_error (opB p) i = Some b /\ nth_error (opC p) i = Some a).
  { clear Ht. revert p i Hp Hi. induction ops as [|op ops IH]; intros p i Hp Hi; [destruct i; discriminate Hi|].
    cbn [batch_lut3 fold_right] in Hp. fold (batch_lut3 ops) in Hp. destruct op as [|c' b' a' t'|]; try discriminate Hp.
    destruct (batch_lut3 ops) as [p'|] eqn:E; [|discriminate Hp]. injection Hp as <-.
    destruct i as [|i]; cbn [nth_error tables opA opB opC] in *; [injection Hi as -> -> -> ->; auto|]. apply IH; auto. }
  destruct H as [H1 [H2 [H3 H4]]]. unfold pmap_lut3. rewrite nth_error_map.
  assert (Hl : (i < length (tables p))%nat) by (apply nth_error_Some; rewrite H1; discriminate).
  rewrite (nth_error_nth' _ 0%nat) by (rewrite seq_length; auto). rewrite seq_nth by auto. cbn [option_map Nat.add].
  rewrite H1, H2, H3, H4. f_equal. f_equal. unfold jaxite_lut3, truth_table. rewrite N.mod_small by exact Ht. f_equal. destruct a, b, c; reflexivity.
Qed.
Print Assumptions C82_pmap_exact.
Example C82_pmap_nonvacuous :
  option_map pmap_lut3 (batch_lut3 [Lut3 true true true 128; Lut3 true false false 16; Lut3 false false true 16]) = Some [Some true; Some false; Some true].
Proof. vm_compute. auto. Qed.
(** So a batch of tables does not compute what the single operations compute on the same backend. *)
Theorem C82_pmap_refuted : exists ops p i op, batch_lut3 ops = Some p /\ nth_error ops i = Some op /\
  nth_error (pmap_lut3 p) i <> Some (jaxite op).
Proof. eexists [Lut3 true true true 128; Lut3 true false false 16], _, 1%nat, _. split; [reflexivity|]. split; [reflexivity|]. vm_compute. discriminate. Qed.
Print Assumptions C82_pmap_refuted.
