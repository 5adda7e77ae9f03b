(** C91: fusion of convolutions with sum poolings; poolings and dilated convolutions as convolutions. *)
From Coq Require Import List Bool ZArith Lia Ring QArith Qcanon.
From Verif Require Import Kernel_Model Kernel_Spec Conv_Spec Conv_Proofs ConvPool_Spec ConvPool_Model ConvPool_Proofs.
Import ListNotations.
Local Open Scope Z_scope.

(** The sizes that linalg allows. *)
Definition sizes (conv : conv_params) (pool : pool_params) : Prop :=
  0 <= cF conv /\ 0 <= cC conv /\ 1 <= ckH conv /\ 1 <= ckW conv /\ 1 <= pH pool /\ 1 <= pW pool /\
  1 <= cstrideH conv /\ 1 <= cstrideW conv /\ 1 <= cdilationH conv /\ 1 <= cdilationW conv /\ 1 <= pdilationH pool /\ 1 <= pdilationW pool.
(** The value of the pooling of the convolution. *)
Definition cascade (K : cring) (conv : conv_params) (pool : pool_params) (values : list K) (x init pinit : tensor3 K) : tensor3 K :=
  pool2 K (pH pool) (pW pool) (pstrideH pool) (pstrideW pool) (pdilationH pool) (pdilationW pool)
    (conv2 K (cC conv) (ckH conv) (ckW conv) (cstrideH conv) (cstrideW conv) (cdilationH conv) (cdilationW conv)
      (entry4 K (cC conv) (ckH conv) (ckW conv) values) x init) pinit.
(** Uses on which the rewriting is right: no linalg.generic, or one that reads the pooling element by element and yields the
    product or quotient. *)
Definition plain (K : cring) (u : use K) : Prop :=
  match u with Generic ins _ read _ _ _ yielded => ins = Pooled /\ (forall i, read i = i) /\ yielded = First | _ => True end.

(** The new convolution has the value of the operation that it replaces: the pooling, or its scaling. *)
Theorem C91_fusion_partial (K : cring) (divide : K -> K -> K) is_float conv pool values user :
  (forall a b, divide a b = rmul K a (divide (r1 K) b)) ->
  sizes conv pool -> Z.of_nat (length values) = cF conv * cC conv * ckH conv * ckW conv ->
  (forall u, user = Some u -> plain K u) ->
  exists fc, fuse K divide is_float values conv pool user = Some fc /\
    Z.of_nat (length (fc_filter K fc)) = cF conv * cC conv * fc_kH K fc * fc_kW K fc /\
    (fc_replaces_use K fc = true -> user <> None) /\
    forall x init pinit f oh ow, 0 <= f < cF conv ->
    fused_value K divide fc (cC conv) pool user x init pinit f oh ow =
    match user, fc_replaces_use K fc with
    | Some u, true => use_value K divide u (cascade K conv pool values x init pinit) f oh ow
    | _, _ => cascade K conv pool values x init pinit f oh ow
    end.
Proof.
  intros Hd (HF & HC & H1 & H2 & H3 & H4 & H5 & H6 & H7 & H8 & H9 & H10) L Hp. unfold fuse.
  set (scale := if is_float then match user with Some u => match_scaling K divide u | None => None end else None).
  set (factor := match scale with Some s => s | None => r1 K end).
  destruct (fused_entries K conv pool H1 H2 H3 H4 HF HC H5 H6 H7 H8 H9 H10 values (fun w => if is_float then rmul K w factor else w) L) as (l & E & Ll & _).
  rewrite E. eexists. split; [reflexivity|]. cbn [fc_filter fc_kH fc_kW fc_replaces_use]. split; [exact Ll|]. split.
  { unfold scale. destruct is_float, user; try discriminate; intros ?; discriminate. }
  intros x init pinit f oh ow Hf. unfold fused_value. cbn [fc_filter fc_kH fc_kW fc_strideH fc_strideW fc_dilationH fc_dilationW fc_init_scaled].
  pose proof (fused_conv_value K conv pool H1 H2 H3 H4 HF HC H5 H6 H7 H8 H9 H10 values (fun w => if is_float then rmul K w factor else w) factor l L) as V.
  assert (Sc : forall w, (if is_float then rmul K w factor else w) = rmul K w factor).
  { intros w. unfold factor, scale. destruct is_float; [easy|]. rewrite (Rmul_comm (r_ok K)). symmetry. apply (Rmul_1_l (r_ok K)). }
  specialize (V Sc E x init pinit).
  destruct scale as [s|] eqn:Es.
  - destruct is_float; [|discriminate Es]. destruct user as [u|]; [|discriminate Es]. specialize (Hp u eq_refl). unfold scale in Es. cbn [negb].
    assert (U : forall p : tensor3 K, use_value K divide u p f oh ow = rmul K (p f oh ow) s).
    { intros p. destruct u as [division a b|ins outs rd division a b yielded|]; [| |discriminate Es].
      - destruct a; try discriminate Es. destruct b as [|d|]; try discriminate Es. cbn in Es |- *. injection Es as <-. unfold operate, get_scale.
        destruct division; [apply Hd|easy].
      - destruct Hp as (-> & R & ->). destruct a; try discriminate Es. destruct b as [| | |d]; try discriminate Es. cbn in Es |- *. rewrite R. injection Es as <-.
        unfold operate, get_scale. cbn. destruct division; [apply Hd|easy]. }
    rewrite (V _ f oh ow Hf (U _)). rewrite (U (cascade K conv pool values x init pinit)). reflexivity.
  - assert (D : (match user with Some u => cascade K conv pool values x init pinit f oh ow | None => cascade K conv pool values x init pinit f oh ow end) =
      rmul K (cascade K conv pool values x init pinit f oh ow) factor).
    { unfold factor. transitivity (cascade K conv pool values x init pinit f oh ow); [now destruct user|].
      rewrite (Rmul_comm (r_ok K)). symmetry. apply (Rmul_1_l (r_ok K)). }
    rewrite D. apply V; [exact Hf|]. unfold factor. rewrite (Rmul_comm (r_ok K)). symmetry. apply (Rmul_1_l (r_ok K)).
Qed.
Print Assumptions C91_fusion_partial.

(** Products and quotients of the pooling by a constant are folded for floats, nothing for integers. *)
Theorem C91_folded (K : cring) (divide : K -> K -> K) is_float conv pool values u fc c division :
  u = Arith division Pooled (Splat c) -> fuse K divide is_float values conv pool (Some u) = Some fc ->
  fc_replaces_use K fc = is_float.
Proof. intros -> E. unfold fuse in E. destruct is_float; cbn in E; destruct (fuse_filters _ _ _ _ _) in E; try discriminate E; injection E as <-; reflexivity. Qed.
Print Assumptions C91_folded.

(** The new convolution reads inside of the input when the old operations do (the heights; widths are treated alike). *)
Theorem C91_in_bounds conv pool H Hc oh : sizes conv pool ->
  (forall o k, 0 <= o < Hc -> 0 <= k < ckH conv -> o * cstrideH conv + k * cdilationH conv < H) ->
  (forall i, 0 <= i < pH pool -> 0 <= oh * pstrideH pool + i * pdilationH pool < Hc) ->
  forall u, 0 <= u < effective_height conv pool -> 0 <= oh * (cstrideH conv * pstrideH pool) + u < H.
Proof.
  intros (HF & HC & H1 & H2 & H3 & H4 & H5 & H6 & H7 & H8 & H9 & H10) Hi Ho u Hu.
  pose proof (Ho 0 ltac:(lia)) as Ho0. pose proof (Ho (pH pool - 1) ltac:(lia)) as Ho1. pose proof (Hi _ (ckH conv - 1) Ho1 ltac:(lia)) as Hm.
  unfold effective_height in Hu. assert (0 <= oh * pstrideH pool * cstrideH conv) by (apply Z.mul_nonneg_nonneg; lia). lia.
Qed.
Print Assumptions C91_in_bounds.
Theorem C91_in_bounds_width conv pool W Wc ow : sizes conv pool ->
  (forall o k, 0 <= o < Wc -> 0 <= k < ckW conv -> o * cstrideW conv + k * cdilationW conv < W) ->
  (forall i, 0 <= i < pW pool -> 0 <= ow * pstrideW pool + i * pdilationW pool < Wc) ->
  forall u, 0 <= u < effective_width conv pool -> 0 <= ow * (cstrideW conv * pstrideW pool) + u < W.
Proof.
  intros (HF & HC & H1 & H2 & H3 & H4 & H5 & H6 & H7 & H8 & H9 & H10) Hi Ho u Hu.
  pose proof (Ho 0 ltac:(lia)) as Ho0. pose proof (Ho (pW pool - 1) ltac:(lia)) as Ho1. pose proof (Hi _ (ckW conv - 1) Ho1 ltac:(lia)) as Hm.
  unfold effective_width in Hu. assert (0 <= ow * pstrideW pool * cstrideW conv) by (apply Z.mul_nonneg_nonneg; lia). lia.
Qed.
Print Assumptions C91_in_bounds_width.

Definition conv_112 := {| cF := 1; cC := 1; ckH := 1; ckW := 2; cstrideH := 1; cstrideW := 1; cdilationH := 1; cdilationW := 2 |}.
Definition pool_12 := {| pH := 1; pW := 2; pstrideH := 1; pstrideW := 2; pdilationH := 1; pdilationW := 1 |}.
Definition row (l : list Z) : tensor3 Zcring := fun _ _ j => nth (Z.to_nat j) l 0.
Example C91_nonvacuous : sizes conv_112 pool_12 /\
  (exists fc, fuse Zcring Z.div true [3; 10] conv_112 pool_12 (Some (Arith false Pooled (@Splat Zcring 2))) = Some fc /\
    fc_filter Zcring fc = [6; 6; 20; 20] /\ fc_kH Zcring fc = 1 /\ fc_kW Zcring fc = 4 /\ fc_strideW Zcring fc = 2 /\ fc_replaces_use Zcring fc = true /\
    map (fused_value Zcring Z.div fc 1 pool_12 (Some (Arith false Pooled (@Splat Zcring 2))) (row [1; 2; 3; 4; 5; 6]) (row [7; 7; 8; 8]) (row [100; 200]) 0 0) [0; 1] = [386; 694] /\
    map (cascade Zcring conv_112 pool_12 [3; 10] (row [1; 2; 3; 4; 5; 6]) (row [7; 7; 8; 8]) (row [100; 200]) 0 0) [0; 1] = [193; 347]).
Proof.
  split; [unfold sizes; cbn; repeat split; intros E; discriminate E|].
  eexists. split; [vm_compute; reflexivity|]. vm_compute. repeat split.
Qed.
Definition Qcring : cring := {| car := Qc; r0 := 0%Qc; r1 := 1%Qc; radd := Qcplus; rmul := Qcmult; rsub := Qcminus; ropp := Qcopp; r_ok := Qcrt |}.
Lemma Qc_divide (a b : Qc) : Qcdiv a b = Qcmult a (Qcdiv 1 b).
Proof. unfold Qcdiv. now rewrite Qcmult_1_l. Qed.
Example C91_divide_nonvacuous : (forall a b : Qcring, Qcdiv a b = rmul Qcring a (Qcdiv (r1 Qcring) b)) /\
  (exists fc, fuse Qcring Qcdiv true [Q2Qc 3; Q2Qc 10] conv_112 pool_12 (Some (Arith true Pooled (@Splat Qcring (Q2Qc 4)))) = Some fc /\
    map this (fc_filter Qcring fc) = [3 # 4; 3 # 4; 5 # 2; 5 # 2]%Q /\ fc_replaces_use Qcring fc = true).
Proof. split; [exact Qc_divide|]. eexists. split; [reflexivity|]. vm_compute. split; reflexivity. Qed.

(** The scaling is recognised without looking at what the linalg.generic reads: here the pooling is its output, which the body does not use. *)
Theorem C91_generic_input_refuted : exists u fc x init pinit,
  fuse Zcring Z.div true [1] {| cF := 1; cC := 1; ckH := 1; ckW := 1; cstrideH := 1; cstrideW := 1; cdilationH := 1; cdilationW := 1 |}
    {| pH := 1; pW := 1; pstrideH := 1; pstrideW := 1; pdilationH := 1; pdilationW := 1 |} (Some u) = Some fc /\ fc_replaces_use Zcring fc = true /\
  u = Generic (Other (row [5])) Pooled (fun i => i) false Arg0 (@Cst Zcring 2) First /\
  fused_value Zcring Z.div fc 1 {| pH := 1; pW := 1; pstrideH := 1; pstrideW := 1; pdilationH := 1; pdilationW := 1 |} (Some u) x init pinit 0 0 0 <>
  use_value Zcring Z.div u (cascade Zcring {| cF := 1; cC := 1; ckH := 1; ckW := 1; cstrideH := 1; cstrideW := 1; cdilationH := 1; cdilationW := 1 |}
    {| pH := 1; pW := 1; pstrideH := 1; pstrideW := 1; pdilationH := 1; pdilationW := 1 |} [1] x init pinit) 0 0 0.
Proof.
  exists (Generic (Other (row [5])) Pooled (fun i => i) false Arg0 (@Cst Zcring 2) First). eexists. exists (row [3]), (row [0]), (row [0]).
  split; [vm_compute; reflexivity|]. split; [reflexivity|]. split; [reflexivity|]. vm_compute. intros E. discriminate E.
Qed.
Print Assumptions C91_generic_input_refuted.
(** Nor at what it yields. *)
Theorem C91_generic_yield_refuted : exists u fc x init pinit,
  fuse Zcring Z.div true [1] {| cF := 1; cC := 1; ckH := 1; ckW := 1; cstrideH := 1; cstrideW := 1; cdilationH := 1; cdilationW := 1 |}
    {| pH := 1; pW := 1; pstrideH := 1; pstrideW := 1; pdilationH := 1; pdilationW := 1 |} (Some u) = Some fc /\ fc_replaces_use Zcring fc = true /\
  u = Generic Pooled (Other (row [5])) (fun i => i) false Arg0 (@Cst Zcring 2) Arg0 /\
  fused_value Zcring Z.div fc 1 {| pH := 1; pW := 1; pstrideH := 1; pstrideW := 1; pdilationH := 1; pdilationW := 1 |} (Some u) x init pinit 0 0 0 <>
  use_value Zcring Z.div u (cascade Zcring {| cF := 1; cC := 1; ckH := 1; ckW := 1; cstrideH := 1; cstrideW := 1; cdilationH := 1; cdilationW := 1 |}
    {| pH := 1; pW := 1; pstrideH := 1; pstrideW := 1; pdilationH := 1; pdilationW := 1 |} [1] x init pinit) 0 0 0.
Proof.
  exists (Generic Pooled (Other (row [5])) (fun i => i) false Arg0 (@Cst Zcring 2) Arg0). eexists. exists (row [3]), (row [0]), (row [0]).
  split; [vm_compute; reflexivity|]. split; [reflexivity|]. split; [reflexivity|]. vm_compute. intros E. discriminate E.
Qed.
Print Assumptions C91_generic_yield_refuted.
(** Nor at its indexing maps: here it reverses the rows. *)
Theorem C91_generic_map_refuted : exists u fc x init pinit,
  fuse Zcring Z.div true [1] {| cF := 1; cC := 1; ckH := 1; ckW := 1; cstrideH := 1; cstrideW := 1; cdilationH := 1; cdilationW := 1 |}
    {| pH := 1; pW := 1; pstrideH := 1; pstrideW := 1; pdilationH := 1; pdilationW := 1 |} (Some u) = Some fc /\ fc_replaces_use Zcring fc = true /\
  u = Generic Pooled (Other (row [5])) (fun i => (fst (fst i), snd (fst i), 1 - snd i)) false Arg0 (@Cst Zcring 2) First /\
  fused_value Zcring Z.div fc 1 {| pH := 1; pW := 1; pstrideH := 1; pstrideW := 1; pdilationH := 1; pdilationW := 1 |} (Some u) x init pinit 0 0 0 <>
  use_value Zcring Z.div u (cascade Zcring {| cF := 1; cC := 1; ckH := 1; ckW := 1; cstrideH := 1; cstrideW := 1; cdilationH := 1; cdilationW := 1 |}
    {| pH := 1; pW := 1; pstrideH := 1; pstrideW := 1; pdilationH := 1; pdilationW := 1 |} [1] x init pinit) 0 0 0.
Proof.
  exists (Generic Pooled (Other (row [5])) (fun i => (fst (fst i), snd (fst i), 1 - snd i)) false Arg0 (@Cst Zcring 2) First). eexists. exists (row [3; 4]), (row [0]), (row [0]).
  split; [vm_compute; reflexivity|]. split; [reflexivity|]. split; [reflexivity|]. vm_compute. intros E. discriminate E.
Qed.
Print Assumptions C91_generic_map_refuted.

(** ** Poolings as convolutions *)
Theorem C91_pool_as_conv_2d_partial (K : cring) (divide : K -> K -> K) C kh kw user :
  (forall a b, divide a b = rmul K a (divide (r1 K) b)) -> 0 <= C -> 1 <= kh -> 1 <= kw ->
  (forall d, user <> Some (Arith true (Splat d) Pooled)) ->
  exists l folded, average_pool2 K divide C kh kw user = Some (l, folded) /\ Z.of_nat (length l) = C * C * kh * kw /\
    (folded = true -> user <> None) /\
    forall sh sw dh dw x init f oh ow, 0 <= f < C -> (folded = true -> init f oh ow = r0 K) ->
    conv2 K C kh kw sh sw dh dw (entry4 K C kh kw l) x init f oh ow =
    match user, folded with
    | Some u, true => use_value K divide u (pool2 K kh kw sh sw dh dw x init) f oh ow
    | _, _ => pool2 K kh kw sh sw dh dw x init f oh ow
    end.
Proof.
  intros Hd HC Hkh Hkw Hu. unfold average_pool2. destruct (average K divide user) as [avg folded] eqn:A.
  destruct (average2_entries K C kh kw avg HC ltac:(lia) ltac:(lia)) as (l & E & L & _). rewrite E. exists l, folded. split; [reflexivity|]. split; [exact L|].
  assert (D : (exists d, user = Some (Arith true Pooled (Splat d)) /\ avg = divide (r1 K) d /\ folded = true) \/ (avg = r1 K /\ folded = false)).
  { destruct user as [[[|] [|c|t] [|d|t']|? ? ? ? ? ? ?|]|]; cbn in A; try (injection A as <- <-; now right).
    - injection A as <- <-. left. now exists d.
    - exfalso. now apply (Hu c). }
  split; [destruct D as [(d & -> & _ & ->)|[_ ->]]; intros ?; discriminate|].
  intros sh sw dh dw x init f oh ow Hf Hi. rewrite (average2_value K C kh kw avg l HC ltac:(lia) ltac:(lia) E) by easy.
  destruct D as [(d & -> & -> & ->)|[-> ->]].
  - cbn [use_value value_of operate]. unfold pool2. rewrite (Hi eq_refl). rewrite !(Radd_0_l (r_ok K)). symmetry. apply Hd.
  - transitivity (pool2 K kh kw sh sw dh dw x init f oh ow); [|now destruct user]. unfold pool2. f_equal. rewrite (Rmul_comm (r_ok K)). apply (Rmul_1_l (r_ok K)).
Qed.
Print Assumptions C91_pool_as_conv_2d_partial.

Theorem C91_pool_as_conv_1d_partial (K : cring) (divide : K -> K -> K) C kw user :
  (forall a b, divide a b = rmul K a (divide (r1 K) b)) -> 0 <= C -> 1 <= kw ->
  (forall d, user <> Some (Arith true (Splat d) Pooled)) ->
  exists l folded, average_pool1 K divide C kw user = Some (l, folded) /\ Z.of_nat (length l) = C * C * kw /\
    (folded = true -> user <> None) /\
    forall s d x init f o, 0 <= f < C -> (folded = true -> init f o = r0 K) ->
    conv1 K C kw s d (entry3 K C kw l) x init f o =
    match user, folded with
    | Some u, true => use_value K divide u (fun c _ o => pool1 K kw s d x init c o) f 0 o
    | _, _ => pool1 K kw s d x init f o
    end.
Proof.
  intros Hd HC Hkw Hu. unfold average_pool1. destruct (average K divide user) as [avg folded] eqn:A.
  destruct (average1_entries K C kw avg HC ltac:(lia)) as (l & E & L & _). rewrite E. exists l, folded. split; [reflexivity|]. split; [exact L|].
  assert (D : (exists d, user = Some (Arith true Pooled (Splat d)) /\ avg = divide (r1 K) d /\ folded = true) \/ (avg = r1 K /\ folded = false)).
  { destruct user as [[[|] [|c|t] [|d|t']|? ? ? ? ? ? ?|]|]; cbn in A; try (injection A as <- <-; now right).
    - injection A as <- <-. left. now exists d.
    - exfalso. now apply (Hu c). }
  split; [destruct D as [(d & -> & _ & ->)|[_ ->]]; intros ?; discriminate|].
  intros s d x init f o Hf Hi. rewrite (average1_value K C kw avg l HC ltac:(lia) E) by easy.
  destruct D as [(e & -> & -> & ->)|[-> ->]].
  - cbn [use_value value_of operate]. unfold pool1. rewrite (Hi eq_refl). rewrite !(Radd_0_l (r_ok K)). symmetry. apply Hd.
  - transitivity (pool1 K kw s d x init f o); [|now destruct user]. unfold pool1. f_equal. rewrite (Rmul_comm (r_ok K)). apply (Rmul_1_l (r_ok K)).
Qed.
Print Assumptions C91_pool_as_conv_1d_partial.
(** Every division of the pooling by a constant is folded. *)
Theorem C91_average_folded (K : cring) (divide : K -> K -> K) C kh kw d l folded :
  average_pool2 K divide C kh kw (Some (Arith true Pooled (Splat d))) = Some (l, folded) -> folded = true.
Proof. unfold average_pool2. cbn [average]. destruct (average_kernel2 _ _ _ _ _); [|discriminate]. intros E. now injection E. Qed.
Print Assumptions C91_average_folded.
Theorem C91_average_folded_1d (K : cring) (divide : K -> K -> K) C kw d l folded :
  average_pool1 K divide C kw (Some (Arith true Pooled (Splat d))) = Some (l, folded) -> folded = true.
Proof. unfold average_pool1. cbn [average]. destruct (average_kernel1 _ _ _ _); [|discriminate]. intros E. now injection E. Qed.
Print Assumptions C91_average_folded_1d.

Example C91_average_nonvacuous : exists l, average_pool2 Qcring Qcdiv 2 1 2 (Some (Arith true Pooled (@Splat Qcring (Q2Qc 2)))) = Some (l, true) /\
  map this l = [1 # 2; 1 # 2; 0; 0; 0; 0; 1 # 2; 1 # 2]%Q.
Proof. eexists. split; [reflexivity|]. vm_compute. reflexivity. Qed.
Example C91_pool_nonvacuous : exists l, average_pool1 Zcring Z.div 2 2 None = Some (l, false) /\ l = [1; 1; 0; 0; 0; 0; 1; 1] /\
  map (conv1 Zcring 2 2 2 1 (entry3 Zcring 2 2 l) (fun c i => 100 * c + i) (fun _ _ => 7) 1) [0; 1] = [208; 212] /\
  map (pool1 Zcring 2 2 1 (fun c i => 100 * c + i) (fun _ _ => 7) 1) [0; 1] = [208; 212].
Proof. eexists. split; [vm_compute; reflexivity|]. vm_compute. repeat split. Qed.

(** A division of a constant by the pooling is taken for a division of the pooling by the constant. *)
Theorem C91_divisor_refuted : exists l x init,
  average_pool2 Qcring Qcdiv 1 1 1 (Some (Arith true (@Splat Qcring (Q2Qc 2)) Pooled)) = Some (l, true) /\ (forall c i j, init c i j = r0 Qcring) /\
  conv2 Qcring 1 1 1 1 1 1 1 (entry4 Qcring 1 1 1 l) x init 0 0 0 <>
  use_value Qcring Qcdiv (Arith true (@Splat Qcring (Q2Qc 2)) Pooled) (pool2 Qcring 1 1 1 1 1 1 x init) 0 0 0.
Proof.
  exists [Qcdiv 1%Qc (Q2Qc 2)], (fun _ _ _ => Q2Qc 1), (fun _ _ _ => r0 Qcring). split.
  - reflexivity.
  - split; [easy|]. intros E. apply (f_equal this) in E. vm_compute in E. discriminate E.
Qed.
Print Assumptions C91_divisor_refuted.
(** The initial value of an averaged pooling is not divided. *)
Theorem C91_average_init_refuted : exists l x init,
  average_pool2 Qcring Qcdiv 1 1 1 (Some (Arith true Pooled (@Splat Qcring (Q2Qc 2)))) = Some (l, true) /\
  conv2 Qcring 1 1 1 1 1 1 1 (entry4 Qcring 1 1 1 l) x init 0 0 0 <>
  use_value Qcring Qcdiv (Arith true Pooled (@Splat Qcring (Q2Qc 2))) (pool2 Qcring 1 1 1 1 1 1 x init) 0 0 0.
Proof.
  exists [Qcdiv 1%Qc (Q2Qc 2)], (fun _ _ _ => Q2Qc 1), (fun _ _ _ => Q2Qc 1). split.
  - reflexivity.
  - intros E. apply (f_equal this) in E. vm_compute in E. discriminate E.
Qed.
Print Assumptions C91_average_init_refuted.

(** ** Dilated convolutions *)
Theorem C91_undilate_2d (K : cring) F C kh kw sh sw dh dw input :
  0 <= F -> 0 <= C -> 1 <= kh -> 1 <= kw -> 1 <= dh -> 1 <= dw -> dh <> 1 \/ dw <> 1 -> Z.of_nat (length input) = F * C * kh * kw ->
  exists l, undilate2 K F C kh kw dh dw input = Some l /\ Z.of_nat (length l) = F * C * (dh * (kh - 1) + 1) * (dw * (kw - 1) + 1) /\
    forall x init f oh ow, 0 <= f < F ->
    conv2 K C (dh * (kh - 1) + 1) (dw * (kw - 1) + 1) sh sw 1 1 (entry4 K C (dh * (kh - 1) + 1) (dw * (kw - 1) + 1) l) x init f oh ow =
    conv2 K C kh kw sh sw dh dw (entry4 K C kh kw input) x init f oh ow.
Proof.
  intros HF HC Hkh Hkw Hdh Hdw Hd L. destruct (undilate2_entries K F C kh kw dh dw input HF HC Hkh Hkw Hdh Hdw Hd L) as (l & E & Ll & _).
  exists l. split; [exact E|]. split; [exact Ll|]. intros. now apply (undilate2_value K F C kh kw sh sw dh dw input l).
Qed.
Print Assumptions C91_undilate_2d.
Theorem C91_undilate_1d (K : cring) F C kw s d input :
  0 <= F -> 0 <= C -> 1 <= kw -> 2 <= d -> Z.of_nat (length input) = F * C * kw ->
  exists l, undilate1 K F C kw d input = Some l /\ Z.of_nat (length l) = F * C * (d * (kw - 1) + 1) /\
    forall x init f o, 0 <= f < F ->
    conv1 K C (d * (kw - 1) + 1) s 1 (entry3 K C (d * (kw - 1) + 1) l) x init f o = conv1 K C kw s d (entry3 K C kw input) x init f o.
Proof.
  intros HF HC Hkw Hd L. destruct (undilate1_entries K F C kw d input HF HC Hkw ltac:(lia) ltac:(lia) L) as (l & E & Ll & _).
  exists l. split; [exact E|]. split; [exact Ll|]. intros. apply (undilate1_value K F C kw s d input l); auto. lia.
Qed.
Print Assumptions C91_undilate_1d.
Example C91_undilate_nonvacuous : undilate1 Zcring 1 2 2 3 [1; 2; 3; 4] = Some [1; 0; 0; 2; 3; 0; 0; 4] /\
  undilate2 Zcring 1 1 2 2 2 1 [1; 2; 3; 4] = Some [1; 2; 0; 0; 3; 4] /\
  conv2 Zcring 1 2 2 1 1 2 1 (entry4 Zcring 1 2 2 [1; 2; 3; 4]) (fun _ i j => 10 * i + j) (fun _ _ _ => 5) 0 1 1 =
  conv2 Zcring 1 3 2 1 1 1 1 (entry4 Zcring 1 3 2 [1; 2; 0; 0; 3; 4]) (fun _ i j => 10 * i + j) (fun _ _ _ => 5) 0 1 1 /\
  conv2 Zcring 1 2 2 1 1 2 1 (entry4 Zcring 1 2 2 [1; 2; 3; 4]) (fun _ i j => 10 * i + j) (fun _ _ _ => 5) 0 1 1 = 261.
Proof. vm_compute. repeat split. Qed.
