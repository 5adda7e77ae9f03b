(** Model of the fusion of convolutions with sum poolings and of the rewriting of sum poolings and dilated convolutions as
    convolutions: lib/Transforms/LinalgCanonicalizations/ConvPoolFusion.cpp and
    lib/Transforms/LinalgCanonicalizations/LinalgCanonicalizations.cpp:670-1008,1200-1360.

    Simplified: elements are those of a commutative ring, so APInt arithmetic is covered as arithmetic modulo 2^width and
    APFloat arithmetic without its rounding; sizes are unbounded integers instead of int64_t; attributes that are absent
    are given as ones (926-935); the checks that filters are constants with static shapes and that the batch is one element
    are not repeated, a filter is given by its elements; insertion points are left out. *)
From Coq Require Import List Bool ZArith.
From Verif Require Import Kernel_Model Conv_Spec ConvPool_Spec.
Import ListNotations.
Local Open Scope Z_scope.

(** ConvPoolFusion.h:21-30 struct Conv2DSizeParams *)
Record conv_params := { cF : Z; cC : Z; ckH : Z; ckW : Z; cstrideH : Z; cstrideW : Z; cdilationH : Z; cdilationW : Z }.
(** ConvPoolFusion.h:33-40 struct Pool2DSizeParams *)
Record pool_params := { pH : Z; pW : Z; pstrideH : Z; pstrideW : Z; pdilationH : Z; pdilationW : Z }.

(** ConvPoolFusion.cpp:40-44 getEffectiveKernelHeight *)
Definition effective_height (conv : conv_params) (pool : pool_params) : Z :=
  (pH pool - 1) * pdilationH pool * cstrideH conv + (ckH conv - 1) * cdilationH conv + 1.
(** ConvPoolFusion.cpp:46-50 getEffectiveKernelWidth *)
Definition effective_width (conv : conv_params) (pool : pool_params) : Z :=
  (pW pool - 1) * pdilationW pool * cstrideW conv + (ckW conv - 1) * cdilationW conv + 1.

Section Fuse.
  Variable K : cring.
  Notation R := (car K).

  (** for (int64_t i = 0; i < n; ++i) body, where None is an access outside of an array *)
  Fixpoint for_each {A S} (l : list A) (body : A -> S -> option S) (s : S) : option S :=
    match l with
    | [] => Some s
    | a :: l => match body a s with Some s => for_each l body s | None => None end
    end.
  (** Reading and writing an element of an array; None outside of it *)
  Definition read (l : list R) (i : Z) : option R := if i <? 0 then None else nth_error l (Z.to_nat i).
  Fixpoint put (l : list R) (n : nat) (v : R) : list R :=
    match l, n with
    | [], _ => []
    | _ :: l, O => v :: l
    | a :: l, S n => a :: put l n v
    end.
  Definition write (l : list R) (i : Z) (v : R) : option (list R) :=
    if (i <? 0) || (Z.of_nat (length l) <=? i) then None else Some (put l (Z.to_nat i) v).

  (** ConvPoolFusion.cpp:54-102 fuseFiltersImpl; the sizes kEffH, kEffW are computed as in 110-111 and 127-128 *)
  Definition fuse_filters (values : list R) (conv : conv_params) (pool : pool_params) (scale : R -> R) : option (list R) :=
    let kEffH := effective_height conv pool in
    let kEffW := effective_width conv pool in
    for_each (upto (cF conv)) (fun f =>
    for_each (upto (cC conv)) (fun c =>
    for_each (upto (pH pool)) (fun ph =>
    for_each (upto (pW pool)) (fun pw =>
    for_each (upto (ckH conv)) (fun kh =>
    for_each (upto (ckW conv)) (fun kw fused =>
      let u := ph * pdilationH pool * cstrideH conv + kh * cdilationH conv in
      let v := pw * pdilationW pool * cstrideW conv + kw * cdilationW conv in
      let srcIdx := ((f * cC conv + c) * ckH conv + kh) * ckW conv + kw in
      let dstIdx := ((f * cC conv + c) * kEffH + u) * kEffW + v in
      match read values srcIdx, read fused dstIdx with
      | Some weight, Some old => write fused dstIdx (radd K old (scale weight))
      | _, _ => None
      end))))))
      (repeat (r0 K) (Z.to_nat (cF conv * cC conv * kEffH * kEffW))).

  Variable divide : R -> R -> R.

  (** ConvPoolFusion.cpp:169-183 getScale of matchScalingFactor, for an operand that is a splat constant *)
  Definition get_scale (division : bool) (val : R) : R := if division then divide (r1 K) val else val.

  (** ConvPoolFusion.cpp:167-217 matchScalingFactor. As in the code, nothing is asked of a generic's operands, indexing maps
      and yield. *)
  Definition match_scaling (u : use K) : option R :=
    match u with
    | Arith division a b =>
        match a, b with
        | Pooled, Splat c => Some (get_scale division c)
        | _, _ => None
        end
    | Generic _ _ _ division a b _ =>
        match a, b with
        | Arg0, Cst c => Some (get_scale division c)
        | _, _ => None
        end
    | Unrelated => None
    end.

  (** The convolution that FuseConv2DPooling makes *)
  Record fused_conv := { fc_filter : list R; fc_kH : Z; fc_kW : Z; fc_strideH : Z; fc_strideW : Z;
    fc_dilationH : Z; fc_dilationW : Z; fc_init_scaled : bool; fc_replaces_use : bool }.

  (** LinalgCanonicalizations.cpp:867-1008 FuseConv2DPooling::matchAndRewrite (942-1006). [user] is the only use of the pooling,
      if there is only one. For integers (947) there is no scaling. The value of the scale is multiplied on the weights
      (ConvPoolFusion.cpp:113-117), for integers the weights stay (131). *)
  Definition fuse (is_float : bool) (values : list R) (conv : conv_params) (pool : pool_params) (user : option (use K)) : option fused_conv :=
    let scale := if is_float then match user with Some u => match_scaling u | None => None end else None in
    let fold := match scale with Some _ => true | None => false end in
    let factor := match scale with Some s => s | None => r1 K end in
    match fuse_filters values conv pool (fun w => if is_float then rmul K w factor else w) with
    | Some filter => Some {| fc_filter := filter; fc_kH := effective_height conv pool; fc_kW := effective_width conv pool;
        fc_strideH := cstrideH conv * pstrideH pool; fc_strideW := cstrideW conv * pstrideW pool;
        fc_dilationH := 1; fc_dilationW := 1; fc_init_scaled := fold; fc_replaces_use := fold |}
    | None => None
    end.

  (** LinalgCanonicalizations.cpp:976-998: the value of the new operations: the pooling of the initial value of the convolution, added to
      the initial value of the pooling, on which the use is cloned (986-991), is the initial value of the new convolution. *)
  Definition fused_value (fc : fused_conv) (C : Z) (pool : pool_params) (user : option (use K)) (x init pinit : tensor3 K) : tensor3 K :=
    let pooled := pool2 K (pH pool) (pW pool) (pstrideH pool) (pstrideW pool) (pdilationH pool) (pdilationW pool) init pinit in
    let start := if fc_init_scaled fc then match user with Some u => use_value K divide u pooled | None => pooled end else pooled in
    conv2 K C (fc_kH fc) (fc_kW fc) (fc_strideH fc) (fc_strideW fc) (fc_dilationH fc) (fc_dilationW fc)
      (entry4 K C (fc_kH fc) (fc_kW fc) (fc_filter fc)) x start.

  (** LinalgCanonicalizations.cpp:693-713 and 779-799: the value that the kernel is filled with, and whether the division is replaced:
      the operand of the division that is not the pooling is to be a splat constant. *)
  Definition average (user : option (use K)) : R * bool :=
    match user with
    | Some (Arith true Pooled (Splat d)) | Some (Arith true (Splat d) Pooled) => (divide (r1 K) d, true)
    | _ => (r1 K, false)
    end.
  (** LinalgCanonicalizations.cpp:721-734 RewriteAvgPoolAsConv1D: the kernel of c x c x w elements *)
  Definition average_kernel1 (c w : Z) (avg : R) : option (list R) :=
    for_each (upto c) (fun f_idx =>
    for_each (upto c) (fun c_idx values =>
      if f_idx =? c_idx then
        for_each (upto w) (fun w_idx values => write values (f_idx * (c * w) + c_idx * w + w_idx) avg) values
      else Some values))
      (repeat (r0 K) (Z.to_nat (c * c * w))).
  (** LinalgCanonicalizations.cpp:807-824 RewriteAvgPoolAsConv2D: the kernel of c x c x kh x kw elements *)
  Definition average_kernel2 (c kh kw : Z) (avg : R) : option (list R) :=
    for_each (upto c) (fun f_idx =>
    for_each (upto c) (fun c_idx values =>
      if f_idx =? c_idx then
        for_each (upto kh) (fun h_idx =>
        for_each (upto kw) (fun w_idx values =>
          write values (f_idx * (c * kh * kw) + c_idx * (kh * kw) + h_idx * kw + w_idx) avg)) values
      else Some values))
      (repeat (r0 K) (Z.to_nat (c * c * kh * kw))).

  (** LinalgCanonicalizations.cpp:670-753 RewriteAvgPoolAsConv1D and 755-843 RewriteAvgPoolAsConv2D: the kernel of the new convolution,
      which has the input, the initial value, strides and dilations of the pooling (739-744, 829-834), and whether it
      replaces the division or the pooling (746-750, 836-840). *)
  Definition average_pool1 (c w : Z) (user : option (use K)) : option (list R * bool) :=
    let '(avg, folded) := average user in
    match average_kernel1 c w avg with Some l => Some (l, folded) | None => None end.
  Definition average_pool2 (c kh kw : Z) (user : option (use K)) : option (list R * bool) :=
    let '(avg, folded) := average user in
    match average_kernel2 c kh kw avg with Some l => Some (l, folded) | None => None end.

  (** LinalgCanonicalizations.cpp:1223-1261 UndilateConv1DNcwFcw; None also when the convolution is not dilated (1215) *)
  Definition undilated_width (d kw : Z) : Z := d * (kw - 1) + 1.
  Definition undilate1 (f c kw d : Z) (input : list R) : option (list R) :=
    let newKw := undilated_width d kw in
    if d =? 1 then None else
    for_each (upto f) (fun fi =>
    for_each (upto c) (fun ci =>
    for_each (upto kw) (fun ki values =>
      let src := fi * (c * kw) + ci * kw + ki in
      let dst := fi * (c * newKw) + ci * newKw + ki * d in
      match read input src with Some v => write values dst v | None => None end)))
      (repeat (r0 K) (Z.to_nat (f * c * newKw))).
  (** LinalgCanonicalizations.cpp:1307-1350 UndilateConv2DNchwFchw; None also when the convolution is not dilated (1298) *)
  Definition undilate2 (f c kh kw dh dw : Z) (input : list R) : option (list R) :=
    let newKh := dh * (kh - 1) + 1 in
    let newKw := dw * (kw - 1) + 1 in
    if (dh =? 1) && (dw =? 1) then None else
    for_each (upto f) (fun fi =>
    for_each (upto c) (fun ci =>
    for_each (upto kh) (fun khi =>
    for_each (upto kw) (fun kwi values =>
      let src := ((fi * c + ci) * kh + khi) * kw + kwi in
      let dst := ((fi * c + ci) * newKh + khi * dh) * newKw + kwi * dw in
      match read input src with Some v => write values dst v | None => None end))))
      (repeat (r0 K) (Z.to_nat (f * c * newKh * newKw))).
End Fuse.
