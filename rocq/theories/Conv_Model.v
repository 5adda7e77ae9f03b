(** Convolution filters as matrices, lib/Utils/Layout/Convolution.cpp.  A relation is the conjunction of its constraints;
    the constraints are written as in the code, locals are quantified.  Strings for isl are given by their meaning: // and %
    round down and ^ is a power.  Sizes are mathematical integers; / on sizes truncates as in C++. *)
From Coq Require Import List Bool ZArith.
From Verif Require Import Kernel_Model Rel_Model.
Import ListNotations.
Local Open Scope Z_scope.

Definition relation := list Z -> list Z -> Prop.
(** IntegerRelation::compose, applyRange. *)
Definition compose (a b : relation) : relation := fun d r => exists m, a d m /\ b m r.
(** addBounds, Utils.cpp. *)
Definition bounds (x lower upper : Z) : Prop := lower <= x /\ x <= upper.

(** matrixRowStridingRelation, lib/Utils/Layout/Convolution.cpp 136-158. *)
Definition striding (row_size col_size stride : Z) : relation := fun d r =>
  match d, r with
  | [mat_row; mat_col], [row; col] =>
      bounds mat_row 0 row_size /\ bounds mat_col 0 col_size /\ mat_row - stride * row = 0 /\ mat_col - col = 0
  | _, _ => False
  end.
(** get1dConvFilterRelation, Convolution.cpp 160-221; the composition for a stride is 214-218. *)
Definition filter1d_dense (filter data padding : Z) : relation := fun d r =>
  match d, r with
  | [k], [row; col] =>
      let sliding := data + padding - filter in
      exists i, bounds k 0 (filter - 1) /\ bounds i (- padding) sliding /\ bounds col 0 (data - 1) /\ bounds row 0 (sliding + padding) /\
                row - i - padding = 0 /\ col - i - k = 0
  | _, _ => False
  end.
Definition filter1d (filter data stride padding : Z) : relation :=
  if 1 <? stride then compose (filter1d_dense filter data padding) (striding (data + padding - filter + padding) (data - 1) stride)
  else filter1d_dense filter data padding.
(** get1dConvFilterExpandedType, Convolution.cpp 223-235, and get2dConvFilterExpandedType, 237-259. *)
Definition expanded1d (filter data stride padding : Z) : Z * Z := (Z.quot (data + 2 * padding - filter) stride + 1, data).
Definition expanded2d (fh fw h w padding sh sw : Z) : Z * Z :=
  ((Z.quot (h + 2 * padding - fh) sh + 1) * (Z.quot (w + 2 * padding - fw) sw + 1), h * w).

(** get2dConvFilterRelation, Convolution.cpp 28-134. *)
Definition filter2d (fh fw h w sh sw padding : Z) : relation := fun d r =>
  match d, r with
  | [i; j], [row; col] =>
      let rows := Z.quot (h + 2 * padding - fh) sh + 1 in
      let cols := Z.quot (w + 2 * padding - fw) sw + 1 in
      exists a b,
        bounds i 0 (fh - 1) /\ bounds j 0 (fw - 1) /\ bounds a 0 (rows - 1) /\ bounds b 0 (cols - 1) /\
        0 <= a * sh + i - padding /\ 0 <= h + padding - 1 - a * sh - i /\
        0 <= b * sw + j - padding /\ 0 <= w + padding - 1 - b * sw - j /\
        - row + a * cols + b = 0 /\
        - col + a * (sh * w) + b * sw + i * w + j + (- padding * w - padding) = 0
  | _, _ => False
  end.

(** get1dConvCwFcwFilterRelation, Convolution.cpp 307-375, and get2dConvChwFchwFilterRelation, 377-447: the filter for one channel, embedded
    for every output and input channel. *)
Definition embed (outputs inputs total_rows total_cols : Z) (single : relation) : relation := fun d r =>
  match d, r with
  | f :: c :: d, [row; col] =>
      exists single_row single_col, single d [single_row; single_col] /\
        bounds f 0 (outputs - 1) /\ bounds c 0 (inputs - 1) /\
        row - total_rows * f - single_row = 0 /\ col - total_cols * c - single_col = 0 /\
        bounds row 0 (outputs * total_rows - 1) /\ bounds col 0 (inputs * total_cols - 1)
  | _, _ => False
  end.
Definition filter1d_channels (outputs inputs filter data stride padding : Z) : relation :=
  let (rows, cols) := expanded1d filter data stride padding in
  embed outputs inputs rows cols (filter1d filter data stride padding).
Definition filter2d_channels (outputs inputs fh fw h w sh sw padding : Z) : relation :=
  let (rows, cols) := expanded2d fh fw h w padding sh sw in
  embed outputs inputs rows cols (filter2d fh fw h w sh sw padding).

(** get1dConvRowInterchangeRelation, Convolution.cpp 645-669. *)
Definition interchange1d (c w g : Z) : relation := fun d r =>
  match d, r with
  | [input], [output] =>
      exists wi ci wo co, 0 <= wi < w /\ 0 <= ci < c /\ 0 <= wo < w * g /\ 0 <= co < Z.quot c g /\ co = ci / g /\
        wo = wi * g + ci mod g /\ input = wi + ci * w /\ output = wo + co * (w * g) /\ 0 <= input < c * w /\ 0 <= output < c * w
  | _, _ => False
  end.
(** The interchanged matrix before diagonalization, get1dConvCwFcwFilterDiagonalizedRelation, Convolution.cpp 465-493. *)
Definition keep_columns (rows : relation) : relation := fun d r =>
  match d, r with [row; col], [row'; col'] => rows [row] [row'] /\ - col + col' = 0 | _, _ => False end.
Definition filter1d_interchanged (outputs inputs filter data stride padding : Z) : relation :=
  compose (filter1d_channels outputs inputs filter data stride padding)
          (keep_columns (interchange1d outputs (Z.quot (data + 2 * padding - filter) stride + 1) stride)).

(** get2dConvChwFchwFilterAsSequence, Convolution.cpp 495-602. *)
Section Sequence.
  Variables outputs inputs fh fw h w sh sw padding slots : Z.
  Variable interchange_rows : bool.
  Definition g : Z := sh.
  Definition out_h : Z := Z.quot (h + 2 * padding - fh) sh + 1.
  Definition out_w : Z := Z.quot (w + 2 * padding - fw) sw + 1.
  Definition total_rows : Z := fst (expanded2d fh fw h w padding sh sw).
  Definition total_cols : Z := snd (expanded2d fh fw h w padding sh sw).
  Definition max_row : Z := outputs * total_rows.
  Definition max_col : Z := inputs * total_cols.
  Definition step1 : relation := fun d r =>
    match d, r with
    | [f; c; i; j], [f'; c'; oh; ow; col] =>
        f' = f /\ c' = c /\ 0 <= f < outputs /\ 0 <= c < inputs /\ 0 <= i < fh /\ 0 <= j < fw /\ 0 <= oh < out_h /\ 0 <= ow < out_w /\
        col = (oh * sh - padding + i) * w + ow * sw - padding + j /\ 0 <= oh * sh - padding + i < h /\ 0 <= ow * sw - padding + j < w
    | _, _ => False
    end.
  Definition step2 : relation := fun d r =>
    match d, r with
    | [f; c; oh; ow; col], [f'; c'; oh'; ow'; col'] =>
        0 <= f < outputs /\ 0 <= c < inputs /\ 0 <= oh < out_h /\ 0 <= ow < out_w /\ 0 <= col < max_col /\
        c' = c /\ col' = col /\ ow' = ow * g + f mod g /\ oh' = oh * g + f mod (g * g) / g /\ f' = f / (g * g)
    | _, _ => False
    end.
  Definition step3 : relation := fun d r =>
    let fs := if interchange_rows then Z.quot outputs (g * g) else outputs in
    let hs := if interchange_rows then out_h * g else out_h in
    let ws := if interchange_rows then out_w * g else out_w in
    match d, r with
    | [f; c; oh; ow; col], [row; c'; col'] =>
        0 <= f < fs /\ 0 <= c < inputs /\ 0 <= oh < hs /\ 0 <= ow < ws /\ 0 <= col < max_col /\
        c' = c /\ col' = col /\ row = f * hs * ws + oh * ws + ow
    | _, _ => False
    end.
  Definition step4 : relation := fun d r =>
    match d, r with
    | [row; c; col], [row'; col'] => 0 <= row < max_row /\ 0 <= c < inputs /\ 0 <= col < total_cols /\ row' = row /\ col' = c * total_cols + col
    | _, _ => False
    end.
  Definition step5 : relation := fun d r =>
    match d, r with
    | [row; col], [ct; slot] =>
        0 <= row < max_row /\ 0 <= col < max_col /\ (slot - row) mod padded max_row = 0 /\ (ct + slot - col) mod padded max_col = 0 /\
        0 <= ct < Z.min (padded max_row) (padded max_col) /\ 0 <= slot < slots
    | _, _ => False
    end.
  (** The expanded matrix and its layout. *)
  Definition sequence_matrix : relation :=
    compose (compose (if interchange_rows then compose step1 step2 else step1) step3) step4.
  Definition sequence_layout : relation := compose sequence_matrix step5.
End Sequence.

(** get2dConvRowInterchangeRelation, Convolution.cpp 615-643. *)
Definition interchange2d (c h w g : Z) : relation := fun d r =>
  match d, r with
  | [input], [output] =>
      exists hi wi ci ho wo co, 0 <= hi < h /\ 0 <= wi < w /\ 0 <= ci < c /\ 0 <= ho < h * g /\ 0 <= wo < w * g /\ 0 <= co < Z.quot c (g * g) /\
        co = ci / (g * g) /\ wo = wi * g + ci mod g /\ ho = hi * g + ci mod (g * g) / g /\
        input = wi + hi * w + ci * (h * w) /\ output = wo + ho * (w * g) + co * (h * g * (w * g)) /\ 0 <= input < c * h * w /\ 0 <= output < c * h * w
  | _, _ => False
  end.

(** get2dConvResultRelation, Convolution.cpp 727-753, for an output of shape 1 x c x h x w.  Simplified: the composition with the row-major
    relation of exactly as many slots as elements (736-737) is replaced by the flat index; [cts], the float quotient rounded up, is a parameter. *)
Definition result2d (c h w cts slots : Z) : relation := fun d r =>
  match d, r with
  | [n; f; oh; ow], [ct; slot] =>
      bounds n 0 0 /\ bounds f 0 (c - 1) /\ bounds oh 0 (h - 1) /\ bounds ow 0 (w - 1) /\
      let flat := ((n * c + f) * h + oh) * w + ow in
      0 <= ct < cts /\ 0 <= slot < slots /\ slot mod padded (c * h * w) = flat mod slots /\ ct = flat / slots
  | _, _ => False
  end.
(** get2dConvRowInterchangeLayoutRelation, Convolution.cpp 755-843; [cts] as above. *)
Definition interchange_layout (c h w g cts slots : Z) : relation := fun d r =>
  match d, r with
  | [ct; slot], [ct'; slot'] =>
      exists input output k hi wi ci ho wo co,
        ct * slots + slot = k * padded (c * h * w) + input /\ ct' * slots + slot' = k * padded (c * h * w) + output /\
        0 <= slot < slots /\ 0 <= slot' < slots /\ 0 <= ct < cts /\ 0 <= ct' < cts /\ 0 <= k /\
        0 <= input < padded (c * h * w) /\ input < c * h * w /\ 0 <= output < padded (c * h * w) /\ output < c * h * w /\
        0 <= hi < h /\ 0 <= wi < w /\ 0 <= ci < c /\ 0 <= ho < h * g /\ 0 <= wo < w * g /\ 0 <= co < Z.quot c (g * g) /\
        co = ci / (g * g) /\ wo = wi * g + ci mod g /\ ho = hi * g + ci mod (g * g) / g /\
        input = wi + hi * w + ci * (h * w) /\ output = wo + ho * (w * g) + co * (h * g * (w * g))
  | _, _ => False
  end.

(** ConvertLinalgConv2DNchwFchw::haleviShoupKernel, ConvertToCiphertextSemantics.cpp 1468-1523, without the accumulator
    (1519-1521); the shape of the expanded matrix (1445-1466) and the zero diagonals (1492-1497) are parameters. *)
Definition lower_conv (K : cring) (rows cols : Z) (zeros : list Z) (matrix : list (list K)) (vector : list K) (unroll : bool) : option (list K) :=
  match halevi_shoup K vector matrix rows cols (map (fun c => (c, true)) zeros) unroll with
  | Some d => run K d
  | None => None
  end.
