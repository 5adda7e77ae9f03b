(** C90. Convolutions as products of a matrix, made from the filter, with the data. *)
From Coq Require Import List Bool ZArith Lia.
From Verif Require Import Kernel_Model Kernel_Spec Kernel_Proofs Kernel_Props Rel_Model Layout_Spec Layout_Proofs Conv_Spec Conv_Model Conv_Proofs.
Import ListNotations.
Local Open Scope Z_scope.

(** No entry of the matrix comes from two elements of the filter. *)
Theorem C90_unambiguous : forall outputs inputs fh fw h w sh sw p (interchange : bool),
  1 <= sh -> 1 <= sw -> 0 <= p -> fh <= h + 2 * p -> fw <= w + 2 * p -> (interchange = true -> (sh * sh | outputs)) ->
  (forall d d' e, filter1d fh h sh p d e -> filter1d fh h sh p d' e -> d = d') /\
  (forall d d' e, filter2d fh fw h w sh sw p d e -> filter2d fh fw h w sh sw p d' e -> d = d') /\
  (forall d d' e, sequence_matrix outputs inputs fh fw h w sh sw p interchange d e ->
                  sequence_matrix outputs inputs fh fw h w sh sw p interchange d' e -> d = d').
Proof.
  intros O I fh fw h w sh sw p inter H1 H2 H3 H4 H5 D.
  assert (L1 : forall d e, filter1d fh h sh p d e -> exists r c, e = [r; c]).
  { intros d e A. unfold filter1d, compose in A. destruct (1 <? sh).
    - destruct A as (m & _ & A). destruct m as [|? [|? [|? ?]]]; try contradiction. destruct e as [|r [|c [|? ?]]]; try contradiction. eauto.
    - destruct d as [|? [|? ?]]; try contradiction. destruct e as [|r [|c [|? ?]]]; try contradiction. eauto. }
  split; [|split].
  - intros d d' e A A'. destruct (L1 d e A) as (r & c & ->). pose proof (rows1 _ _ _ _ _ _ _ H1 H3 H4 A) as B.
    exact (row_unique _ _ _ _ _ _ _ _ _ (form1 fh h sh p r H1 H3 H4 B) A A').
  - intros d d' e A A'. assert (L : exists r c, e = [r; c]).
    { destruct d as [|? [|? [|? ?]]]; try contradiction. destruct e as [|r [|c [|? ?]]]; try contradiction. eauto. }
    destruct L as (r & c & ->). pose proof A as B. apply filter2d_iff in B; try easy.
    destruct B as (i & j & a & b & B). destruct B as (_ & _ & _ & Ba & Bb & _ & _ & -> & _).
    exact (row_unique _ _ _ _ _ _ _ _ _ (form2 fh fw h w sh sw p a b H1 H2 H4 H5 Ba Bb) A A').
  - intros d d' e A A'. assert (L : exists r c, e = [r; c]).
    { destruct A as (m & _ & A). destruct m as [|? [|? [|? [|? ?]]]]; try contradiction. destruct e as [|r [|c [|? ?]]]; try contradiction. eauto. }
    destruct L as (r & c & ->). pose proof A as B. apply sequence_iff in B; try easy.
    destruct B as (f & k & i & j & oh & ow & _ & Bf & _ & _ & _ & Bh & Bw & _ & _ & -> & _).
    exact (row_unique _ _ _ _ _ _ _ _ _ (sequence_form O I fh fw h w sh sw p H1 H2 H4 H5 inter f oh ow D Bf Bh Bw) A A').
Qed.
Print Assumptions C90_unambiguous.

Theorem C90_conv1d : forall (K : cring) window size stride padding (filter x : Z -> K) M o,
  1 <= stride -> 0 <= padding -> window <= size + 2 * padding ->
  expanded K (filter1d window size stride padding) (fun d => filter (nth 0 d 0)) M ->
  0 <= o < positions size window stride padding ->
  times K size M x o = conv1d K window size stride padding filter x o.
Proof.
  intros K F N s p w x M o Hs Hp HF E Ho. rewrite (row_times K _ _ _ _ _ _ _ _ x (form1 F N s p o Hs Hp HF Ho) E). now apply sum1.
Qed.
Print Assumptions C90_conv1d.

Theorem C90_conv2d : forall (K : cring) fh fw h w sh sw p (filter X : Z -> Z -> K) x M oh ow,
  1 <= sh -> 1 <= sw -> fh <= h + 2 * p -> fw <= w + 2 * p ->
  expanded K (filter2d fh fw h w sh sw p) (fun d => filter (nth 0 d 0) (nth 1 d 0)) M ->
  (forall i j, 0 <= i < h -> 0 <= j < w -> x (i * w + j) = X i j) ->
  0 <= oh < positions h fh sh p -> 0 <= ow < positions w fw sw p ->
  times K (h * w) M x (oh * positions w fw sw p + ow) = conv2d K fh fw h w sh sw p filter X oh ow.
Proof.
  intros K fh fw h w sh sw p W X x M oh ow H1 H2 H3 H4 E Ex Bh Bw.
  rewrite (row_times K _ _ _ _ _ _ _ _ x (form2 fh fw h w sh sw p oh ow H1 H2 H3 H4 Bh Bw) E). now apply sum2.
Qed.
Print Assumptions C90_conv2d.

(** With channels, in the usual and in the interchanged order of rows. *)
Theorem C90_conv1d_channels : forall (K : cring) outputs inputs window size stride padding (filter : Z -> Z -> Z -> K) (X : Z -> Z -> K) x M M' f o,
  1 <= stride -> 0 <= padding -> window <= size + 2 * padding ->
  (forall c i, 0 <= c < inputs -> 0 <= i < size -> x (c * size + i) = X c i) ->
  0 <= f < outputs -> 0 <= o < positions size window stride padding ->
  let n := positions size window stride padding in
  let weight := fun d => filter (nth 0 d 0) (nth 1 d 0) (nth 2 d 0) in
  (expanded K (filter1d_channels outputs inputs window size stride padding) weight M ->
   times K (inputs * size) M x (f * n + o) = conv1d_channels K inputs window size stride padding filter X f o) /\
  ((stride | outputs) -> expanded K (filter1d_interchanged outputs inputs window size stride padding) weight M' ->
   times K (inputs * size) M' x (f / stride * (n * stride) + (o * stride + f mod stride)) =
   conv1d_channels K inputs window size stride padding filter X f o).
Proof.
  intros K O I F N s p W X x M M' f o Hs Hp HF Ex Bf Bo n weight.
  pose proof (form1c O I F N s p f o Hs Hp HF Bf Bo) as Fm.
  assert (G : ksum K (keysc I f (keys1 F)) (fun d => if validc (valid1 N s p o) d then rmul K (weight d) (x (posc N (pos1 s p o) d)) else r0 K) =
              conv1d_channels K I F N s p W X f o).
  { transitivity (ksum K (keysc I f (keys1 F)) (fun d => if validc (valid1 N s p o) d
       then rmul K ((fun a b e => W a b (nth 0 e 0)) (nth 0 d 0) (nth 1 d 0) (skipn 2 d)) (x (posc N (pos1 s p o) d)) else r0 K)).
    - apply ksum_ext. intros d Hd. apply in_keysc in Hd. destruct Hd as (c & d' & -> & _). reflexivity.
    - rewrite (sumc K I f N (keys1 F) (valid1 N s p o) (pos1 s p o) (fun a b e => W a b (nth 0 e 0)) x). unfold conv1d_channels. apply ksum_ext. intros c Hc.
      apply in_upto in Hc. apply (sum1 K F N s p o (W f c) (X c) (fun i => x (c * N + i))). intros i Hi. now apply Ex. }
  split.
  - intros E. exact (eq_trans (row_times K _ _ _ _ _ _ _ _ x Fm E) G).
  - intros D E. assert (Fm' : row_form (filter1d_interchanged O I F N s p) (I * N) (f / s * (n * s) + (o * s + f mod s)) (keysc I f (keys1 F))
      (validc (valid1 N s p o)) (posc N (pos1 s p o))).
    { apply (row_move (filter1d_channels O I F N s p) _ _ (f * n + o)); [|exact Fm]. intros d c. now apply interchanged_rows. }
    exact (eq_trans (row_times K _ _ _ _ _ _ _ _ x Fm' E) G).
Qed.
Print Assumptions C90_conv1d_channels.

Lemma sum2c (K : cring) I fh fw h w sh sw p f oh ow (W : Z -> Z -> Z -> Z -> K) X x :
  (forall c i j, 0 <= c < I -> 0 <= i < h -> 0 <= j < w -> x (c * (h * w) + (i * w + j)) = X c i j) ->
  ksum K (keysc I f (keys2 fh fw)) (fun d => if validc (valid2 h w sh sw p oh ow) d
     then rmul K (W (nth 0 d 0) (nth 1 d 0) (nth 2 d 0) (nth 3 d 0)) (x (posc (h * w) (pos2 w sh sw p oh ow) d)) else r0 K) =
  conv2d_channels K I fh fw h w sh sw p W X f oh ow.
Proof.
  intros Ex. transitivity (ksum K (keysc I f (keys2 fh fw)) (fun d => if validc (valid2 h w sh sw p oh ow) d
     then rmul K ((fun a b e => W a b (nth 0 e 0) (nth 1 e 0)) (nth 0 d 0) (nth 1 d 0) (skipn 2 d)) (x (posc (h * w) (pos2 w sh sw p oh ow) d)) else r0 K)).
  - apply ksum_ext. intros d Hd. apply in_keysc in Hd. destruct Hd as (c & d' & -> & _). reflexivity.
  - rewrite (sumc K I f (h * w) (keys2 fh fw) (valid2 h w sh sw p oh ow) (pos2 w sh sw p oh ow) (fun a b e => W a b (nth 0 e 0) (nth 1 e 0)) x).
    unfold conv2d_channels. apply ksum_ext. intros c Hc. apply in_upto in Hc.
    apply (sum2 K fh fw h w sh sw p oh ow (W f c) (X c) (fun i => x (c * (h * w) + i))). intros i j Hi Hj. now apply Ex.
Qed.

Theorem C90_conv2d_channels : forall (K : cring) outputs inputs fh fw h w sh sw p (filter : Z -> Z -> Z -> Z -> K) (X : Z -> Z -> Z -> K) x M M' (interchange : bool) f oh ow,
  1 <= sh -> 1 <= sw -> fh <= h + 2 * p -> fw <= w + 2 * p ->
  (forall c i j, 0 <= c < inputs -> 0 <= i < h -> 0 <= j < w -> x (c * (h * w) + (i * w + j)) = X c i j) ->
  let rows := positions h fh sh p in let cols := positions w fw sw p in
  0 <= f < outputs -> 0 <= oh < rows -> 0 <= ow < cols ->
  let weight := fun d => filter (nth 0 d 0) (nth 1 d 0) (nth 2 d 0) (nth 3 d 0) in
  let usual := f * (rows * cols) + (oh * cols + ow) in
  (expanded K (filter2d_channels outputs inputs fh fw h w sh sw p) weight M ->
   times K (inputs * (h * w)) M x usual = conv2d_channels K inputs fh fw h w sh sw p filter X f oh ow) /\
  ((interchange = true -> (sh * sh | outputs)) ->
   expanded K (sequence_matrix outputs inputs fh fw h w sh sw p interchange) weight M' ->
   times K (inputs * (h * w)) M' x (if interchange then shuffled rows cols sh f oh ow else usual) =
   conv2d_channels K inputs fh fw h w sh sw p filter X f oh ow).
Proof.
  intros K O I fh fw h w sh sw p W X x M M' inter f oh ow H1 H2 H3 H4 Ex rows cols Bf Bh Bw weight usual. split.
  - intros E. etransitivity; [exact (row_times K _ _ _ _ _ _ _ _ x (form2c O I fh fw h w sh sw p f oh ow H1 H2 H3 H4 Bf Bh Bw) E)|now apply sum2c].
  - intros D E. etransitivity; [exact (row_times K _ _ _ _ _ _ _ _ x (sequence_form O I fh fw h w sh sw p H1 H2 H3 H4 inter f oh ow D Bf Bh Bw) E)|now apply sum2c].
Qed.
Print Assumptions C90_conv2d_channels.

(** The interchange is a bijection between the usual rows and the interchanged rows. *)
Theorem C90_interchange : forall c h w g, 1 <= g -> (g * g | c) -> 1 <= h -> 1 <= w ->
  (forall f oh ow, 0 <= f < c -> 0 <= oh < h -> 0 <= ow < w -> interchange2d c h w g [f * (h * w) + (oh * w + ow)] [shuffled h w g f oh ow]) /\
  (forall i o o', interchange2d c h w g [i] [o] -> interchange2d c h w g [i] [o'] -> o = o') /\
  (forall i i' o, interchange2d c h w g [i] [o] -> interchange2d c h w g [i'] [o] -> i = i') /\
  (forall o, 0 <= o < c * h * w -> exists i, interchange2d c h w g [i] [o]) /\
  (forall i o, interchange2d c h w g [i] [o] -> 0 <= i < c * h * w /\ 0 <= o < c * h * w).
Proof.
  intros c h w g Hg D Hh Hw. split; [|split; [|split; [|split]]].
  - intros f oh ow Bf Bh Bw. apply interchange2d_iff; eauto 10.
  - intros i o o' A A'. apply interchange2d_iff in A, A'; try easy. destruct A as (f & a & b & B1 & B2 & B3 & -> & ->), A' as (f' & a' & b' & B1' & B2' & B3' & E & ->).
    apply split_index in E; [|now apply flat_range|now apply flat_range]. destruct E as [-> E]. apply split_index in E; try easy. destruct E. now subst.
  - intros i i' o A A'. apply interchange2d_iff in A, A'; try easy. destruct A as (f & a & b & B1 & B2 & B3 & -> & ->), A' as (f' & a' & b' & B1' & B2' & B3' & -> & E).
    apply shuffled_inj in E; try easy. destruct E as (-> & -> & ->). reflexivity.
  - intros o Bo. destruct (shuffled_onto c h w g o Hg D Hh Hw Bo) as (f & a & b & B1 & B2 & B3 & ->). eexists. apply interchange2d_iff; eauto 10.
  - intros i o A. apply interchange2d_iff in A; try easy. destruct A as (f & a & b & B1 & B2 & B3 & -> & ->). split.
    + pose proof (flat_range c (h * w) f (a * w + b) B1 (flat_range h w a b B2 B3)). lia.
    + now apply shuffled_range.
Qed.
Print Assumptions C90_interchange.

(** The layout recorded for the result, when it fits into one ciphertext: the slots of an output are those of its interchanged row. *)
Theorem C90_result_layout : forall c h w g slots P, 1 <= g -> (g * g | c) -> 1 <= c -> 1 <= h -> 1 <= w -> c * h * w < 2 ^ 62 ->
  padding (c * h * w) P -> (P | slots) -> 0 < slots ->
  forall f oh ow ct s, 0 <= f < c -> 0 <= oh < h -> 0 <= ow < w ->
  (compose (result2d c h w 1 slots) (interchange_layout c h w g 1 slots) [0; f; oh; ow] [ct; s] <->
   ct = 0 /\ 0 <= s < slots /\ s mod P = shuffled h w g f oh ow).
Proof.
  intros c h w g slots P Hg D Hc Hh Hw Hn HP [q Hq] Hs f oh ow ct s Bf Bh Bw.
  assert (Hn1 : 1 <= c * h * w) by nia.
  assert (EP : padded (c * h * w) = P) by (apply (padding_unique (c * h * w)); [easy|apply padded_ok; lia|easy]).
  destruct HP as [_ HP]. destruct (shuffled_range c h w g f oh ow Hg D Bf Bh Bw) as [R0 R]. destruct (digits2 g f Hg) as (A1 & A2 & _).
  pose proof (flat_range c (h * w) f (oh * w + ow) Bf (flat_range h w oh ow Bh Bw)) as Rf.
  set (flat := f * (h * w) + (oh * w + ow)) in *. assert (Ef : ((0 * c + f) * h + oh) * w + ow = flat) by (unfold flat; ring).
  assert (Q : Z.quot c (g * g) = c / (g * g)) by (apply Z.quot_div_nonneg; nia).
  assert (Pq : 1 <= q) by (clear - Hq Hs HP Hn1; nia). assert (PS : P <= slots) by (clear - Hq Pq HP Hn1; nia). unfold compose. split.
  - intros (m & A & B). destruct m as [|ct0 [|s0 [|? ?]]]; try contradiction. cbn [result2d] in A. cbn [interchange_layout] in B. unfold bounds in A. rewrite EP in *. rewrite Ef in A.
    destruct A as (_ & _ & _ & _ & Bct & Bs & Es & _). rewrite (Z.mod_small flat slots) in Es by lia.
    destruct B as (i & o & k & hi & wi & ci & ho & wo & co & B).
    destruct B as (E1 & E2 & _ & Bs' & _ & Bct' & Bk & Bi & Bi' & Bo & Bo' & C1 & C2 & C3 & _ & _ & _ & -> & -> & -> & Ei & Eo).
    assert (ct0 = 0) by lia. assert (ct = 0) by lia. subst ct0 ct.
    assert (i = flat). { rewrite <- Es. replace s0 with (i + k * P) by lia. rewrite Z.mod_add by lia. symmetry. apply Z.mod_small. lia. }
    assert (E : ci * (h * w) + (hi * w + wi) = f * (h * w) + (oh * w + ow)) by (unfold flat in *; lia).
    apply split_index in E; [|now apply flat_range|now apply flat_range]. destruct E as [-> E]. apply split_index in E; try easy. destruct E as [-> ->].
    split; [easy|]. split; [easy|]. replace s with (o + k * P) by lia. rewrite Z.mod_add by lia. rewrite Z.mod_small by lia. unfold shuffled. lia.
  - intros (-> & Bs & Es). pose proof (Z.div_mod s P ltac:(lia)) as Ed. set (k := s / P) in *.
    assert (Bk : 0 <= k < q) by (unfold k; split; [apply Z.div_pos; lia|apply Z.div_lt_upper_bound; lia]).
    exists [0; k * P + flat]. assert (Bf2 : 0 <= k * P + flat < slots) by (rewrite Hq; apply flat_range; lia). split.
    + cbn [result2d]. unfold bounds. rewrite EP, Ef. rewrite (Z.mod_small flat slots), (Z.div_small flat slots) by lia.
      repeat (split; [lia|]). split; [|easy]. rewrite Z.add_comm, Z.mod_add by lia. apply Z.mod_small. lia.
    + cbn [interchange_layout]. rewrite EP, Q.
      assert (R1 : 0 <= oh * g + f mod (g * g) / g < h * g) by now apply flat_range. assert (R2 : 0 <= ow * g + f mod g < w * g) by now apply flat_range.
      exists flat, (shuffled h w g f oh ow), k, oh, ow, f, (oh * g + f mod (g * g) / g), (ow * g + f mod g), (f / (g * g)).
      repeat (split; [easy||lia|]). unfold shuffled. ring.
Qed.
Print Assumptions C90_result_layout.

(** The kernel on the packed filter: every slot that belongs to an output holds the value of the convolution. *)
Theorem C90_lowered_conv : forall (K : cring) outputs inputs fh fw h w sh sw p (interchange : bool) N (filter : Z -> Z -> Z -> Z -> K) (X : Z -> Z -> Z -> K) x mat vec zeros (unroll : bool) pr pc,
  1 <= outputs -> 1 <= inputs -> 1 <= h -> 1 <= w -> 1 <= sh -> 1 <= sw -> fh <= h + 2 * p -> fw <= w + 2 * p ->
  (interchange = true -> (sh * sh | outputs)) ->
  let rows := positions h fh sh p in let cols := positions w fw sw p in
  let height := outputs * (rows * cols) in let width := inputs * (h * w) in
  height < 2 ^ 62 -> width < 2 ^ 62 -> padding height pr -> padding width pc -> (0 < N)%nat -> (pr | Z.of_nat N) -> (pc | Z.of_nat N) ->
  let layout := sequence_layout outputs inputs fh fw h w sh sw p (Z.of_nat N) interchange in
  Z.of_nat (length mat) = Z.min pr pc -> (forall ct, In ct mat -> length ct = N) ->
  (forall d k s, layout d [Z.of_nat k; Z.of_nat s] -> nth s (nth k mat []) (r0 K) = filter (nth 0 d 0) (nth 1 d 0) (nth 2 d 0) (nth 3 d 0)) ->
  (forall k s, (forall d, ~ layout d [Z.of_nat k; Z.of_nat s]) -> nth s (nth k mat []) (r0 K) = r0 K) ->
  (forall c i j, 0 <= c < inputs -> 0 <= i < h -> 0 <= j < w -> x (c * (h * w) + (i * w + j)) = X c i j) ->
  holds K vec N (fun s => padded1 K width x (s mod pc)) ->
  (forall k, In k zeros -> forall d s, ~ layout d [k; s]) ->
  exists out, lower_conv K height width zeros mat vec unroll = Some out /\ length out = N /\
    forall f oh ow s, 0 <= f < outputs -> 0 <= oh < rows -> 0 <= ow < cols -> (s < N)%nat ->
      Z.of_nat s mod pr = (if interchange then shuffled rows cols sh f oh ow else f * (rows * cols) + (oh * cols + ow)) ->
      nth s out (r0 K) = conv2d_channels K inputs fh fw h w sh sw p filter X f oh ow.
Proof.
  intros K O I fh fw h w sh sw p inter N W X x mat vec zeros unroll pr pc HO HI Hh Hw H1 H2 H3 H4 D rows cols height width Bh Bw Ppr Ppc HN Dr Dc
    layout Lm Lct Hmat Hmat0 Ex Hvec Hz.
  pose proof (positions_pos h fh sh p H1 H3) as P1. pose proof (positions_pos w fw sw p H2 H4) as P2. fold rows in P1. fold cols in P2.
  assert (B1 : 1 <= height) by (unfold height; nia). assert (B2 : 1 <= width) by (unfold width; nia).
  assert (Epr : padded height = pr) by (apply (padding_unique height); [easy|apply padded_ok; lia|easy]).
  assert (Epc : padded width = pc) by (apply (padding_unique width); [easy|apply padded_ok; lia|easy]).
  destruct Ppr as [(la & Hla & Ela) Ppr]. destruct Ppc as [(lb & Hlb & Elb) Ppc].
  set (R := sequence_matrix O I fh fw h w sh sw p inter).
  (* the layout, entry by entry *)
  assert (HL : forall d k s, layout d [k; s] <-> exists r c, R d [r; c] /\ 0 <= k < Z.min pr pc /\ 0 <= s < Z.of_nat N /\ r = s mod pr /\ c = (k + s) mod pc).
  { intros d k s. unfold layout, sequence_layout. fold R. unfold compose. split.
    - intros (m & A & B). destruct m as [|r [|c [|? ?]]]; try contradiction. cbn [step5] in B. rewrite max_row_eq, max_col_eq in B by easy.
      fold rows cols in B. fold height width in B. rewrite Epr, Epc in B. destruct B as (Br & Bc & E1 & E2 & Bk & Bs). exists r, c. repeat (split; [easy|]). split.
      + apply Z.mod_divide in E1; [|lia]. destruct E1 as (z & E1). replace s with (r + z * pr) by lia. rewrite Z.mod_add by lia. symmetry. apply Z.mod_small. lia.
      + apply Z.mod_divide in E2; [|lia]. destruct E2 as (z & E2). replace (k + s) with (c + z * pc) by lia. rewrite Z.mod_add by lia. symmetry. apply Z.mod_small. lia.
    - intros (r & c & A & Bk & Bs & Er & Ec). exists [r; c]. split; [easy|]. cbn [step5]. rewrite max_row_eq, max_col_eq by easy.
      fold rows cols. fold height width. rewrite Epr, Epc. destruct (sequence_range O I fh fw h w sh sw p H1 H2 H3 H4 inter d r c D A) as [Rr Rc].
      fold rows cols in Rr. fold height in Rr. fold width in Rc. split; [easy|]. split; [easy|]. split; [|split; [|easy]].
      + apply Z.mod_divide; [lia|]. exists (s / pr). pose proof (Z.div_mod s pr ltac:(lia)). lia.
      + apply Z.mod_divide; [lia|]. exists ((k + s) / pc). pose proof (Z.div_mod (k + s) pc ltac:(lia)). lia. }
  (* a place for every entry *)
  assert (Pdiv : (pr | pc) \/ (pc | pr)).
  { rewrite Ela, Elb. destruct (Z.le_ge_cases la lb); [left|right]; [exists (2 ^ (lb - la))|exists (2 ^ (la - lb))]; rewrite <- Z.pow_add_r by lia; f_equal; lia. }
  set (place_k := fun r c => (c - r) mod Z.min pr pc).
  set (place_s := fun r c => if pr <=? pc then (c - place_k r c) mod pc else r).
  assert (HPl : forall r c, 0 <= r < pr -> 0 <= c < pc -> 0 <= place_k r c < Z.min pr pc /\ 0 <= place_s r c < Z.of_nat N /\
             place_s r c mod pr = r /\ (place_k r c + place_s r c) mod pc = c).
  { intros r c Br Bc. assert (Bk : 0 <= place_k r c < Z.min pr pc) by (apply Z.mod_pos_bound; lia). split; [easy|].
    assert (pr <= Z.of_nat N) by (apply Z.divide_pos_le; [lia|easy]). assert (pc <= Z.of_nat N) by (apply Z.divide_pos_le; [lia|easy]).
    unfold place_s. destruct (Z.leb_spec pr pc) as [L|L].
    - assert (Dv : (pr | pc)) by (destruct Pdiv as [?|G]; [easy|apply Z.divide_pos_le in G; [|lia]; replace pr with pc by lia; apply Z.divide_refl]).
      pose proof (Z.mod_pos_bound (c - place_k r c) pc ltac:(lia)). split; [lia|]. split.
      + rewrite <- Znumtheory.Zmod_div_mod by (try lia; easy). unfold place_k. rewrite Z.min_l by lia. rewrite Zminus_mod_idemp_r. replace (c - (c - r)) with r by lia. now apply Z.mod_small.
      + rewrite Zplus_mod_idemp_r. replace (place_k r c + (c - place_k r c)) with c by lia. now apply Z.mod_small.
    - split; [lia|]. split; [now apply Z.mod_small|]. unfold place_k. rewrite Z.min_r by lia. rewrite Zplus_mod_idemp_l. replace (c - r + r) with c by lia. now apply Z.mod_small. }
  set (weight := fun d => W (nth 0 d 0) (nth 1 d 0) (nth 2 d 0) (nth 3 d 0)).
  set (M := fun r c => if (0 <=? r) && (r <? height) && (0 <=? c) && (c <? width)
                       then nth (Z.to_nat (place_s r c)) (nth (Z.to_nat (place_k r c)) mat []) (r0 K) else r0 K).
  assert (HE : expanded K R weight M).
  { split.
    - intros d r c A. destruct (sequence_range O I fh fw h w sh sw p H1 H2 H3 H4 inter d r c D A) as [Rr Rc]. fold rows cols in Rr. fold height in Rr. fold width in Rc.
      destruct (HPl r c ltac:(lia) ltac:(lia)) as (Q1 & Q2 & Q3 & Q4). unfold M.
      replace ((0 <=? r) && (r <? height) && (0 <=? c) && (c <? width)) with true by (symmetry; rewrite !andb_true_iff, !Z.leb_le, !Z.ltb_lt; lia).
      apply Hmat. apply HL. rewrite !Z2Nat.id by lia. exists r, c. rewrite Q3, Q4. auto.
    - intros r c A. unfold M. destruct ((0 <=? r) && (r <? height) && (0 <=? c) && (c <? width)) eqn:B; [|easy].
      rewrite !andb_true_iff, !Z.leb_le, !Z.ltb_lt in B. destruct (HPl r c ltac:(lia) ltac:(lia)) as (Q1 & Q2 & Q3 & Q4).
      apply Hmat0. intros d Hd. apply HL in Hd. rewrite !Z2Nat.id in Hd by lia. destruct Hd as (r' & c' & A' & _ & _ & -> & ->). rewrite Q3, Q4 in A'. exact (A d A'). }
  (* what the ciphertexts of the matrix hold *)
  assert (Hlen : forall k, (k < length mat)%nat -> length (nth k mat []) = N) by (intros k Hk; apply Lct; now apply nth_In).
  assert (Hholds : forall k, (k < length mat)%nat -> holds K (nth k mat []) N (fun s => padded2 K height width M (s mod pr) ((Z.of_nat k + s) mod pc))).
  { intros k Hk. split; [now apply Hlen|]. intros s Hs. unfold padded2.
    pose proof (Z.mod_pos_bound (Z.of_nat s) pr ltac:(lia)) as Br. pose proof (Z.mod_pos_bound (Z.of_nat k + Z.of_nat s) pc ltac:(lia)) as Bc.
    set (r := Z.of_nat s mod pr) in *. set (c := (Z.of_nat k + Z.of_nat s) mod pc) in *.
    assert (HLk : forall d, layout d [Z.of_nat k; Z.of_nat s] <-> R d [r; c]).
    { intros d. rewrite HL. split; [now intros (r' & c' & A & _ & _ & -> & ->)|]. intros A. exists r, c. repeat (split; [easy||lia|]). easy. }
    destruct (sequence_dec O I fh fw h w sh sw p H1 H2 H3 H4 inter r c D) as [(d & A)|A]; fold R in A.
    - rewrite (Hmat d) by now apply HLk. destruct (sequence_range O I fh fw h w sh sw p H1 H2 H3 H4 inter d r c D A) as [Rr Rc].
      fold rows cols in Rr. fold height in Rr. fold width in Rc.
      replace ((r <? height) && (c <? width)) with true by (symmetry; rewrite andb_true_iff, !Z.ltb_lt; lia). symmetry. now apply (proj1 HE).
    - rewrite Hmat0 by (intros d Hd; apply HLk in Hd; exact (A d Hd)). destruct ((r <? height) && (c <? width)); [|easy]. symmetry. now apply (proj2 HE). }
  destruct (C30_halevi_shoup K M x height width (Z.to_nat la) (Z.to_nat lb) N vec mat (map (fun c => (c, true)) zeros) unroll) as (dag & out & Ed & Er & Ho);
    rewrite ?Z2Nat.id by lia; rewrite <- ?Ela, <- ?Elb; try easy; try lia.
  { intros k b Hin Bk s. apply in_map_iff in Hin. destruct Hin as (k' & E & Hin). injection E. intros _ ->.
    destruct (Nat.lt_ge_cases s N) as [L|L].
    - apply Hmat0. intros d. rewrite Z2Nat.id by lia. now apply Hz.
    - apply nth_overflow. rewrite Hlen; [easy|]. lia. }
  rewrite ?Z2Nat.id in Ho by lia. rewrite <- ?Ela in Ho. exists out. split; [unfold lower_conv; now rewrite Ed|]. destruct Ho as [Lo Ho]. split; [easy|].
  intros f oh ow s Bf Boh Bow Hs Es. rewrite Ho by easy.
  pose proof (sequence_form O I fh fw h w sh sw p H1 H2 H3 H4 inter f oh ow D Bf Boh Bow) as Fm.
  assert (Eq : row_of fh fw h w sh sw p inter f oh ow = Z.of_nat s mod pr) by (rewrite Es; reflexivity). rewrite Eq in Fm.
  assert (Br : Z.of_nat s mod pr < height).
  { rewrite Es. destruct inter; [|apply flat_range; [easy|now apply flat_range]].
    destruct (shuffled_range O rows cols sh f oh ow H1 (D eq_refl) Bf Boh Bow) as [_ Rg]. unfold height. lia. }
  replace (Z.of_nat s mod pr <? height) with true by (symmetry; now apply Z.ltb_lt).
  etransitivity; [|exact (eq_trans (row_times K _ _ _ _ _ _ _ _ x Fm HE) (sum2c K I fh fw h w sh sw p f oh ow W X x Ex))].
  unfold times. rewrite ksum_rsum. reflexivity.
Qed.
Print Assumptions C90_lowered_conv.

(** A filter of two elements with stride 2 and padding 1 on three elements: the matrix [[f1; 0; 0]; [0; f0; f1]]. *)
Example C90_nonvacuous :
  let M := fun r c => if (r =? 0) && (c =? 0) then 7 else if (r =? 1) && (c =? 1) then 5 else if (r =? 1) && (c =? 2) then 7 else 0 in
  let filter := fun k => if k =? 0 then 5 else 7 in
  let x := fun i => if i =? 0 then 1 else if i =? 1 then 10 else 100 in
  expanded Zcring (filter1d 2 3 2 1) (fun d => filter (nth 0 d 0)) M /\ positions 3 2 2 1 = 2 /\
  map (times Zcring 3 M x) [0; 1] = [7; 750] /\ map (conv1d Zcring 2 3 2 1 filter x) [0; 1] = [7; 750].
Proof.
  intros M filter x. split; [|repeat split].
  assert (P : positions 3 2 2 1 = 2) by reflexivity. split.
  - intros d r c H. apply filter1d_iff in H; try lia. rewrite P in H. destruct H as (k & -> & Bk & Bc & Br & E). cbn [nth].
    assert (r = 0 \/ r = 1) as [-> | ->] by lia; assert (k = 0 \/ k = 1) as [-> | ->] by lia; cbn in E; subst c; try lia; reflexivity.
  - intros r c H. unfold M.
    destruct (Z.eqb_spec r 0) as [->|]; cbn [andb]; [destruct (Z.eqb_spec c 0) as [->|]|].
    + exfalso. apply (H [1]). apply filter1d_iff; try lia. rewrite P. exists 1. repeat split; lia.
    + reflexivity.
    + destruct (Z.eqb_spec r 1) as [->|]; cbn [andb]; [|reflexivity]. destruct (Z.eqb_spec c 1) as [->|].
      * exfalso. apply (H [0]). apply filter1d_iff; try lia. rewrite P. exists 0. repeat split; lia.
      * destruct (Z.eqb_spec c 2) as [->|]; [|reflexivity]. exfalso. apply (H [1]). apply filter1d_iff; try lia. rewrite P. exists 1. repeat split; lia.
Qed.

(** The premises of C90_lowered_conv about the packed filter, for a filter 1 x 2 on 1 x 2 elements in two slots. *)
Example C90_lowered_nonvacuous :
  let layout := sequence_layout 1 1 1 2 1 2 1 1 0 2 true in
  let filter := fun d => if nth 3 d 0 =? 0 then 5 else 7 in
  (forall d k s, layout d [Z.of_nat k; Z.of_nat s] -> nth s (nth k [[5; 7]] []) 0 = filter d) /\
  (forall k s, (forall d, ~ layout d [Z.of_nat k; Z.of_nat s]) -> nth s (nth k [[5; 7]] []) 0 = 0) /\
  (1 * 1 | 1) /\ padding (1 * (1 * 1)) 1 /\ padding (1 * (1 * 2)) 2 /\
  lower_conv Zcring 1 2 [] [[5; 7]] [10; 100] true = Some [750; 750].
Proof.
  intros layout filter.
  assert (L : forall d k s, layout d [k; s] <-> k = 0 /\ 0 <= s < 2 /\ d = [0; 0; 0; s]).
  { intros d k s. unfold layout, sequence_layout, compose. split.
    - intros (m & A & B). destruct m as [|r [|c [|? ?]]]; try contradiction. apply sequence_iff in A; try lia; [|intros _; exists 1; lia].
      change (positions 1 1 1 0) with 1 in A. change (positions 2 2 1 0) with 1 in A.
      destruct A as (f & q & i & j & oh & ow & -> & A1 & A2 & A3 & A4 & A5 & A6 & A7 & A8 & _ & ->).
      assert (f = 0) by lia. assert (q = 0) by lia. assert (i = 0) by lia. assert (oh = 0) by lia. assert (ow = 0) by lia. subst.
      cbn [step5] in B. change (max_row 1 1 2 1 2 1 1 0) with 1 in B. change (max_col 1 1 2 1 2 1 1 0) with 2 in B. change (padded 1) with 1 in B. change (padded 2) with 2 in B.
      destruct B as (_ & _ & _ & E & Bk & Bs). assert (k = 0) by lia. subst k. split; [easy|]. split; [lia|].
      apply Z.mod_divide in E; [|lia]. destruct E as (z & E). replace s with j by lia. easy.
    - intros (-> & Bs & ->). exists [0; s]. split.
      + apply sequence_iff; try lia; [intros _; exists 1; lia|]. change (positions 1 1 1 0) with 1. change (positions 2 2 1 0) with 1.
        exists 0, 0, 0, s, 0, 0. repeat (split; [easy||lia|]). lia.
      + cbn [step5]. change (max_row 1 1 2 1 2 1 1 0) with 1. change (max_col 1 1 2 1 2 1 1 0) with 2. change (padded 1) with 1. change (padded 2) with 2.
        replace (0 + s - s) with 0 by lia. rewrite Z.mod_1_r. repeat (split; [easy||lia|]). lia. }
  split; [|split; [|split; [exists 1; lia|split; [|split; [|reflexivity]]]]].
  - intros d k s H. apply L in H. destruct H as (E & Bs & ->). assert (k = O) by lia. subst k. destruct s as [|[|s]]; [reflexivity|reflexivity|lia].
  - intros k s H. destruct k as [|[|k]]; [|destruct s; reflexivity|destruct s; reflexivity]. destruct s as [|[|[|s]]]; try reflexivity.
    + exfalso. apply (H [0; 0; 0; 0]). apply L. repeat split; lia.
    + exfalso. apply (H [0; 0; 0; 1]). apply L. repeat split; lia.
  - split; [exists 0; split; [lia|reflexivity]|lia].
  - split; [exists 1; split; [lia|reflexivity]|lia].
Qed.
(** Four channels of 2 x 2 outputs, interleaved to 4 x 4. *)
Example C90_shuffled_nonvacuous : (2 * 2 | 4) /\ map (fun f => shuffled 2 2 2 f 1 0) [0; 1; 2; 3] = [8; 9; 12; 13].
Proof. split; [exists 1; lia|reflexivity]. Qed.
(** Without the divisibility, rows are missing: three output channels with stride 2 give an empty matrix. *)
Theorem C90_divisible_needed_refuted : exists outputs, (forall d e, ~ sequence_matrix outputs 1 1 1 2 2 2 2 0 true d e) /\
  0 < outputs * (positions 2 1 2 0 * positions 2 1 2 0).
Proof.
  exists 3. split; [|reflexivity]. intros d e (m & (m' & _ & B) & _).
  destruct m' as [|f [|c [|oh [|ow [|col [|? ?]]]]]]; try contradiction. destruct m as [|r [|c' [|col' [|? ?]]]]; try contradiction.
  cbn [step3] in B. destruct B as (B & _). unfold g in B. change (Z.quot 3 (2 * 2)) with 0 in B. lia.
Qed.
Print Assumptions C90_divisible_needed_refuted.
