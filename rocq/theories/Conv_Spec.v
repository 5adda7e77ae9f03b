(** Convolutions as linalg defines them, with zeros around the data, over a commutative ring. *)
From Coq Require Import List Bool ZArith.
From Verif Require Import Kernel_Model.
Import ListNotations.
Local Open Scope Z_scope.

Definition upto (n : Z) : list Z := map Z.of_nat (seq 0 (Z.to_nat n)).
(** Number of positions of a window of [window] elements on [size] elements with [padding] zeros at both ends. *)
Definition positions (size window stride padding : Z) : Z := (size + 2 * padding - window) / stride + 1.

Section Conv.
  Variable K : cring.
  Fixpoint ksum {A} (l : list A) (f : A -> K) : K := match l with [] => r0 K | a :: l => radd K (f a) (ksum l f) end.
  (** An element of the data, zero outside. *)
  Definition data1 (n : Z) (x : Z -> K) (i : Z) : K := if (0 <=? i) && (i <? n) then x i else r0 K.
  Definition data2 (h w : Z) (x : Z -> Z -> K) (i j : Z) : K :=
    if (0 <=? i) && (i <? h) && (0 <=? j) && (j <? w) then x i j else r0 K.

  Definition conv1d (window size stride padding : Z) (filter x : Z -> K) (o : Z) : K :=
    ksum (upto window) (fun k => rmul K (filter k) (data1 size x (o * stride - padding + k))).
  Definition conv1d_channels (channels window size stride padding : Z) (filter : Z -> Z -> Z -> K) (x : Z -> Z -> K) (f o : Z) : K :=
    ksum (upto channels) (fun c => conv1d window size stride padding (filter f c) (x c) o).

  Definition conv2d (fh fw h w sh sw padding : Z) (filter x : Z -> Z -> K) (oh ow : Z) : K :=
    ksum (upto fh) (fun i => ksum (upto fw) (fun j => rmul K (filter i j) (data2 h w x (oh * sh - padding + i) (ow * sw - padding + j)))).
  Definition conv2d_channels (channels fh fw h w sh sw padding : Z) (filter : Z -> Z -> Z -> Z -> K) (x : Z -> Z -> Z -> K) (f oh ow : Z) : K :=
    ksum (upto channels) (fun c => conv2d fh fw h w sh sw padding (filter f c) (x c) oh ow).

  (** The matrix that a relation makes of a filter: every element of the filter at all places that it is related to, zeros elsewhere. *)
  Definition expanded (R : list Z -> list Z -> Prop) (filter : list Z -> K) (M : Z -> Z -> K) : Prop :=
    (forall d r c, R d [r; c] -> M r c = filter d) /\ (forall r c, (forall d, ~ R d [r; c]) -> M r c = r0 K).
  Definition times (columns : Z) (M : Z -> Z -> K) (x : Z -> K) (r : Z) : K := ksum (upto columns) (fun c => rmul K (M r c) (x c)).
End Conv.

(** The order of the rows when outputs of g * g channels are interleaved (pixel shuffle), for h * w outputs in each channel. *)
Definition shuffled (h w g f oh ow : Z) : Z :=
  (f / (g * g)) * (h * g * (w * g)) + (oh * g + f mod (g * g) / g) * (w * g) + (ow * g + f mod g).
