(** Model of the packing of a value into ciphertexts and back as operations:
    lib/Transforms/ConvertToCiphertextSemantics/AssignLayout.cpp.
    A step is a function from what is known of the input to the operations it creates ([code]), followed by what these do ([denote]).
    Calls of isl and of the Presburger library are members of [externals].  tensor.extract and tensor.insert outside of a tensor, a null
    pointer and an emitted error are None. *)
From Coq Require Import String ZArith List Bool.
From Verif Require Import Rel_Model Points_Model.
From Verif Require Codegen_Spec Codegen_Model.
Import ListNotations.
Open Scope Z_scope.

Notation "'let*' x := e 'in' f" := (match e with Some x => f | None => None end) (at level 200, x pattern, f at level 200, right associativity).

Record externals := Externals {
  lower : rel -> nat -> option Z;                         (* getConstantBound64(LB), of a domain or range variable by position *)
  upper : rel -> nat -> option Z;                         (* getConstantBound64(UB) *)
  image : rel -> list Z -> list (list Z);                 (* isl: the range points of a domain point *)
  wrapped : rel -> list (list Z);                         (* isl: the points of the relation *)
  equal : rel -> rel -> bool;                             (* isRelationEqual, Utils.cpp:1324-1337 *)
  single_valued : rel -> bool;                            (* isl_map_is_single_valued *)
  range_is : rel -> list Z -> bool;                       (* isl_set_is_equal of the range and of the box of a shape *)
  count : rel -> Z;                                       (* relationSize, Utils.cpp:1411-1447; -1 when it is not found *)
  sample : rel -> list Z;                                 (* anyRangePoint, Utils.cpp:1034-1061 *)
  tree : rel -> list nat -> option Codegen_Spec.node      (* constructAst, Codegen.cpp:146-185 *)
}.

(** * Values.  What matchPattern and getDefiningOp reveal of a value: that it is a constant, and then whether it is a splat (a scalar counts as one),
    that its elements are in a resource, that it is tensor.empty, or nothing. *)
Inductive knowledge := Unknown | Nothing_stored | Constant (splat : bool) | Resource.
Record value (T : Type) := Value { scalar : bool; shape : list Z; content : tensor T; known : knowledge }.
Arguments Value {T} scalar shape content known.
Arguments scalar {T} v. Arguments shape {T} v. Arguments content {T} v. Arguments known {T} v.
(** the element for the index d; a scalar is the element for all *)
Definition element {T} (v : value T) (d : list Z) : option T := if scalar v then get (content v) [] else get (content v) d.
(** row-major order *)
Fixpoint leaves {T} (t : tensor T) : list T :=
  match t with
  | Elem x => [x]
  | Vector l => flat_map leaves l
  end.
Fixpoint of_list {T} (zero : T) (shape : list Z) (l : list T) : tensor T :=
  match shape with
  | [] => Elem (hd zero l)
  | n :: shape =>
      Vector (map (fun i => of_list zero shape (firstn (Z.to_nat (elements shape)) (skipn (i * Z.to_nat (elements shape)) l))) (seq 0 (Z.to_nat n)))
  end.

(** * What the operations of a step are *)
Inductive strategy := Auto | Never_fold | Fold_when_possible.
Inductive code (T : Type) :=
| Zeros                                                                        (* arith.constant 0 *)
| Empty                                                                        (* tensor.empty *)
| Crt (dims : list Z) (cts slots : Z)                                          (* the loop of implementCrtAssignLayoutStep *)
| Splat (index : list Z)                                                       (* tensor.splat of the input, or of the element extracted at index *)
| Splat_constant (x : T)
| Folded (t : tensor T) (resource : bool)                                      (* arith.constant *)
| Nest (r : rel) (prog : list Codegen_Model.ins) (out : Codegen_Model.val).    (* the loop nest starting with a constant 0 *)
Arguments Zeros {T}. Arguments Empty {T}. Arguments Crt {T} dims cts slots. Arguments Splat {T} index.
Arguments Splat_constant {T} x. Arguments Folded {T} t resource. Arguments Nest {T} r prog out.

(** isDenseLayout, Utils.cpp:1339-1409; None when getDomainBox ends the program *)
Definition is_dense (ex : externals) (r : rel) (target : list Z) : option bool :=
  let* early := if single_valued ex r
                then let* (lb, ub) := domain_box r (lower ex r) (upper ex r) in
                     Some (match volume 1 (sizes lb ub) with Some v => v <? elements target | None => false end)
                else Some false in
  if early then Some false
  else if negb (nr r =? length target)%nat then Some false
  else Some (range_is ex r target).
(** isRelationBicyclic, Utils.cpp:638-651 *)
Definition is_bicyclic (ex : externals) (shape : list Z) (slots : Z) (r : rel) : option bool :=
  if negb (length shape =? 2)%nat then Some false else
  let rows := u32 (dim shape 0) in
  let columns := u32 (dim shape 1) in
  if (rows =? 1) || (columns =? 1) then Some false else
  if negb (Z.gcd rows columns =? 1) then Some false else
  let* b := bicyclic shape slots in Some (equal ex r b).
(** isRelationTricyclic, Utils.cpp:653-669 *)
Definition is_tricyclic (ex : externals) (shape : list Z) (slots : Z) (r : rel) : option bool :=
  if negb (length shape =? 3)%nat then Some false else
  let h := dim shape 0 in let m := dim shape 1 in let n := dim shape 2 in
  if (h =? 1) || (m =? 1) || (n =? 1) then Some false else
  if negb (Z.gcd h m =? 1) || negb (Z.gcd m n =? 1) || negb (Z.gcd h n =? 1) then Some false else
  let* b := tricyclic shape slots in Some (equal ex r b).

(** ** Folding of constants, AssignLayout.cpp:425-515 *)
(** the lambda rowMajorStrides, 436-441 *)
Fixpoint strides (shape : list Z) : list Z :=
  match shape with
  | [] => []
  | [_] => [1]
  | _ :: ((n :: _) as rest) => let s := strides rest in hd 1 s * n :: s
  end.
(** the lambda flatten, 445-449 *)
Fixpoint flatten (point strides : list Z) : Z :=
  match point, strides with
  | p :: point, s :: strides => p * s + flatten point strides
  | _, _ => 0
  end.
(** memcpy of n bytes *)
Definition memcpy (dst : list Z) (dst_at : Z) (src : list Z) (src_at n : Z) : option (list Z) :=
  if (dst_at <? 0) || (Z.of_nat (length dst) <? dst_at + n) || (src_at <? 0) || (Z.of_nat (length src) <? src_at + n) then None
  else Some (firstn (Z.to_nat dst_at) dst ++ firstn (Z.to_nat n) (skipn (Z.to_nat src_at) src) ++ skipn (Z.to_nat (dst_at + n)) dst).
(** 463-470 *)
Fixpoint fold_bytes (width total : Z) (splat : bool) (src_strides dst_strides src : list Z) (pts : list (list Z * list Z)) (raw : list Z) : option (list Z) :=
  match pts with
  | [] => Some raw
  | (d, g) :: pts =>
      let dst := flatten g dst_strides in
      if (dst <? 0) || (total <=? dst) then fold_bytes width total splat src_strides dst_strides src pts raw else
      let at_src := if splat then 0 else flatten d src_strides in
      let* raw := memcpy raw (dst * width) src (at_src * width) width in
      fold_bytes width total splat src_strides dst_strides src pts raw
  end.
(** 500-507 *)
Fixpoint fold_boxed {T} (total : Z) (splat : bool) (src_strides dst_strides : list Z) (src : list T) (pts : list (list Z * list Z)) (packed : list T) : option (list T) :=
  match pts with
  | [] => Some packed
  | (d, g) :: pts =>
      let dst := flatten g dst_strides in
      if (dst <? 0) || (total <=? dst) then fold_boxed total splat src_strides dst_strides src pts packed else
      let* x := at_index src (if splat then 0 else flatten d src_strides) in
      fold_boxed total splat src_strides dst_strides src pts (replace packed (Z.to_nat dst) x)
  end.

Section Elements.
(** Elements: whether one is zero; the bytes of an element, if its width is a multiple of 8 (then so many bytes) *)
Context {T : Type} (zero : T) (is_zero : T -> bool) (width : option Z) (encode : T -> list Z) (decode : list Z -> T).

Fixpoint chunks (w : Z) (n : nat) (raw : list Z) : list T :=
  match n with
  | O => []
  | S n => decode (firstn (Z.to_nat w) raw) :: chunks w n (skipn (Z.to_nat w) raw)
  end.
(** getRawData of a constant, 458-459: one element for a splat *)
Definition raw_data (splat : bool) (t : tensor T) : list Z :=
  if splat then match leaves t with x :: _ => encode x | [] => [] end else flat_map encode (leaves t).

(** the lambda tryFolding, 425-515, for a tensor; [splat]: srcIsSplat *)
Definition try_folding (ex : externals) (r : rel) (v : value T) (target : list Z) (splat resource : bool) : option (code T) :=
  let* pts := enumerate r (lower ex r) (upper ex r) (image ex r) (wrapped ex r) in
  let total := elements target in
  match width with
  | Some w =>
      let* raw := fold_bytes w total splat (strides (shape v)) (strides target) (raw_data splat (content v)) pts (repeat 0 (Z.to_nat (total * w))) in
      Some (Folded (of_list zero target (chunks w (Z.to_nat total) raw)) resource)
  | None =>
      let* packed := fold_boxed total splat (strides (shape v)) (strides target) (leaves (content v)) pts (repeat zero (Z.to_nat total)) in
      Some (Folded (of_list zero target packed) false)
  end.

(** 517-541 *)
Definition should_fold (ex : externals) (r : rel) (st : strategy) (dense resource : bool) : bool :=
  (dense || resource) &&
  match st with
  | Fold_when_possible => true
  | Never_fold => false
  | Auto => resource || (5 <? Z.of_nat (nl r)) || ((0 <=? count ex r) && (count ex r <=? 16384))
  end.

(** 557-571: the given order of the domain variables, followed by the missing ones *)
Definition schedule_of (r : rel) (given : list nat) : list nat :=
  given ++ filter (fun i => negb (existsb (Nat.eqb i) given)) (seq 0 (nd r)).

Definition data0 : Codegen_Model.val := (0%nat, Codegen_Model.Data).

(** implementAssignLayoutStep, 312-614 *)
Definition assign_step (ex : externals) (v : value T) (r0 : rel) (target : list Z) (given : list nat) (st : strategy) : option (code T) :=
  let r := if scalar v then r0 else bound_all r0 0 (shape v) in
  let splat := match known v with Constant s => s | _ => false end in
  if splat && match leaves (content v) with x :: _ => is_zero x | [] => false end then Some Zeros else
  match known v with
  | Nothing_stored => Some Empty
  | _ =>
  let slots := last target 0 in
  let* cyclic := if scalar v then Some false
                 else let* b := is_bicyclic ex (shape v) slots r in
                      if b then Some true else is_tricyclic ex (shape v) slots r in
  if cyclic then Some (Crt (shape v) (if (length target =? 2)%nat then dim target 0 else 1) slots) else
  let single := negb (scalar v) && (elements (shape v) =? 1) in
  let* dense := if scalar v || splat || single then is_dense ex r target else Some false in
  if dense then
    if scalar v then Some (Splat []) else
    if splat then match leaves (content v) with x :: _ => Some (Splat_constant x) | [] => None end
    else Some (Splat (repeat 0 (length (shape v))))
  else
  let is_constant := negb (scalar v) && match known v with Constant _ => true | _ => false end in
  let is_resource := match known v, width with Resource, Some _ => true | _, _ => false end in
  let folded := if should_fold ex r st is_constant is_resource && negb (scalar v) then Some (try_folding ex r v target (is_constant && splat) is_resource) else None in
  match folded with
  | Some c => c
  | None =>
      let* t := tree ex r (schedule_of r given) in
      let* (prog, outs) := Codegen_Model.generate false t [data0] 1 in
      match outs with o :: _ => Some (Nest r prog o) | [] => None end
  end
  end.

(** * What they do *)
(** a counter from 0 to n - 1 *)
Definition counter (n : Z) : list Z := map Z.of_nat (seq 0 (Z.to_nat n)).
(** the body of the loop nest, 582-605; a tensor is None once an access was out of bounds *)
Definition assign_body (v : value T) (r : rel) (exprs : list Z) (args : list (option (tensor T))) : list (option (tensor T)) :=
  match args with
  | [out] =>
      [let* x := (if scalar v then get (content v) [] else get (content v) (firstn (length (shape v)) exprs)) in
       let* out := out in put out (firstn (nr r) (skipn (nd r) exprs)) x]
  | _ => args
  end.
(** the body of the loop of implementCrtAssignLayoutStep, 281-307 *)
Definition crt_body (v : value T) (dims : list Z) (rank : nat) (cts slots k : Z) (out : option (tensor T)) : option (tensor T) :=
  let* out := out in
  if existsb (Z.eqb 0) dims || (slots =? 0) then None else
  let* x := get (content v) (map (Z.rem k) dims) in
  put out (if (rank =? 2)%nat then (if cts =? 1 then [0; k] else [Z.quot k slots; Z.rem k slots]) else [k]) x.
(** [junk]: what tensor.empty holds *)
Definition denote (junk : tensor T) (v : value T) (target : list Z) (c : code T) : option (tensor T) :=
  match c with
  | Zeros => Some (filled target zero)
  | Empty => Some junk
  | Crt dims cts slots =>
      fold_left (fun out k => crt_body v dims (length target) cts slots k out) (counter (cts * slots)) (Some (filled target zero))
  | Splat index => let* x := get (content v) index in Some (filled target x)
  | Splat_constant x => Some (filled target x)
  | Folded t _ => Some t
  | Nest r prog o =>
      let start : Codegen_Model.env (option (tensor T)) := fun k => if Nat.eqb k 0 then Some (Codegen_Model.DT _ (Some (filled target zero))) else None in
      let* e := Codegen_Model.execs _ (assign_body v r) prog start in
      match e (fst o) with Some (Codegen_Model.DT _ t) => t | _ => None end
  end.
(** what is known of the result in the next step; [same t]: that the constant t turned out to be a splat *)
Definition learned (same : tensor T -> bool) (c : code T) : knowledge :=
  match c with
  | Zeros | Splat_constant _ => Constant true
  | Empty => Nothing_stored
  | Folded t resource => if resource then Resource else Constant (same t)
  | Crt _ _ _ | Splat _ | Nest _ _ _ => Unknown
  end.

(** * implementAssignLayout, 616-668 *)
(** materializeLayout (TypeConversion.cpp:27-59): [most r i] is the greatest value of range variable i, found with the simplex *)
Definition materialize (most : rel -> nat -> Z) (r : rel) (slots : Z) : list Z :=
  map (fun i => most r i + 1) (seq 0 (nr r - 1)) ++ [slots].
(** getIntermediateTargetType, 239-254 *)
Fixpoint all_some {A : Type} (l : list (option A)) : option (list A) :=
  match l with
  | [] => Some []
  | x :: l => let* x := x in let* l := all_some l in Some (x :: l)
  end.
Definition intermediate (ex : externals) (r : rel) : option (list Z) :=
  all_some (map (fun j => let* u := upper ex r (nd r + j) in Some (u + 1)) (seq 0 (nr r))).
(** an ArrayAttr, 623-652 *)
Fixpoint assign_all (ex : externals) (most : rel -> nat -> Z) (same : tensor T -> bool) (junk : tensor T) (st : strategy) (slots : Z) (rs : list rel) (v : value T) : option (value T) :=
  match rs with
  | [] => Some v
  | r :: rs =>
      let* target := match rs with [] => Some (materialize most r slots) | _ => intermediate ex r end in
      let* c := assign_step ex v r target [] st in
      let* m := denote junk v target c in
      assign_all ex most same junk st slots rs (Value false target m (learned same c))
  end.
(** a LayoutAttr, 654-659 *)
Definition assign_layout (ex : externals) (most : rel -> nat -> Z) (junk : tensor T) (st : strategy) (given : list nat) (slots : Z) (r : rel) (v : value T) : option (tensor T) :=
  let target := materialize most r slots in
  let* c := assign_step ex v r target given st in denote junk v target c.

(** implementAssignLayoutPermutation, 171-237, for an input of type [cts x n] (rank 2) or n (rank 1, one ciphertext) *)
Definition permutation_step (cts srcs slots : Z) (rank2 : bool) (v : value T) (out : option (tensor T)) (q : Z * Z * Z * Z) : option (tensor T) :=
  let '(sc, ss, dc, ds) := q in
  let* out := out in
  let* x := get (content v) (if rank2 then [sc; ss] else [ss]) in put out [dc; ds] x.
Definition in_bounds (cts srcs slots : Z) (q : Z * Z * Z * Z) : bool :=
  let '(sc, ss, dc, ds) := q in negb ((cts <=? sc) || (srcs <=? ss) || (cts <=? dc) || (slots <=? ds)).
Definition assign_permutation (v : value T) (qs : list (Z * Z * Z * Z)) (slots : Z) : option (tensor T) :=
  let rank := length (shape v) in
  if scalar v || negb ((rank =? 1) || (rank =? 2))%nat then None else
  let rank2 := (rank =? 2)%nat in
  let cts := if rank2 then dim (shape v) 0 else 1 in
  let srcs := dim (shape v) (rank - 1) in
  if forallb (in_bounds cts srcs slots) qs
  then fold_left (permutation_step cts srcs slots rank2 v) qs (Some (filled [cts; slots] zero)) else None.

(** * implementUnpackOp, 61-169 and 670-719.  The target is None for a scalar *)
Fixpoint bound_above (r : rel) (pos : nat) (sizes : list Z) : rel :=
  match sizes with
  | [] => r
  | s :: l => bound_above (upper_bound r pos (s - 1)) (S pos) l
  end.
Definition unpack_body (m : tensor T) (rank ct_rank : nat) (exprs : list Z) (args : list (option (tensor T))) : list (option (tensor T)) :=
  match args with
  | [out] => [let* x := get m (skipn rank exprs) in let* out := out in put out (firstn (length exprs - ct_rank) exprs) x]
  | _ => args
  end.
Definition unpack_step (ex : externals) (r0 : rel) (target : option (list Z)) (m : tensor T) (ct_rank : nat) : option (tensor T) :=
  let shape := match target with Some s => s | None => [] end in
  let r := bound_above r0 0 shape in
  if match target with None => true | Some s => elements s =? 1 end then
    match sample ex r with
    | [] => None
    | g => let* x := get m g in Some (filled shape x)
    end
  else
  let* t := tree ex r (seq 0 (nd r)) in
  let* (prog, outs) := Codegen_Model.generate true t [data0] 1 in
  match outs with
  | [] => None
  | o :: _ =>
      let start : Codegen_Model.env (option (tensor T)) := fun k => if Nat.eqb k 0 then Some (Codegen_Model.DT _ (Some (filled shape zero))) else None in
      let* e := Codegen_Model.execs _ (unpack_body m (length shape) ct_rank) prog start in
      match e (fst o) with Some (Codegen_Model.DT _ t) => t | _ => None end
  end.
(** 684-714, from the last layout to the first *)
Definition domain_shape (ex : externals) (r : rel) : option (list Z) :=
  all_some (map (fun j => let* u := upper ex r j in Some (u + 1)) (seq 0 (nd r))).
Fixpoint unpack_all (ex : externals) (rs : list rel) (target : option (list Z)) (m : tensor T) (ct_rank : nat) : option (tensor T) :=
  match rs with
  | [] => Some m
  | [r] => unpack_step ex r target m ct_rank
  | r :: rs =>
      let* mid := domain_shape ex (hd r rs) in
      let* u := unpack_all ex rs (Some mid) m ct_rank in
      unpack_step ex r target u (length mid)
  end.
End Elements.
