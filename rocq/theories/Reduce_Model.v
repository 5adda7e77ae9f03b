(** Replacing trees of additions or multiplications over all elements of a
    tensor by rotate_and_reduce.
    /repo/lib/Analysis/PartialReductionRotateAnalysis/PartialReductionRotateAnalysis.{h,cpp}
    /repo/lib/Dialect/TensorExt/Transforms/RotateAndReduce.cpp

    A block of operations in SSA form on scalars and tensors of rank one.
    [Other] stands for any operation the analysis ignores: its value is any
    function of the values before it.  An index or shift is [Cst] when sparse
    constant propagation knows it.  Regions are not modelled, nor are tensors
    of other ranks (the analysis ignores them).  The pass gives the operation
    rotate_and_reduce with period 1 and as many steps as elements, whose
    lowering is the subject of C29 to C31. *)
From Coq Require Import ZArith List Bool.
From Verif Require Import Rotate_Spec Collapse_Model.
Import ListNotations.
Open Scope Z_scope.

(** ** Programs *)
Inductive rop :=
| Rot (t : tref) (s : index) | Ext (t : tref) (i : index) | Bin (o : arith) (a b : tref) | Other (x : nat)
| Reduce (o : arith) (t : tref) (extraction : bool) (saved : list tref).
Notation rprogram := (list rop).

Section Meaning.
Variable E : Type.
Variable sem : arith -> E -> E -> E.
Inductive val := VT (l : list E) | VS (e : E).
Variable args : nat -> val.
Variable other : nat -> list val -> option val.
Variable idx : nat -> Z.

Definition vget (vals : list val) (t : tref) : option val :=
  match t with Arg x => Some (args x) | Res k => nth_error vals k end.
Definition bin (o : arith) (a b : val) : option val :=
  match a, b with
  | VT l, VT m => if Nat.eqb (length l) (length m) then Some (VT (map2 (sem o) l m)) else None
  | VS x, VS y => Some (VS (sem o x y))
  | _, _ => None
  end.
(** tensor_ext.rotate_and_reduce with period 1 and as many steps as elements:
    element j combines the elements j, j + 1, ... of the tensor *)
Definition reduce_all (o : arith) (l : list E) : list E :=
  match l with
  | [] => []
  | d :: _ => map (fun j => match rot E (Z.of_nat j) l with [] => d | a :: r => fold_left (sem o) r a end) (seq 0 (length l))
  end.
Fixpoint bins (o : arith) (v : val) (vals : list val) (saved : list tref) : option val :=
  match saved with
  | [] => Some v
  | s :: saved' => match vget vals s with
                   | Some x => match bin o v x with Some v' => bins o v' vals saved' | None => None end
                   | None => None
                   end
  end.
Definition rexec (vals : list val) (op : rop) : option val :=
  match op with
  | Rot t s => match vget vals t with Some (VT l) => Some (VT (rot E (iget idx s) l)) | _ => None end
  | Ext t i => match vget vals t with Some (VT l) => match at_index E l (iget idx i) with Some e => Some (VS e) | None => None end | _ => None end
  | Bin o a b => match vget vals a, vget vals b with Some x, Some y => bin o x y | _, _ => None end
  | Other x => other x vals
  | Reduce o t extraction saved =>
      match vget vals t with
      | Some (VT l) =>
          let r := reduce_all o l in
          if extraction then match at_index E r 0 with Some e => bins o (VS e) vals saved | None => None end
          else bins o (VT r) vals saved
      | _ => None
      end
  end.
Fixpoint rrun (vals : list val) (p : rprogram) : option (list val) :=
  match p with
  | [] => Some vals
  | o :: p' => match rexec vals o with Some v => rrun (vals ++ [v]) p' | None => None end
  end.
(** a value of a type; tensors are not empty *)
Definition has_type (v : val) (ty : option Z) : Prop :=
  match ty, v with Some n, VT l => Z.of_nat (length l) = n /\ 0 < n | None, VS _ => True | _, _ => False end.
End Meaning.
Arguments VT {E}. Arguments VS {E}.

(** ** The analysis *)
(** PartialReductionRotateAnalysis.h:294-330.  The length of the tensor is kept
    beside it; std::set<int64_t> is an increasing list. *)
Record reduction := { r_tensor : tref; r_len : Z; r_op : option arith; r_idx : list Z; r_saved : list tref }.

Fixpoint ins (z : Z) (l : list Z) : list Z :=
  match l with [] => [z] | a :: l' => if z <? a then z :: l else if z =? a then l else a :: ins z l' end.
Definition set_of (l : list Z) : list Z := fold_left (fun s z => ins z s) l [].

Definition arith_eqb (a b : arith) : bool :=
  match a, b with AddI, AddI | SubI, SubI | MulI, MulI | AddF, AddF | SubF, SubF | MulF, MulF => true | _, _ => false end.
Definition same_op (r : option arith) (o : arith) : bool := match r with Some o' => arith_eqb o' o | None => true end.

(** 41-54; the tensor of the reduction has length [r_len] *)
Definition isComplete (r : reduction) : bool :=
  (hd 0 (r_idx r) =? 0) && (last (r_idx r) 0 =? r_len r - 1) && (Z.of_nat (length (r_idx r)) =? r_len r).
(** 82-94 *)
Definition initializeFromValue (t : tref) (n : Z) : reduction :=
  {| r_tensor := t; r_len := n; r_op := None; r_idx := set_of [0]; r_saved := [] |}.
(** 99-120; % truncates *)
Definition rotate (shift : Z) (r : reduction) : reduction :=
  {| r_tensor := r_tensor r; r_len := r_len r; r_op := r_op r;
     r_idx := set_of (map (fun i => Z.rem (i + shift) (r_len r)) (r_idx r)); r_saved := [] |}.
(** 124-161 *)
Definition canJoin (l r : reduction) (o : arith) : bool :=
  tref_eqb (r_tensor l) (r_tensor r) &&
  match r_op l, r_op r with
  | None, None => true
  | Some a, Some b => arith_eqb a b && arith_eqb a o
  | Some a, None => arith_eqb a o
  | None, Some b => arith_eqb b o
  end &&
  let smaller := if (length (r_idx l) <? length (r_idx r))%nat then l else r in
  let larger := if (length (r_idx r) <=? length (r_idx l))%nat then l else r in
  forallb (fun i => negb (existsb (Z.eqb i) (r_idx larger))) (r_idx smaller).
(** 165-194 *)
Definition join (l r : reduction) (o : arith) : reduction :=
  {| r_tensor := r_tensor l; r_len := r_len l; r_op := Some o; r_idx := set_of (r_idx l ++ r_idx r); r_saved := r_saved l ++ r_saved r |}.
(** 198-218 *)
Definition canSave (l : reduction) (rhs_is_tensor : bool) (o : arith) : bool := same_op (r_op l) o && negb rhs_is_tensor.
(** 222-238 *)
Definition save (l : reduction) (rhs : tref) (o : arith) : reduction :=
  {| r_tensor := r_tensor l; r_len := r_len l; r_op := Some o; r_idx := set_of (r_idx l); r_saved := r_saved l ++ [rhs] |}.

Section Analysis.
(** types: [Some n] a tensor of rank one and length n, [None] a scalar *)
Variable atyp otyp : nat -> option Z.
(** the types of the results so far and the reductions rooted there *)
Notation table := (list (option Z * list reduction)).
Definition typ (tab : table) (t : tref) : option Z :=
  match t with Arg x => atyp x | Res k => match nth_error tab k with Some e => fst e | None => None end end.
(** rootToPartialReductions; the arguments are initialised at the block (.cpp:47-54) *)
Definition rooted (tab : table) (t : tref) : list reduction :=
  match t with
  | Arg x => match atyp x with Some n => [initializeFromValue t n] | None => [] end
  | Res k => match nth_error tab k with Some e => snd e | None => [] end
  end.
Definition is_tensor (tab : table) (t : tref) : bool := match typ tab t with Some _ => true | None => false end.
(** the ops of the last case (.cpp:140) *)
Definition reducible (o : arith) : bool := match o with AddI | MulI | AddF | MulF => true | SubI | SubF => false end.
(** .cpp:140-189 *)
Definition visit_bin (tab : table) (o : arith) (a b : tref) : list reduction :=
  if reducible o then
    let joined := flat_map (fun l => map (fun r => join l r o) (filter (fun r => canJoin l r o) (rooted tab b))) (rooted tab a) in
    match joined with
    | [] => map (fun l => save l b o) (filter (fun l => canSave l (is_tensor tab b) o) (rooted tab a)) ++
            map (fun r => save r a o) (filter (fun r => canSave r (is_tensor tab a) o) (rooted tab b))
    | _ => joined
    end
  else [].
Definition type_of_op (tab : table) (op : rop) : option Z :=
  match op with
  | Rot t _ => typ tab t
  | Ext _ _ => None
  | Bin _ a _ => typ tab a
  | Other x => otyp x
  | Reduce _ t extraction _ => if extraction then None else typ tab t
  end.
(** .cpp:28-192 for one operation *)
Definition visit (tab : table) (op : rop) : option Z * list reduction :=
  let ty := type_of_op tab op in
  let start := match ty with Some n => [initializeFromValue (Res (length tab)) n] | None => [] end in
  (ty, start ++
       match op with
       | Rot t (Cst s) | Ext t (Cst s) => map (rotate s) (rooted tab t)
       | Bin o a b => visit_bin tab o a b
       | _ => []
       end).
Fixpoint analyse (tab : table) (p : rprogram) : table :=
  match p with [] => tab | op :: p' => analyse (tab ++ [visit tab op]) p' end.

(** ** The pass *)
(** RotateAndReduce.cpp:91-125: the first complete reduction of a tensor with
    several elements *)
Definition candidate (r : reduction) : bool := isComplete r && (1 <? r_len r).
(** 35-74 *)
Definition replace (op : rop) (e : option Z * list reduction) : rop :=
  match op with
  | Bin o _ _ =>
      if reducible o then
        match find candidate (snd e) with
        | Some r => Reduce o (r_tensor r) (match fst e with Some _ => false | None => true end) (r_saved r)
        | None => op
        end
      else op
  | _ => op
  end.
Definition rotate_and_reduce (p : rprogram) : rprogram := map2 replace p (analyse [] p).

(** ** Conditions *)
(** the input of the pass *)
Definition no_reduce (p : rprogram) : Prop := forall o t e s, ~ In (Reduce o t e s) p.
(** no rotation or extraction merges two indices of a reduction *)
Definition no_merge (p : rprogram) : Prop :=
  forall t s r, In (Rot t (Cst s)) p \/ In (Ext t (Cst s)) p -> In r (rooted (analyse [] p) t) ->
    length (r_idx (rotate s r)) = length (r_idx r).
End Analysis.

(** t + rot(t, 1) + ... + rot(t, m), one addition after the other *)
Definition prev (i : nat) : tref := match i with O => Arg 0 | S k => Res (2 * k + 1) end.
Definition link (o : arith) (i : nat) : rprogram := [Rot (Arg 0) (Cst (Z.of_nat i + 1)); Bin o (prev i) (Res (2 * i))].
Definition chain (o : arith) (m : nat) : rprogram := flat_map (link o) (seq 0 m).
