(** * Programs that rotate ciphertexts, and the rotations they execute

    What the rotation analysis has to guarantee is stated on a small language
    of functions: integer arithmetic, rotations, loops and branches. Running a
    program yields the amounts by which it rotates ciphertexts; a rotation by
    an amount can be executed if a rotation key was generated for that amount,
    up to the number of slots. *)
From Coq Require Import ZArith List Bool.
Import ListNotations.
Open Scope Z_scope.

(** An operand: a compile-time constant, or an SSA value. *)
Inductive operand := K (z : Z) | X (x : nat).

Inductive pred := Slt | Sle | Sgt | Sge | Ult | Ule | Ugt | Uge | Eq | Ne.

Inductive binop := Add | Sub | Mul | Cmp (p : pred).

(** Operations. [OtherInt] is any further operation computing an integer
    ([arith.remsi], [arith.index_cast], [tensor.extract], ...); [OtherCt] any
    further operation computing a ciphertext from ciphertexts. A loop has
    results, bounds, an induction variable, region arguments, initial values, a
    body and the operands of its yield. [IfThen] is an [scf.if] without else. *)
Inductive op :=
| Bin (r : nat) (o : binop) (a b : operand)
| Div (r : nat) (a b : operand)
| Rot (r t : nat) (shifts : list operand)
| OtherInt (r : nat) (f : list Z -> Z) (args : list operand)
| OtherCt (r : nat) (args : list nat)
| For (rs : list nat) (lb ub step : operand) (iv : nat) (args : list nat)
      (inits : list operand) (body : block) (ys : list operand)
| If (rs : list nat) (c : operand) (th : block) (yt : list operand)
     (el : block) (ye : list operand)
| IfThen (c : operand) (th : block)
with block := Nil | Cons (o : op) (b : block).

Fixpoint ops (b : block) : list op :=
  match b with Nil => [] | Cons o b => o :: ops b end.

Fixpoint blk (l : list op) : block :=
  match l with [] => Nil | o :: l => Cons o (blk l) end.

(** Values: integers, or ciphertexts (whose contents do not matter here). *)
Inductive val := VInt (z : Z) | VCt.

Definition is_ct (v : val) : bool := match v with VCt => true | VInt _ => false end.

Definition env := nat -> option val.

(** Integers are 64 bits wide and wrap around. *)
Definition wrap64 (z : Z) : Z := (z + 2 ^ 63) mod 2 ^ 64 - 2 ^ 63.

Definition uns64 (z : Z) : Z := z mod 2 ^ 64.

Definition holds (p : pred) (a b : Z) : bool :=
  match p with
  | Slt => a <? b | Sle => a <=? b | Sgt => b <? a | Sge => b <=? a
  | Ult => uns64 a <? uns64 b | Ule => uns64 a <=? uns64 b
  | Ugt => uns64 b <? uns64 a | Uge => uns64 b <=? uns64 a
  | Eq => a =? b | Ne => negb (a =? b)
  end.

Definition run_bin (o : binop) (a b : Z) : Z :=
  match o with
  | Add => wrap64 (a + b)
  | Sub => wrap64 (a - b)
  | Mul => wrap64 (a * b)
  | Cmp p => if holds p a b then 1 else 0
  end.

Definition value (r : env) (o : operand) : option val :=
  match o with K z => Some (VInt z) | X x => r x end.

Definition int_value (r : env) (o : operand) : option Z :=
  match value r o with Some (VInt z) => Some z | _ => None end.

Fixpoint all {A B} (f : A -> option B) (l : list A) : option (list B) :=
  match l with
  | [] => Some []
  | a :: l =>
      match f a, all f l with Some b, Some bs => Some (b :: bs) | _, _ => None end
  end.

(** How often [for (i = lb; i < ub; i += step)] runs its body. *)
Definition trips (lb ub step : Z) : nat := Z.to_nat ((ub - lb + step - 1) / step).

(** The body run [k] times from index [i]. *)
Fixpoint repeat_body (f : Z -> list val -> option (list val * list Z))
    (step : Z) (k : nat) (i : Z) (vs : list val) : option (list val * list Z) :=
  match k with
  | O => Some (vs, [])
  | S k =>
      match f i vs with
      | Some (vs', l) =>
          match repeat_body f step k (i + step) vs' with
          | Some (ws, l') => Some (ws, l ++ l')
          | None => None
          end
      | None => None
      end
  end.

(** [ty] gives the type of each SSA value: is it a ciphertext? *)
Definition set (ty : nat -> bool) (r : env) (x : nat) (v : val) : option env :=
  if Bool.eqb (is_ct v) (ty x)
  then Some (fun y => if Nat.eqb y x then Some v else r y)
  else None.

Fixpoint sets (ty : nat -> bool) (r : env) (xs : list nat) (vs : list val) : option env :=
  match xs, vs with
  | [], [] => Some r
  | x :: xs, v :: vs =>
      match set ty r x v with Some r => sets ty r xs vs | None => None end
  | _, _ => None
  end.

(** Running an operation: the values afterwards and the rotation amounts. *)
Fixpoint run_op (ty : nat -> bool) (r : env) (o : op) : option (env * list Z) :=
  match o with
  | Bin x o a b =>
      match int_value r a, int_value r b with
      | Some a, Some b => option_map (fun r => (r, [])) (set ty r x (VInt (run_bin o a b)))
      | _, _ => None
      end
  | Div x a b =>
      match int_value r a, int_value r b with
      | Some a, Some b =>
          if b =? 0 then None
          else option_map (fun r => (r, [])) (set ty r x (VInt (wrap64 (Z.quot a b))))
      | _, _ => None
      end
  | Rot x t shifts =>
      match r t, all (int_value r) shifts with
      | Some VCt, Some l => option_map (fun r => (r, l)) (set ty r x VCt)
      | _, _ => None
      end
  | OtherInt x f args =>
      match all (int_value r) args with
      | Some l => option_map (fun r => (r, [])) (set ty r x (VInt (f l)))
      | None => None
      end
  | OtherCt x args =>
      if forallb (fun a => match r a with Some VCt => true | _ => false end) args
      then option_map (fun r => (r, [])) (set ty r x VCt) else None
  | For rs lb ub step iv args inits body ys =>
      match int_value r lb, int_value r ub, int_value r step with
      | Some lb, Some ub, Some step =>
          if step <=? 0 then None
          else
            match all (value r) inits with
            | Some vs =>
                match
                  repeat_body
                    (fun i vs =>
                       match set ty r iv (VInt i) with
                       | Some r1 =>
                           match sets ty r1 args vs with
                           | Some r2 =>
                               match run ty r2 body with
                               | Some (r3, l) =>
                                   option_map (fun ws => (ws, l)) (all (value r3) ys)
                               | None => None
                               end
                           | None => None
                           end
                       | None => None
                       end) step (trips lb ub step) lb vs
                with
                | Some (ws, l) => option_map (fun r => (r, l)) (sets ty r rs ws)
                | None => None
                end
            | None => None
            end
      | _, _, _ => None
      end
  | If rs c th yt el ye =>
      match int_value r c with
      | Some z =>
          match (if z =? 0 then run ty r el else run ty r th) with
          | Some (r1, l) =>
              match all (value r1) (if z =? 0 then ye else yt) with
              | Some ws => option_map (fun r => (r, l)) (sets ty r rs ws)
              | None => None
              end
          | None => None
          end
      | None => None
      end
  | IfThen c th =>
      match int_value r c with
      | Some z =>
          if z =? 0 then Some (r, [])
          else option_map (fun p => (r, snd p)) (run ty r th)
      | None => None
      end
  end
with run (ty : nat -> bool) (r : env) (b : block) : option (env * list Z) :=
  match b with
  | Nil => Some (r, [])
  | Cons o b =>
      match run_op ty r o with
      | Some (r1, l1) =>
          match run ty r1 b with
          | Some (r2, l2) => Some (r2, l1 ++ l2)
          | None => None
          end
      | None => None
      end
  end.


(** A key set [s] serves a rotation by [a] on [n] slots. *)
Definition serves (n : Z) (s : list Z) (a : Z) : Prop :=
  exists k, In k s /\ k mod n = a mod n.

(** ** Shapes of programs *)

(** The values an operation defines, at any depth. *)
Fixpoint defs (o : op) : list nat :=
  match o with
  | Bin r _ _ _ | Div r _ _ | Rot r _ _ | OtherInt r _ _ | OtherCt r _ => [r]
  | For rs _ _ _ iv args _ body _ => iv :: args ++ defsb body ++ rs
  | If rs _ th _ el _ => defsb th ++ defsb el ++ rs
  | IfThen _ th => defsb th
  end
with defsb (b : block) : list nat :=
  match b with Nil => [] | Cons o b => defs o ++ defsb b end.

(** The results of an operation. *)
Definition results (o : op) : list nat :=
  match o with
  | Bin r _ _ _ | Div r _ _ | Rot r _ _ | OtherInt r _ _ | OtherCt r _ => [r]
  | For rs _ _ _ _ _ _ _ _ => rs
  | If rs _ _ _ _ _ => rs
  | IfThen _ _ => []
  end.

(** Single assignment, with no value defined outside redefined inside. *)
Definition ssa (r : env) (b : block) : Prop :=
  NoDup (defsb b) /\ forall x, In x (defsb b) -> r x = None.

Definition names (l : list operand) : list nat :=
  flat_map (fun o => match o with K _ => [] | X x => [x] end) l.

(** Does the operation contain a rotation? *)
Fixpoint rotates (o : op) : bool :=
  match o with
  | Rot _ _ _ => true
  | For _ _ _ _ _ _ _ body _ => rotatesb body
  | If _ _ th _ el _ => rotatesb th || rotatesb el
  | IfThen _ th => rotatesb th
  | _ => false
  end
with rotatesb (b : block) : bool :=
  match b with Nil => false | Cons o b => rotates o || rotatesb b end.

(** The operands an operation's results depend on directly. *)
Definition operands (o : op) : list nat :=
  match o with
  | Bin _ _ a b => names [a; b]
  | Div _ a _ => names [a]
  | Rot _ t shifts => t :: names shifts
  | OtherInt _ _ _ => []
  | OtherCt _ args => args
  | For _ _ _ _ _ _ inits _ _ => names inits
  | If _ c _ _ _ _ => names [c]
  | IfThen _ _ => []
  end.

(** [x] is used, directly or through operations of [b], by the yield [ys]. *)
Inductive reaches (b : block) (ys : list operand) : nat -> Prop :=
| reaches_yield : forall x, In x (names ys) -> reaches b ys x
| reaches_op : forall x o r, In o (ops b) -> In x (operands o) ->
    In r (results o) -> reaches b ys r -> reaches b ys x.

(** In every block of the operation, what rotates reaches the block's yield. *)
Definition used (b : block) (ys : list operand) : Prop :=
  forall o, In o (ops b) -> rotates o = true ->
    exists r, In r (results o) /\ reaches b ys r.

Fixpoint all_used (o : op) : Prop :=
  match o with
  | For _ _ _ _ _ _ _ body ys => used body ys /\ all_usedb body
  | If _ _ th yt el ye => (used th yt /\ all_usedb th) /\ used el ye /\ all_usedb el
  | IfThen _ th => all_usedb th
  | _ => True
  end
with all_usedb (b : block) : Prop :=
  match b with Nil => True | Cons o b => all_used o /\ all_usedb b end.

(** The values an operation uses, at any depth, except what only further
    integer operations use. *)
Fixpoint uses (o : op) : list nat :=
  match o with
  | Bin _ _ a b => names [a; b]
  | Div _ a b => names [a; b]
  | Rot _ t shifts => t :: names shifts
  | OtherInt _ _ _ => []
  | OtherCt _ args => args
  | For _ lb ub step _ _ inits body ys => names (lb :: ub :: step :: inits) ++ usesb body ++ names ys
  | If _ c th yt el ye => names [c] ++ (usesb th ++ names yt) ++ usesb el ++ names ye
  | IfThen c th => names [c] ++ usesb th
  end
with usesb (b : block) : list nat :=
  match b with Nil => [] | Cons o b => uses o ++ usesb b end.

(** The values defined by other than further integer operations. *)
Fixpoint known (o : op) : list nat :=
  match o with
  | Bin r _ _ _ | Div r _ _ | Rot r _ _ | OtherCt r _ => [r]
  | OtherInt _ _ _ => []
  | For rs _ _ _ iv args _ body _ => iv :: args ++ knownb body ++ rs
  | If rs _ th _ el _ => knownb th ++ knownb el ++ rs
  | IfThen _ th => knownb th
  end
with knownb (b : block) : list nat :=
  match b with Nil => [] | Cons o b => known o ++ knownb b end.

Definition signed_pred (p : pred) : bool :=
  match p with Ult | Ule | Ugt | Uge => false | _ => true end.

(** No unsigned comparisons. *)
Fixpoint signed (o : op) : bool :=
  match o with
  | Bin _ (Cmp p) _ _ => signed_pred p
  | For _ _ _ _ _ _ _ body _ => signedb body
  | If _ _ th _ el _ => signedb th && signedb el
  | IfThen _ th => signedb th
  | _ => true
  end
with signedb (b : block) : bool :=
  match b with Nil => true | Cons o b => signed o && signedb b end.

(** Every integer an outermost loop uses is computed inside the loop by the
    arithmetic above, or is a constant. *)
Definition self_contained (ty : nat -> bool) (o : op) : Prop :=
  forall x, In x (uses o) -> ty x = false -> In x (known o).

(** The loops not inside other loops. *)
Fixpoint outer_loops (o : op) : list op :=
  match o with
  | For _ _ _ _ _ _ _ _ _ => [o]
  | If _ _ th _ el _ => outer_loopsb th ++ outer_loopsb el
  | IfThen _ th => outer_loopsb th
  | _ => []
  end
with outer_loopsb (b : block) : list op :=
  match b with Nil => [] | Cons o b => outer_loops o ++ outer_loopsb b end.

(** The rotation amounts of an operation, as written. *)
Fixpoint shifts_of (o : op) : list operand :=
  match o with
  | Rot _ _ shifts => shifts
  | For _ _ _ _ _ _ _ body _ => shifts_ofb body
  | If _ _ th _ el _ => shifts_ofb th ++ shifts_ofb el
  | IfThen _ th => shifts_ofb th
  | _ => []
  end
with shifts_ofb (b : block) : list operand :=
  match b with Nil => [] | Cons o b => shifts_of o ++ shifts_ofb b end.

(** A loop all whose rotations are by constants, or whose rotations can be
    found by running the loop alone. *)
Definition simple_loop (ty : nat -> bool) (o : op) : Prop :=
  names (shifts_of o) = [] \/
  (self_contained ty o /\ signed o = true /\ all_used o).

(** Values of the right types. *)
Definition typed_env (ty : nat -> bool) (r : env) : Prop :=
  forall x v, r x = Some v -> is_ct v = ty x.
