(** Model of the dimension analysis and of the placement of relinearizations.
    Sources: lib/Analysis/DimensionAnalysis/DimensionAnalysis.{h,cpp},
    lib/Analysis/OptimizeRelinearizationAnalysis/OptimizeRelinearizationAnalysis.cpp,
    lib/Transforms/OptimizeRelinearization/OptimizeRelinearization.cpp.
    A program is the body of a secret.generic.  Values are numbers.  Operations with regions are loops with a
    constant number of iterations (affine.for).  The result of the secretness analysis is a parameter. *)
From Coq Require Import List Bool Arith QArith.
Import ListNotations.
Local Open Scope nat_scope.

Inductive kind :=
| KMul                     (* arith.muli, arith.mulf *)
| KRotate                  (* tensor_ext.rotate *)
| KModReduce               (* mgmt.modreduce *)
| KRelin                   (* mgmt.relinearize *)
| KOther.
(** An operand is a value and whether maybePlaintextOperands lists it. *)
Definition operand := (nat * bool)%type.
Inductive code :=
| End
| Do (k : kind) (f : nat) (args : list operand) (res : list nat) (c : code)
| For (trips : nat) (inits bargs : list nat) (body : code) (ys res : list nat) (c : code).
Record prog := Prog { pargs : list nat; pcode : code; outs : list nat }.

(** * The dimension analysis *)
Definition dims := nat -> option nat.
(** DimensionState::join, DimensionAnalysis.h:47-53 *)
Definition join (l r : option nat) : option nat :=
  match l, r with None, _ => r | _, None => l | Some a, Some b => Some (Nat.max a b) end.
Definition join_into (d : option nat) (st : dims) (v : nat) : dims :=
  fun u => if u =? v then join (st u) d else st u.

Section Analysis.
  Variable sec : nat -> bool.
  Definition secret_operands (args : list operand) : list nat := filter sec (map fst args).
  (** visitOperation, DimensionAnalysis.cpp:33-92: the loop over the secret operands; None: an operand is uninitialized *)
  Fixpoint dim_loop (mul : bool) (st : dims) (vs : list nat) (acc : nat) : option nat :=
    match vs with
    | [] => Some acc
    | v :: vs' => match st v with
                  | None => None
                  | Some d => dim_loop mul st vs' (if mul then acc + d else Nat.max acc d)
                  end
    end.
  Definition visit_op (st : dims) (k : kind) (args : list operand) : option nat :=
    match k with
    | KRelin => Some 2
    | KMul => let vs := secret_operands args in
              option_map (fun d => if length vs =? 2 then d - 1 else d) (dim_loop true st vs 0)
    | _ => dim_loop false st (secret_operands args) 2
    end.
  (** One update step: an operation, or the flow of a value to another one by the framework (loops). *)
  Inductive update := UOp (k : kind) (args : list operand) (res : list nat) | UFlow (a b : nat).
  Definition visit (st : dims) (u : update) : dims :=
    match u with
    | UOp KRelin args res => fold_left (join_into (Some 2)) res st
    | UOp k args res => fold_left (join_into (visit_op st k args)) (filter sec res) st
    | UFlow a b => join_into (st a) st b
    end.
  Fixpoint updates (c : code) : list update :=
    match c with
    | End => []
    | Do k f args res c => UOp k args res :: updates c
    | For t inits bargs body ys res c =>
        map (fun p => UFlow (fst p) (snd p)) (combine inits bargs ++ combine ys bargs ++ combine inits res ++ combine ys res) ++
        updates body ++ updates c
    end.
  (** The solver stops when no step changes anything. *)
  Definition stable (c : code) (st : dims) : Prop := forall u, In u (updates c) -> forall v, visit st u v = st v.
End Analysis.

(** * OptimizeRelinearization.cpp:38-41: all relinearizations are removed *)
Definition upd (s : nat -> nat) (v x : nat) : nat -> nat := fun u => if u =? v then x else s u.
Definition subst (s : nat -> nat) (args : list operand) : list operand := map (fun p => (s (fst p), snd p)) args.
(** [s] is the substitution made by replaceAllUsesWith *)
Fixpoint strip (s : nat -> nat) (c : code) : code * (nat -> nat) :=
  match c with
  | End => (End, s)
  | Do KRelin f [(a, fl)] [r] c => strip (upd s r (s a)) c
  | Do k f args res c => let '(c', s') := strip s c in (Do k f (subst s args) res c', s')
  | For t inits bargs body ys res c =>
      let '(body', sb) := strip s body in
      let '(c', s') := strip s c in
      (For t (map s inits) bargs body' (map sb ys) res c', s')
  end.
Definition strip_prog (p : prog) : prog :=
  let '(c, s) := strip (fun v => v) (pcode p) in Prog (pargs p) c (map s (outs p)).

(** * The integer program, OptimizeRelinearizationAnalysis.cpp *)
(** A solution: degree after the decision (keyBasisVars), before it (beforeRelinVars), and the decision for the
    operation, which is named by its first result. *)
Record solution := Solution { deg : nat -> Q; bef : nat -> Q; ins : nat -> bool }.
Local Open Scope Q_scope.
Definition in_bounds (x : Q) : Prop := 0 <= x /\ x <= 2.                     (* MAX_KEY_BASIS_DEGREE *)
Definition aux : Q := 100.                                                  (* IF_THEN_AUX *)
Definition b2q (b : bool) : Q := if b then 1 else 0.

Section Ilp.
  Variable sec : nat -> bool.
  Variable mixed : bool.             (* allowMixedDegreeOperands *)
  Variable dim : nat -> option nat.  (* the dimensions found before the removal, used for block arguments *)
  Variable x : solution.

  Definition all_secret (res : list nat) : bool := match res with [] => false | _ => forallb sec res end.
  (** 166-172: block arguments *)
  Definition arg_ok (a : nat) : Prop :=
    sec a = true ->
    in_bounds (deg x a) /\ deg x a == inject_Z (Z.of_nat (match dim a with Some d => d | None => 2%nat end)) - 1.
  (** 181-219: the secret operands of an operation have the degree of the first one *)
  Definition equal_operands (vs : list nat) : Prop :=
    match filter sec vs with [] => True | a :: l => mixed = false -> Forall (fun v => deg x v == deg x a) l end.
  (** 227-266: operations that need linear operands *)
  Definition require_linear (k : kind) (args : list operand) : bool :=
    match k with
    | KRotate | KModReduce => true
    | _ => existsb (fun p => sec (fst p)) args && existsb (fun p => snd p && negb (sec (fst p))) args
    end.
  Definition linear (vs : list nat) : Prop := Forall (fun v => sec v = true -> deg x v == 1) vs.
  (** 275-381: the degree before the decision *)
  Definition before_ok (k : kind) (args : list operand) (res : list nat) : Prop :=
    match k with
    | KMul =>
        match args, res with
        | [(l, _); (r, _)], [o] =>
            sec o = true ->
            if sec l && sec r then bef x o == deg x l + deg x r
            else match filter sec [l; r] with a :: _ => bef x o == deg x a | [] => False end
        | _, _ => False
        end
    | _ =>
        all_secret res = true ->
        if mixed then Forall (fun a => Forall (fun r => deg x a <= bef x r) res) (filter sec (map fst args))
        else match filter sec (map fst args) with
             | a :: _ => Forall (fun r => bef x r == deg x a) res
             | [] => False                                   (* secretOperands[0] of an empty vector *)
             end
    end.
  (** 394-443: the effect of the decision *)
  Definition decision_ok (res : list nat) : Prop :=
    all_secret res = true ->
    let d := b2q (ins x (hd 0%nat res)) in
    Forall (fun r => d <= deg x r /\ deg x r <= 1 + aux * (1 - d) /\
                     bef x r - aux * d <= deg x r /\ deg x r <= bef x r + aux * d) res.
  (** 117-137: bounds of the variables of secret results *)
  Definition vars_ok (res : list nat) : Prop :=
    Forall (fun r => sec r = true -> in_bounds (deg x r) /\ in_bounds (bef x r)) res.
  Definition op_ok (k : kind) (args : list operand) (res : list nat) : Prop :=
    vars_ok res /\ equal_operands (map fst args) /\
    (require_linear k args = true -> linear (map fst args)) /\
    before_ok k args res /\ decision_ok res.
  Fixpoint code_ok (c : code) : Prop :=
    match c with
    | End => True
    | Do k _ args res c => op_ok k args res /\ code_ok c
    | For _ inits bargs body ys res c =>
        Forall arg_ok bargs /\ op_ok KOther (map (fun v => (v, false)) inits) res /\
        equal_operands ys /\ code_ok body /\ code_ok c
    end.
  Definition feasible (p : prog) : Prop :=
    Forall arg_ok (pargs p) /\ code_ok (pcode p) /\
    linear (outs p) /\ equal_operands (outs p).
End Ilp.
Local Open Scope nat_scope.

(** The objective, 383-391: the number of decisions. *)
Fixpoint cost (sec : nat -> bool) (is : nat -> bool) (c : code) : nat :=
  match c with
  | End => 0
  | Do _ _ _ res c => (if all_secret sec res && is (hd 0 res) then 1 else 0) + cost sec is c
  | For _ _ _ body _ res c => (if all_secret sec res && is (hd 0 res) then 1 else 0) + cost sec is body + cost sec is c
  end.

(** * OptimizeRelinearization.cpp:52-64: relinearizations are inserted.  Here the operation gets new numbers
    n + r for its results and the relinearization defines r; in the code the uses of r are redirected. *)
Fixpoint relins (n : nat) (res : list nat) (c : code) : code :=
  match res with [] => c | r :: res' => Do KRelin 0 [(n + r, false)] [r] (relins n res' c) end.
Fixpoint insert (sec : nat -> bool) (is : nat -> bool) (n : nat) (c : code) : code :=
  match c with
  | End => End
  | Do k f args res c =>
      if all_secret sec res && is (hd 0 res)
      then Do k f args (map (Nat.add n) res) (relins n res (insert sec is n c))
      else Do k f args res (insert sec is n c)
  | For t inits bargs body ys res c =>
      if all_secret sec res && is (hd 0 res)
      then For t inits bargs (insert sec is n body) ys (map (Nat.add n) res) (relins n res (insert sec is n c))
      else For t inits bargs (insert sec is n body) ys res (insert sec is n c)
  end.
(** a number larger than all values *)
Fixpoint top (c : code) : nat :=
  match c with
  | End => 0
  | Do _ _ args res c => Nat.max (list_max (map fst args ++ res)) (top c)
  | For _ inits bargs body ys res c => Nat.max (list_max (inits ++ bargs ++ ys ++ res)) (Nat.max (top body) (top c))
  end.
Definition fresh (p : prog) : nat := S (Nat.max (list_max (pargs p ++ outs p)) (top (pcode p))).
Definition insert_prog (sec is : nat -> bool) (p : prog) : prog :=
  Prog (pargs p) (insert sec is (fresh p) (pcode p)) (outs p).
(** the whole pass, given the answer of the solver *)
Definition optimize (sec : nat -> bool) (x : solution) (p : prog) : prog := insert_prog sec (ins x) (strip_prog p).
(** the secretness of the values of the new program *)
Definition sec_after (sec : nat -> bool) (p : prog) (v : nat) : bool :=
  let n := fresh (strip_prog p) in if v <? n then sec v else sec (v - n).
