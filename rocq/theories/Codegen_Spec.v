(** The loop nests isl hands over as an abstract syntax tree, and what they do when read as C. *)
From Coq Require Import String ZArith List Bool.
Import ListNotations.
Open Scope Z_scope.

(** isl_ast_expr_op_type: the operations that are printed by isl's C printer as arithmetic, comparison and conditional expressions.
    [OOther] stands for all others (short-circuit and/or, conditional evaluation, calls, accesses, members, addresses). *)
Inductive op := OAdd | OSub | OMul | ODiv | OFdivQ | OPdivQ | OPdivR | OZdivR | OMax | OMin | OMinus
              | OAnd | OOr | OEq | OLt | OLe | OGt | OGe | OSelect | OOther.
Inductive expr := EId (name : string) | EInt (z : Z) | EOp (o : op) (args : list expr) | EError.
(** [NFor it init cond inc body] is [for (int it = init; cond; it += inc) body]; [NUser args] is the statement [S(args)]. *)
Inductive node :=
| NFor (it : string) (init cond inc : expr) (body : node)
| NIf (cond : expr) (thn : node) (els : option node)
| NBlock (children : list node)
| NUser (args : list expr)
| NOther.

(** Values: integers and truth values, which isl keeps apart. *)
Inductive kind := KInt | KBool.
Inductive ival := IInt (z : Z) | IBool (b : bool).
Definition kind_of (v : ival) : kind := match v with IInt _ => KInt | IBool _ => KBool end.
(** in a comparison of an integer and a truth value the latter counts as 0 or 1 *)
Definition as_int (v : ival) : Z := match v with IInt z => z | IBool b => if b then 1 else 0 end.

(** All values that occur are far from the ends of the range of 32 bits. *)
Definition small (z : Z) : bool := (- 2 ^ 30 <? z) && (z <? 2 ^ 30).
Definition int (z : Z) : option ival := if small z then Some (IInt z) else None.

Definition scope := list (string * Z).
Fixpoint find {A : Type} (name : string) (s : list (string * A)) : option A :=
  match s with
  | [] => None
  | (n, x) :: s => if String.eqb name n then Some x else find name s
  end.

Fixpoint all {A : Type} (l : list (option A)) : option (list A) :=
  match l with
  | [] => Some []
  | x :: l => match x, all l with Some x, Some l => Some (x :: l) | _, _ => None end
  end.

(** The isl manual: div is an integer division known to be exact, pdiv_q and pdiv_r are quotient and remainder of a dividend that is
    known to be non-negative, fdiv_q rounds to minus infinity, zdiv_r is printed as the remainder operator of C (and is only compared
    to zero); divisors are positive. *)
Definition apply (o : op) (vs : list ival) : option ival :=
  match o, vs with
  | OAdd, [IInt a; IInt b] => int (a + b)
  | OSub, [IInt a; IInt b] => int (a - b)
  | OMul, [IInt a; IInt b] => int (a * b)
  | ODiv, [IInt a; IInt b] => if (0 <? b) && (a mod b =? 0) then int (a / b) else None
  | OFdivQ, [IInt a; IInt b] => if 0 <? b then int (a / b) else None
  | OPdivQ, [IInt a; IInt b] => if (0 <? b) && (0 <=? a) then int (a / b) else None
  | OPdivR, [IInt a; IInt b] => if (0 <? b) && (0 <=? a) then int (a mod b) else None
  | OZdivR, [IInt a; IInt b] => if 0 <? b then int (Z.rem a b) else None
  | OMinus, [IInt a] => int (- a)
  | OAnd, [IBool a; IBool b] => Some (IBool (a && b))
  | OOr, [IBool a; IBool b] => Some (IBool (a || b))
  | OEq, [a; b] => Some (IBool (as_int a =? as_int b))
  | OLt, [IInt a; IInt b] => Some (IBool (a <? b))
  | OLe, [IInt a; IInt b] => Some (IBool (a <=? b))
  | OGt, [IInt a; IInt b] => Some (IBool (b <? a))
  | OGe, [IInt a; IInt b] => Some (IBool (b <=? a))
  | OSelect, [IBool c; a; b] => Some (if c then a else b)
  | OMax, IInt a :: vs =>
      fold_left (fun m v => match m, v with Some (IInt m), IInt v => Some (IInt (Z.max m v)) | _, _ => None end) vs (Some (IInt a))
  | OMin, IInt a :: vs =>
      fold_left (fun m v => match m, v with Some (IInt m), IInt v => Some (IInt (Z.min m v)) | _, _ => None end) vs (Some (IInt a))
  | _, _ => None
  end.

Fixpoint eval (s : scope) (e : expr) : option ival :=
  match e with
  | EId n => match find n s with Some z => int z | None => None end
  | EInt z => int z
  | EOp o args => match all (map (eval s) args) with Some vs => apply o vs | None => None end
  | EError => None
  end.

(** The statements executed by a tree, one list of arguments for each, in the order of execution. *)
Definition int_of (v : ival) : option Z := match v with IInt z => Some z | IBool _ => None end.
Definition eval_int (s : scope) (e : expr) : option Z := match eval s e with Some v => int_of v | None => None end.
Inductive runs : scope -> node -> list (list Z) -> Prop :=
| runs_user s args zs : all (map (eval_int s) args) = Some zs -> runs s (NUser args) [zs]
| runs_block s l tr : runs_list s l tr -> runs s (NBlock l) tr
| runs_then s c a b tr : eval s c = Some (IBool true) -> runs s a tr -> runs s (NIf c a b) tr
| runs_else s c a b tr : eval s c = Some (IBool false) -> runs s b tr -> runs s (NIf c a (Some b)) tr
| runs_skip s c a : eval s c = Some (IBool false) -> runs s (NIf c a None) []
| runs_for s it init cond inc body v tr : eval_int s init = Some v -> loops s it cond inc body v tr -> runs s (NFor it init cond inc body) tr
with runs_list : scope -> list node -> list (list Z) -> Prop :=
| runs_nil s : runs_list s [] []
| runs_cons s n l t tr : runs s n t -> runs_list s l tr -> runs_list s (n :: l) (t ++ tr)
with loops : scope -> string -> expr -> expr -> node -> Z -> list (list Z) -> Prop :=
| loops_done s it cond inc body v : eval ((it, v) :: s) cond = Some (IBool false) -> loops s it cond inc body v []
| loops_step s it cond inc body v d t tr : eval ((it, v) :: s) cond = Some (IBool true) -> runs ((it, v) :: s) body t ->
    eval_int ((it, v) :: s) inc = Some d -> loops s it cond inc body (v + d) tr -> loops s it cond inc body v (t ++ tr).

(** What isl guarantees about its trees: expressions have the right kinds of operands and mention iterators in scope only, a loop runs
    as long as its iterator is below (or at) a bound, by a positive constant, and iterators of nested loops have different names. *)
Fixpoint kinded (names : list string) (e : expr) : option kind :=
  match e with
  | EId n => if existsb (String.eqb n) names then Some KInt else None
  | EInt _ => Some KInt
  | EOp o args =>
      match o, map (kinded names) args with
      | (OAdd | OSub | OMul | ODiv | OFdivQ | OPdivQ | OPdivR | OZdivR), [Some KInt; Some KInt] => Some KInt
      | OMinus, [Some KInt] => Some KInt
      | (OAnd | OOr), [Some KBool; Some KBool] => Some KBool
      | OEq, [Some _; Some _] => Some KBool
      | (OLt | OLe | OGt | OGe), [Some KInt; Some KInt] => Some KBool
      | OSelect, [Some KBool; Some KInt; Some KInt] => Some KInt
      | OSelect, [Some KBool; Some KBool; Some KBool] => Some KBool
      | (OMax | OMin), Some KInt :: Some KInt :: ks => if forallb (fun k => match k with Some KInt => true | _ => false end) ks then Some KInt else None
      | _, _ => None
      end
  | EError => None
  end.
Fixpoint isl_tree (names : list string) (n : node) : Prop :=
  match n with
  | NFor it init cond inc body =>
      ~ In it names /\ kinded names init = Some KInt /\
      (exists o ub, (o = OLe \/ o = OLt) /\ cond = EOp o [EId it; ub] /\ kinded names ub = Some KInt) /\
      (exists d, 0 < d /\ small d = true /\ inc = EInt d) /\ isl_tree (it :: names) body
  | NIf c a b => kinded names c = Some KBool /\ isl_tree names a /\ match b with Some b => isl_tree names b | None => True end
  | NBlock l => (fix go l := match l with [] => True | n :: l => isl_tree names n /\ go l end) l
  | NUser args => Forall (fun e => kinded names e = Some KInt) args
  | NOther => False
  end.
(** no block has two children *)
Fixpoint unblocked (n : node) : Prop :=
  match n with
  | NFor _ _ _ _ body => unblocked body
  | NIf _ a b => unblocked a /\ match b with Some b => unblocked b | None => True end
  | NBlock l => match l with [] => True | [n] => unblocked n | _ => False end
  | _ => True
  end.
Definition is_loop (n : node) : Prop := match n with NFor _ _ _ _ _ => True | _ => False end.
