(** Model of the generation of MLIR loop nests from isl trees: lib/Utils/Layout/Codegen.cpp. *)
From Coq Require Import String ZArith List Bool.
From Verif Require Import Codegen_Spec.
Import ListNotations.
Open Scope Z_scope.

(** ** The IR that is created.
    A value has a number and a type: i1, i32, or the type of an iteration argument. *)
Inductive ty := I1 | I32 | Data.
Definition val := (nat * ty)%type.
(** arith operations used, by name as in islBinaryOpToMlir (Codegen.cpp:50-61) *)
Inductive mop := addi | subi | muli | divsi | floordivsi | maxsi | minsi | andi | ori | remsi.
Inductive pred := eq | slt | sle | sgt | sge.
Inductive ins :=
| Const (r : val) (z : Z)
| Bin (r : val) (o : mop) (a b : val)
| CmpI (r : val) (p : pred) (a b : val)
| Sel (r c a b : val)
| ExtUI (r a : val)
| For (rs : list val) (lb ub step : val) (inits : list val) (iv : val) (args : list val) (body : list ins) (yields : list val)
| If (rs : list val) (c : val) (thn : list ins) (thn_yields : list val) (els : list ins) (els_yields : list val)
| Body (rs : list val) (exprs iters : list val).  (* what the body builder of the caller creates *)

Definition ty_eqb (a b : ty) : bool := match a, b with I1, I1 | I32, I32 | Data, Data => true | _, _ => false end.

Notation "'let*' x := e 'in' f" := (match e with Some x => f | None => None end) (at level 200, x pattern, f at level 200, right associativity).

(** ** Expressions *)
(** islBinaryOpToMlir, Codegen.cpp:50-61 *)
Definition binary_op (o : op) : option mop :=
  match o with
  | OAdd => Some addi | OSub => Some subi | OMul => Some muli | ODiv => Some divsi | OPdivQ => Some floordivsi
  | OMax => Some maxsi | OMin => Some minsi | OAnd => Some andi | OOr => Some ori | OFdivQ => Some floordivsi
  | _ => None
  end.
(** islCmpToMlirAttr, Codegen.cpp:63-69 *)
Definition cmp_pred (o : op) : option pred :=
  match o with
  | OEq => Some eq | OLt => Some slt | OLe => Some sle | OGt => Some sgt | OGe => Some sge
  | _ => None
  end.

(** extendToCommonWidth for two operands that are i1 or i32 (lib/Utils/Utils.cpp:249-280): an i1 is extended without sign *)
Definition extend (width : ty) (v : val) (n : nat) : list ins * val * nat :=
  match snd v, width with
  | I1, I32 => let r := (n, I32) in ([ExtUI r v], r, S n)
  | _, _ => ([], v, n)
  end.
Definition common (a b : val) : ty := match snd a, snd b with I1, I1 => I1 | _, _ => I32 end.

(** Codegen.cpp:248-257: more than two operands are reduced from the left *)
Fixpoint reduce (o : mop) (acc : val) (l : list val) (n : nat) : list ins * val * nat :=
  match l with
  | [] => ([], acc, n)
  | a :: l => let r := (n, snd acc) in let '(is, v, n) := reduce o r l (S n) in (Bin r o acc a :: is, v, n)
  end.

(** the operation for an operator and its operands, Codegen.cpp:243-331; an arity no operation has is undefined here *)
Definition build_op (o : op) (args : list val) (n : nat) : option (list ins * val * nat) :=
  match binary_op o with
  | Some m =>
      match args with
      | [a; b] => let r := (n, snd a) in Some ([Bin r m a b], r, S n)
      | a :: _ :: _ => Some (reduce m a (tl args) n)
      | _ => None
      end
  | None =>
  match o with
  | OMinus =>
      match args with
      | [a] => let zero := (n, I32) in let r := (S n, I32) in Some ([Const zero 0; Bin r subi zero a], r, S (S n))
      | _ => None
      end
  | _ =>
  match cmp_pred o with
  | Some p =>
      match args with
      | [a; b] =>
          let '(is1, a, is2, b, n) :=
            if ty_eqb (snd a) (snd b) then ([], a, [], b, n)
            else let w := common a b in
                 let '(is1, a', n) := extend w a n in let '(is2, b', n) := extend w b n in (is1, a', is2, b', n) in
          let r := (n, I1) in Some (is1 ++ is2 ++ [CmpI r p a b], r, S n)
      | _ => None
      end
  | None =>
  match o, args with
  | OSelect, [c; a; b] =>
      if ty_eqb (snd c) I1 then let r := (n, snd a) in Some ([Sel r c a b], r, S n) else None
  | OZdivR, [a; b] => let r := (n, snd a) in Some ([Bin r remsi a b], r, S n)
  | OPdivR, [a; b] =>
      let div := (n, snd a) in let mul := (S n, snd b) in let sub := (S (S n), snd a) in
      Some ([Bin div floordivsi a b; Bin mul muli b div; Bin sub subi a mul], sub, S (S (S n)))
  | _, _ => None
  end
  end
  end
  end.

(** buildIslExpr, Codegen.cpp:215-337; an iterator without a value gives a null value, which no operation can be built with *)
Fixpoint build (ivs : list (string * val)) (e : expr) (n : nat) : option (list ins * val * nat) :=
  match e with
  | EId name => let* v := find name ivs in Some ([], v, n)
  | EInt z => let r := (n, I32) in Some ([Const r z], r, S n)
  | EOp o args =>
      let* (is, vs, n) :=
        (fix go (args : list expr) (n : nat) : option (list ins * list val * nat) :=
           match args with
           | [] => Some ([], [], n)
           | a :: args =>
               let* (is1, v, n) := build ivs a n in let* (is2, vs, n) := go args n in Some (is1 ++ is2, v :: vs, n)
           end) args n in
      let* (is2, v, n) := build_op o vs n in Some (is ++ is2, v, n)
  | EError => None
  end.
(** lines 465-470: all the operands of a statement *)
Fixpoint builds (ivs : list (string * val)) (args : list expr) (n : nat) : option (list ins * list val * nat) :=
  match args with
  | [] => Some ([], [], n)
  | a :: args => let* (is1, v, n) := build ivs a n in let* (is2, vs, n) := builds ivs args n in Some (is1 ++ is2, v :: vs, n)
  end.

(** ** Nodes.  The members of the generator: ivToValue_, currentIterArgs_, the results of loops_, and the next free number. *)
Record st := mk { ivs : list (string * val); iters : list val; created : list (list val); next : nat }.
Fixpoint fresh_like (l : list val) (n : nat) : list val :=
  match l with
  | [] => []
  | v :: l => (n, snd v) :: fresh_like l (S n)
  end.
(** std::map::insert keeps an existing entry (lines 421, 423) *)
Definition insert (name : string) (v : val) (m : list (string * val)) : list (string * val) :=
  match find name m with
  | Some _ => m
  | None => (name, v) :: m
  end.
(** lines 386-412: the iterator of a reversed loop *)
Definition reversed (lb ub step iv : val) (n : nat) : list ins * val * nat :=
  let one := (n, I32) in let ub1 := (S n, I32) in let tmp := (S (S n), I32) in let maxk := (3 + n, I32)%nat in
  let mul := (4 + n, I32)%nat in let top := (5 + n, I32)%nat in let off := (6 + n, I32)%nat in let actual := (7 + n, I32)%nat in
  ([Const one 1; Bin ub1 subi ub one; Bin tmp subi ub1 lb; Bin maxk floordivsi tmp step; Bin mul muli maxk step;
    Bin top addi lb mul; Bin off subi iv lb; Bin actual subi top off], actual, (8 + n)%nat).

(** visitAstNode and its helpers, lines 339-527.  Loops and conditions have iteration arguments: with none of them the regions
    are left without terminator. *)
Fixpoint visit (rev : bool) (t : node) (s : st) : option (list ins * list val * st) :=
  match t with
  | NFor it init cond inc body =>
      let* (is1, lb, n) := build (ivs s) init (next s) in
      match cond with
      | EOp o (_ :: upper :: _) =>
          let* (is2, ub, n) := build (ivs s) upper n in
          let* (is3, ub, n) := match o with
                           | OLe => let one := (n, I32) in let r := (S n, I32) in Some ([Const one 1; Bin r addi ub one], r, S (S n))
                           | OLt => Some ([], ub, n)
                           | _ => None
                           end in
          let* (is4, step, n) := build (ivs s) inc n in
          let rs := fresh_like (iters s) n in let n := (n + length rs)%nat in
          let iv := (n, snd lb) in let args := fresh_like (iters s) (S n) in let n := (S n + length args)%nat in
          let '(is5, actual, n) := if rev then reversed lb ub step iv n else ([], iv, n) in
          let* (body_is, ys, s') := visit rev body (mk (insert it actual (ivs s)) args (created s ++ [rs]) n) in
          match ys with
          | [] => None
          | _ => Some (is1 ++ is2 ++ is3 ++ is4 ++ [For rs lb ub step (iters s) iv args (is5 ++ body_is) ys], rs,
                       mk (ivs s) (iters s') (created s') (next s'))
          end
      | _ => None
      end
  | NIf cond thn els =>
      let* (is1, c, n) := build (ivs s) cond (next s) in
      let incoming := iters s in
      if negb (ty_eqb (snd c) I1) then None else
      let rs := fresh_like incoming n in
      let* (then_is, then_ys, s1) := visit rev thn (mk (ivs s) (iters s) (created s) (n + length rs)) in
      let* (else_is, else_ys, s2) := match els with
                                 | Some e => visit rev e (mk (ivs s1) incoming (created s1) (next s1))
                                 | None => Some ([], incoming, s1)
                                 end in
      match then_ys with
      | [] => None
      | _ => if Nat.eqb (length else_ys) (length then_ys)
             then Some (is1 ++ [If rs c then_is then_ys else_is else_ys], rs, s2) else None
      end
  | NBlock l =>
      (fix go (l : list node) (results : list val) (s : st) : option (list ins * list val * st) :=
         match l with
         | [] => Some ([], results, s)
         | t :: l =>
             let* (is1, results, s) := visit rev t (mk (ivs s) results (created s) (next s)) in
             let* (is2, results, s) := go l results s in
             Some (is1 ++ is2, results, s)
         end) l (iters s) s
  | NUser args =>
      let* (is1, exprs, n) := builds (ivs s) args (next s) in
      let rs := fresh_like (iters s) n in
      Some (is1 ++ [Body rs exprs (iters s)], rs, mk (ivs s) (iters s) (created s) (n + length rs))
  | NOther => None
  end.

(** generateForLoop, lines 529-552: the loop that is returned is the one created first *)
Definition generate (rev : bool) (t : node) (inits : list val) (n : nat) : option (list ins * list val) :=
  let* (is1, _, s) := visit rev t (mk [] inits [] n) in
  match created s with
  | rs :: _ => Some (is1, rs)
  | [] => None
  end.

(** ** What the operations do *)
Section Exec.
Variable A : Type.
(** the caller's body: the values of the indices and of the iteration arguments give the new values of the latter *)
Variable f : list Z -> list A -> list A.

Inductive datum := DB (b : bool) | DI (z : Z) | DT (x : A).
Definition env := nat -> option datum.
Definition has (d : datum) (t : ty) : bool := match d, t with DB _, I1 | DI _, I32 | DT _, Data => true | _, _ => false end.
Definition set (r : val) (d : datum) (e : env) : option env :=
  if has d (snd r) then Some (fun k => if Nat.eqb k (fst r) then Some d else e k) else None.
Definition lookup (e : env) (v : val) : option datum := let* d := e (fst v) in if has d (snd v) then Some d else None.
Definition int32 (e : env) (v : val) : option Z := match lookup e v with Some (DI z) => Some z | _ => None end.
Definition bool1 (e : env) (v : val) : option bool := match lookup e v with Some (DB b) => Some b | _ => None end.
Definition data (e : env) (v : val) : option A := match lookup e v with Some (DT x) => Some x | _ => None end.
Fixpoint sets (rs : list val) (xs : list A) (e : env) : option env :=
  match rs, xs with
  | [], [] => Some e
  | r :: rs, x :: xs => let* e := set r (DT x) e in sets rs xs e
  | _, _ => None
  end.

(** two's complement *)
Definition wrap (z : Z) : Z := (z + 2 ^ 31) mod 2 ^ 32 - 2 ^ 31.
(** division by zero and an overflowing division are undefined *)
Definition divides_ok (a b : Z) : bool := negb (b =? 0) && negb ((a =? - 2 ^ 31) && (b =? -1)).
Definition arith (o : mop) (a b : datum) : option datum :=
  match o, a, b with
  | addi, DI a, DI b => Some (DI (wrap (a + b)))
  | subi, DI a, DI b => Some (DI (wrap (a - b)))
  | muli, DI a, DI b => Some (DI (wrap (a * b)))
  | divsi, DI a, DI b => if divides_ok a b then Some (DI (Z.quot a b)) else None
  | remsi, DI a, DI b => if divides_ok a b then Some (DI (Z.rem a b)) else None
  | floordivsi, DI a, DI b => if divides_ok a b then Some (DI (a / b)) else None
  | maxsi, DI a, DI b => Some (DI (Z.max a b))
  | minsi, DI a, DI b => Some (DI (Z.min a b))
  | andi, DB a, DB b => Some (DB (a && b))
  | ori, DB a, DB b => Some (DB (a || b))
  | _, _, _ => None
  end.
Definition compare (p : pred) (a b : Z) : bool :=
  match p with eq => a =? b | slt => a <? b | sle => a <=? b | sgt => b <? a | sge => b <=? a end.
(** truth values of type i1 are the integers 0 and -1 when compared with a sign *)
Definition signed (d : datum) : option Z := match d with DI z => Some z | DB b => Some (if b then -1 else 0) | DT _ => None end.
Definition same (a b : datum) : bool := match a, b with DI _, DI _ | DB _, DB _ | DT _, DT _ => true | _, _ => false end.

(** number of iterations of scf.for *)
Definition trips (lb ub step : Z) : nat := Z.to_nat ((ub - lb + step - 1) / step).
Fixpoint iterate (body : Z -> list A -> option (list A)) (k : nat) (iv step : Z) (xs : list A) : option (list A) :=
  match k with
  | O => Some xs
  | S k => let* xs := body iv xs in iterate body k (iv + step) step xs
  end.

(** values of a region are not visible outside of it *)
Fixpoint exec (i : ins) (e : env) : option env :=
  let execs := fix execs (l : list ins) (e : env) : option env :=
    match l with
    | [] => Some e
    | i :: l => let* e := exec i e in execs l e
    end in
  match i with
  | Const r z => if (- 2 ^ 31 <=? z) && (z <? 2 ^ 31) then set r (DI z) e else None
  | Bin r o a b => let* a := lookup e a in let* b := lookup e b in let* d := arith o a b in set r d e
  | CmpI r p a b =>
      let* a := lookup e a in let* b := lookup e b in
      if same a b then (let* a := signed a in let* b := signed b in set r (DB (compare p a b)) e) else None
  | Sel r c a b =>
      let* c := bool1 e c in let* a := lookup e a in let* b := lookup e b in
      if same a b then set r (if c then a else b) e else None
  | ExtUI r a => let* a := bool1 e a in set r (DI (if a then 1 else 0)) e
  | For rs lb ub step inits iv args body ys =>
      let* lb := int32 e lb in let* ub := int32 e ub in let* step := int32 e step in
      if step <=? 0 then None else
      let* xs := all (map (data e) inits) in
      let* xs := iterate (fun k xs => let* e := set iv (DI k) e in let* e := sets args xs e in let* e := execs body e in all (map (data e) ys))
              (trips lb ub step) lb step xs in
      sets rs xs e
  | If rs c thn thn_ys els els_ys =>
      let* c := bool1 e c in
      let* xs := (if c then (let* e := execs thn e in all (map (data e) thn_ys)) else (let* e := execs els e in all (map (data e) els_ys))) in
      sets rs xs e
  | Body rs exprs iters =>
      let* zs := all (map (int32 e) exprs) in let* xs := all (map (data e) iters) in sets rs (f zs xs) e
  end.
Fixpoint execs (l : list ins) (e : env) : option env :=
  match l with
  | [] => Some e
  | i :: l => let* e := exec i e in execs l e
  end.
End Exec.
