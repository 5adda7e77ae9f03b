(** Model of the pass that moves polynomial programs into evaluation form.
    Sources: lib/Dialect/Polynomial/Transforms/PolyMulToNTT.cpp and NTTSolver.cpp/.h.

    A function is a straight-line list of operations on value numbers.  A polynomial value is a
    list of RNS polynomials: one element for a polynomial, several for a tensor of polynomials
    (isPolyType, PolyMulToNTT.cpp:90-97).  The type of a value is: polynomial or not, and for
    polynomials the form.
    Simplifications: the canonicalisation and dead-code elimination run first (124-132) are not
    modelled, the theorems ask for a function without dead operations; one block, one return
    (the pass does not support regions, 174-175); the ring part of the types is only checked when
    the program runs; the search of the CP-SAT solver is not modelled, the pass takes its answer. *)
From Coq Require Import ZArith List Bool Arith.
From Verif Require Import Words NTT_Model NTT_Props.
Import ListNotations.
Open Scope Z_scope.

Inductive form := COEFF | EVAL.
Definition form_eqb (f g : form) : bool :=
  match f, g with COEFF, COEFF => true | EVAL, EVAL => true | _, _ => false end.

(** Operations that only work on coefficients (PolyMulToNTT.cpp:67-70). *)
Inductive coeff_op := ToTensor | LeadingTerm | EvalAt | Monomial | MonicMonomialMul | FromTensor
                    | ApplyCoefficientwise (body : nat).
(** [TensorSelect g] is tensor.extract or tensor.extract_slice: [g] computes from the other operands
    the positions that are read.  [Other] is any operation outside the polynomial dialect. *)
Inductive kind :=
  | Coeff (c : coeff_op)
  | Mul | Add | Sub | MulScalar
  | ExtractSlice (start size : nat)
  | TensorSelect (g : list (list Z) -> list nat)
  | FromElements
  | ModSwitch (moduli : list Z)
  | Constant (data : list rnspoly)
  | Ntt | Intt
  | Other (name : nat).

(** [o_form] is the form in the type of the polynomial result. *)
Record op := Op { o_results : list nat; o_kind : kind; o_args : list nat; o_form : form }.
(** [p_poly v]: value [v] has polynomial type; [p_argform v]: form in the type of argument [v]. *)
Record prog := Prog { p_args : list nat; p_argform : nat -> form; p_poly : nat -> bool;
                      p_ops : list op; p_ret : list nat }.

(** ** The solver model (NTTSolver.cpp) *)

(** NTTSolver.h:20-33 the variables of a value *)
Inductive var := Vc (v : nat) | Ve (v : nat) | Vconv (v : nat) | Vmode (v : nat).
Inductive constr :=
  | BoolOr (l : list (bool * var))      (* (true, x) is x, (false, x) is not x *)
  | Implies (a b : var)
  | Equal (a b : var)
  | EqualC (a : var) (b : bool).
Definition assignment := var -> bool.
Definition holds (s : assignment) (c : constr) : bool :=
  match c with
  | BoolOr l => existsb (fun x => Bool.eqb (s (snd x)) (fst x)) l
  | Implies a b => negb (s a) || s b
  | Equal a b => Bool.eqb (s a) (s b)
  | EqualC a b => Bool.eqb (s a) b
  end.
(** NTTSolver.cpp:90-92 *)
Definition var_form (v : nat) (f : form) : var := match f with COEFF => Vc v | EVAL => Ve v end.
(** NTTSolver.cpp:94-97 *)
Definition force_either (v : nat) : list constr := [BoolOr [(true, Vc v); (true, Ve v)]].
(** 99-102 *)
Definition force_form (v : nat) (f : form) : list constr := [EqualC (var_form v f) true].
(** 104-107 *)
Definition imply_form (v : nat) (a b : form) : list constr := [Implies (var_form v a) (var_form v b)].
(** 115-119 *)
Definition imply_use (out i : nat) (f : form) : list constr := [Implies (var_form out f) (var_form i f)].
(** 121-137 *)
Definition imply_mode (out i : nat) : list constr :=
  [BoolOr [(true, Vmode out); (false, Vc out); (true, Vc i)];
   BoolOr [(true, Vmode out); (false, Ve out); (true, Vc i)];
   BoolOr [(false, Vmode out); (false, Vc out); (true, Ve i)];
   BoolOr [(false, Vmode out); (false, Ve out); (true, Ve i)]].
(** 139-142 *)
Definition conversion_for (v : nat) (f : form) : list constr := [Equal (Vconv v) (var_form v f)].
(** 144-155 *)
Definition conversion_if_both (v : nat) : list constr :=
  [Implies (Vconv v) (Vc v); Implies (Vconv v) (Ve v);
   BoolOr [(false, Vc v); (false, Ve v); (true, Vconv v)]].
(** 157-171; the cost terms are not modelled: the solver is not *)
Definition zero_conversion (v : nat) : list constr := [EqualC (Vconv v) false].
(** 173-182 *)
Definition op_mode (v : nat) : list constr :=
  [BoolOr [(false, Ve v); (true, Vc v); (true, Vmode v)];
   BoolOr [(false, Vc v); (true, Ve v); (false, Vmode v)]].

(** ** The pass *)

(** PolyMulToNTT.cpp:35-62 *)
Inductive op_class := CCoeff | CEval | CEither | CConst | CUnknown.
(** 64-83; the return is treated separately *)
Definition op_form_class (k : kind) : op_class :=
  match k with
  | Coeff _ => CCoeff
  | Mul => CEval
  | Add | Sub | MulScalar | ModSwitch _ | ExtractSlice _ _ | TensorSelect _ | FromElements => CEither
  | Constant _ => CConst
  | Ntt | Intt | Other _ => CUnknown
  end.

(** 101-109 *)
Definition poly_results (p : prog) (o : op) : list nat := filter (p_poly p) (o_results o).
Definition poly_operands (p : prog) (o : op) : list nat := filter (p_poly p) (o_args o).
(** 182-203: is the operation in rewriteOrder *)
Definition in_order (p : prog) (o : op) : bool :=
  negb (match poly_operands p o with [] => true | _ => false end) ||
  negb (match poly_results p o with [] => true | _ => false end).

(** 208-301: constraints of one operation of rewriteOrder; [None]: the pass fails, or reads
    polyResults[0] of an empty vector *)
Definition op_constraints (p : prog) (o : op) : option (list constr) :=
  match op_form_class (o_kind o), poly_results p o with
  | CCoeff, [] => Some (flat_map (fun v => force_form v COEFF) (poly_operands p o))
  | CCoeff, [y] => Some (imply_form y EVAL COEFF ++ conversion_for y EVAL ++
                         flat_map (fun x => imply_use y x COEFF) (poly_operands p o))
  | CEval, [y] => Some (imply_form y COEFF EVAL ++ conversion_for y COEFF ++
                        flat_map (fun x => imply_use y x EVAL) (poly_operands p o))
  | CEither, [y] => Some (op_mode y ++ flat_map (fun x => imply_mode y x) (poly_operands p o) ++
                          conversion_if_both y)
  | CConst, [y] => Some (zero_conversion y)
  | _, _ => None
  end.
Definition order (p : prog) : list op := filter (in_order p) (p_ops p).
(** 208-301: all constraints, in the order of creation *)
Definition constraints (p : prog) : option (list constr) :=
  cs <- omap (op_constraints p) (order p) ;;
  Some (flat_map conversion_if_both (filter (p_poly p) (p_args p)) ++ concat cs ++
        flat_map force_either (filter (p_poly p) (p_ret p))).

(** The answer of the solver: NTTSolver.cpp:26-41 *)
Definition needs_form (s : assignment) (v : nat) (f : form) : bool := s (var_form v f).
Definition needs_conversion (s : assignment) (v : nat) : bool := s (Vconv v).
Definition get_mode (s : assignment) (v : nat) : form := if s (Vmode v) then EVAL else COEFF.

(** Number of the value made by the conversion of [v]; [N] is larger than every value number. *)
Definition conv_id (N v : nat) : nat := (N + v)%nat.
(** 357-367 [addConversion] *)
Definition add_conversion (N v : nat) (f : form) : op :=
  match f with
  | EVAL => Op [conv_id N v] Ntt [v] EVAL
  | COEFF => Op [conv_id N v] Intt [v] COEFF
  end.
(** An entry (form, v, u) of the caches 322-324: value [u] is [v] in that form. *)
Definition entry := (form * nat * nat)%type.

(** 376-407: one polynomial argument: its new form, the conversions put at the start, cache entries *)
Definition fix_arg (s : assignment) (N v : nat) : form * list op * list entry :=
  if needs_form s v COEFF then
    (COEFF,
     if needs_form s v EVAL then [add_conversion N v EVAL] else [],
     (COEFF, v, v) :: (if needs_form s v EVAL then [(EVAL, v, conv_id N v)] else []))
  else (EVAL, [], [(EVAL, v, v)]).

(** 411-583: one operation of rewriteOrder.  Result: the operation with its new result type, the
    operations inserted after it and the new cache entries.  [None]: a sanity check failed.
    For a constant the attribute keeps its coefficients, only its type changes (528-549);
    [conv_id] names the clone made when both forms are needed (567-574). *)
Definition fix_output (p : prog) (s : assignment) (N : nat) (o : op)
    : option (op * list op * list entry) :=
  match poly_results p o with
  | [] => Some (o, [], [])
  | v :: _ =>
    let nc := needs_form s v COEFF in
    let ne := needs_form s v EVAL in
    let cv := needs_conversion s v in
    let as_form f := Op (o_results o) (o_kind o) (o_args o) f in
    match op_form_class (o_kind o) with
    | CCoeff =>
        if negb nc then None else
        if negb (Bool.eqb ne cv) then None else
        Some (o, if ne then [add_conversion N v EVAL] else [],
              (COEFF, v, v) :: (if ne then [(EVAL, v, conv_id N v)] else []))
    | CEval =>
        if nc && negb ne then None else
        if negb (Bool.eqb nc cv) then None else
        Some (as_form EVAL, if nc then [add_conversion N v COEFF] else [],
              (EVAL, v, v) :: (if nc then [(COEFF, v, conv_id N v)] else []))
    | CEither =>
        if negb (Bool.eqb cv (nc && ne)) then None else
        if negb cv && nc && negb (form_eqb (get_mode s v) COEFF) then None else
        if negb cv && ne && negb (form_eqb (get_mode s v) EVAL) then None else
        match get_mode s v with
        | COEFF => Some (o, if ne then [add_conversion N v EVAL] else [],
                         (COEFF, v, v) :: (if ne then [(EVAL, v, conv_id N v)] else []))
        | EVAL => Some (as_form EVAL, if nc then [add_conversion N v COEFF] else [],
                        (EVAL, v, v) :: (if nc then [(COEFF, v, conv_id N v)] else []))
        end
    | CConst =>
        if cv then None else
        let f := if nc then COEFF else EVAL in
        Some (as_form f,
              if nc && ne then [Op [conv_id N v] (o_kind o) (o_args o) EVAL] else [],
              (f, v, v) :: (if nc && ne then [(EVAL, v, conv_id N v)] else []))
    | CUnknown => None
    end
  end.

(** 592-600 [formToValue]: DenseMap::at asserts that the key is present; later entries win *)
Definition form_to_value (cache : list entry) (v : nat) (f : form) : option nat :=
  option_map snd (find (fun e => form_eqb (fst (fst e)) f && (snd (fst e) =? v)%nat) (rev cache)).

(** 607-683: operands of one operation of rewriteOrder *)
Definition set_operands (p : prog) (cache : list entry) (f : form) (args : list nat) : option (list nat) :=
  omap (fun v => if p_poly p v then form_to_value cache v f else Some v) args.
Definition fix_inputs (p : prog) (s : assignment) (cache : list entry) (o0 o : op) : option op :=
  match poly_operands p o0 with
  | [] => Some o
  | _ =>
    let go f := a <- set_operands p cache f (o_args o) ;;
                Some (Op (o_results o) (o_kind o) a (o_form o)) in
    match op_form_class (o_kind o0) with
    | CCoeff => go COEFF
    | CEval => go EVAL
    | CEither => match poly_results p o0 with [] => None | v :: _ => go (get_mode s v) end
    | CConst | CUnknown => None
    end
  end.
(** 629-651: the return *)
Definition fix_return (p : prog) (s : assignment) (cache : list entry) (v : nat) : option nat :=
  if negb (p_poly p v) then Some v else
  if needs_form s v COEFF then form_to_value cache v COEFF else
  if negb (needs_form s v EVAL) then None else form_to_value cache v EVAL.

(** Steps 3 and 4 for the list of operations *)
Definition step3 (p : prog) (s : assignment) (N : nat) (o : op) : option (op * list op * list entry) :=
  if in_order p o then fix_output p s N o else Some (o, [], []).
Definition step4 (p : prog) (s : assignment) (cache : list entry) (x : op * (op * list op * list entry))
    : option (list op) :=
  let '(o0, (o, convs, _)) := x in
  o' <- (if in_order p o0 then fix_inputs p s cache o0 o else Some o) ;;
  Some (o' :: convs).

(** 111-709 the pass, given the answer [s] of the solver *)
Definition poly_mul_to_ntt (N : nat) (p : prog) (s : assignment) : option prog :=
  if existsb (fun o => (1 <? length (poly_results p o))%nat) (order p) then None else
  _ <- constraints p ;;
  let args := map (fix_arg s N) (filter (p_poly p) (p_args p)) in
  let argform v := if p_poly p v then fst (fst (fix_arg s N v)) else p_argform p v in
  outs <- omap (step3 p s N) (p_ops p) ;;
  let cache := flat_map snd args ++ flat_map snd outs in
  ops <- omap (step4 p s cache) (combine (p_ops p) outs) ;;
  ret <- omap (fix_return p s cache) (p_ret p) ;;
  Some (Prog (p_args p) argform
             (fun v => p_poly p v || ((N <=? v)%nat && p_poly p (v - N)))
             (flat_map (fun a => snd (fst a)) args ++ concat ops) ret).

(** ** Running a function *)

Inductive val := VP (f : form) (d : list rnspoly) | VO (x : list Z).

(** operations on two limbs of the same ring, lifted to RNS polynomials and tensors *)
Definition limb_op2 (g : Z -> list Z -> list Z -> list Z) (xy : (Z * list Z) * (Z * list Z))
    : option (Z * list Z) :=
  let '((q, a), (r, b)) := xy in
  if (q =? r) && (length a =? length b)%nat then Some (q, g q a b) else None.
Definition rns_op2 (g : Z -> list Z -> list Z -> list Z) (xy : rnspoly * rnspoly) : option rnspoly :=
  if (length (fst xy) =? length (snd xy))%nat then omap (limb_op2 g) (combine (fst xy) (snd xy)) else None.
Definition tensor_op2 (g : Z -> list Z -> list Z -> list Z) (x y : list rnspoly) : option (list rnspoly) :=
  if (length x =? length y)%nat then omap (rns_op2 g) (combine x y) else None.

Definition pointwise (h : Z -> Z -> Z) (q : Z) (a b : list Z) : list Z :=
  map (fun xy => h (fst xy) (snd xy) mod q) (combine a b).
(** product in Z_q[x]/(x^n+1), n the number of coefficients ([ring_coeff] in NTT_Props) *)
Definition ring_mul (q : Z) (a b : list Z) : list Z :=
  map (fun k => ring_coeff (length a) a b k mod q) (seq 0 (length a)).
(** PolynomialOps.td:110-140 one scalar residue per limb *)
Definition rns_scale (ss : list Z) (p : rnspoly) : option rnspoly :=
  if (length ss =? length p)%nat
  then Some (map (fun sl => (fst (snd sl), map (fun c => c * fst sl mod fst (snd sl)) (snd (snd sl))))
                 (combine ss p))
  else None.
(** ModArithOps.td:71-90 applied to every entry of the only limb *)
Definition limb_switch (ms : list Z) (p : rnspoly) : option rnspoly :=
  match p with
  | [(_, a)] => Some (map (fun m => (m, map (fun c => c mod m) a)) ms)
  | _ => None
  end.

Section Run.
(** meaning of the coefficient-form operations and of the operations on other values *)
Variable csem : coeff_op -> list val -> option (list val).
Variable osem : nat -> list val -> option (list val).
(** the root attached to the ring Z_q[x]/(x^n+1) by attach-ntt-roots *)
Variable root : Z -> nat -> Z.

Definition limb_ntt (l : Z * list Z) : option (Z * list Z) :=
  r <- ntt_in_place (fst l) (root (fst l) (length (snd l))) (snd l) ;; Some (fst l, r).
Definition limb_intt (l : Z * list Z) : option (Z * list Z) :=
  r <- intt_in_place (fst l) (root (fst l) (length (snd l))) (snd l) ;; Some (fst l, r).

Definition operand_form (f : form) (x : val) : bool :=
  match x with VP g _ => form_eqb f g | VO _ => true end.
Definition is_poly (x : val) : bool := match x with VP _ _ => true | VO _ => false end.
Definition others (l : list val) : list (list Z) :=
  flat_map (fun x => match x with VP _ _ => [] | VO y => [y] end) l.
Definition polys (l : list val) : list (list rnspoly) :=
  flat_map (fun x => match x with VP _ d => [d] | VO _ => [] end) l.

(** Meaning of an operation whose polynomial operands and result all have form [f]
    (the traits SameOperandsAndResultForm and FixedFormCoeff, PolynomialTraits.h:51-99). *)
Definition sem (k : kind) (f : form) (l : list val) : option (list val) :=
  match k with
  | Ntt => match l with
           | [VP COEFF d] => if form_eqb f EVAL then r <- omap (omap limb_ntt) d ;; Some [VP EVAL r] else None
           | _ => None end
  | Intt => match l with
           | [VP EVAL d] => if form_eqb f COEFF then r <- omap (omap limb_intt) d ;; Some [VP COEFF r] else None
           | _ => None end
  | Other nm => if forallb (fun x => negb (is_poly x)) l then osem nm l else None
  | _ =>
    if negb (forallb (operand_form f) l) then None else
    match k, polys l, others l with
    | Coeff c, _, _ => if form_eqb f COEFF then csem c l else None
    | Mul, [a; b], [] =>
        r <- tensor_op2 (match f with COEFF => ring_mul | EVAL => pointwise Z.mul end) a b ;; Some [VP f r]
    | Add, [a; b], [] => r <- tensor_op2 (pointwise Z.add) a b ;; Some [VP f r]
    | Sub, [a; b], [] => r <- tensor_op2 (pointwise Z.sub) a b ;; Some [VP f r]
    | MulScalar, [a], [s] => r <- omap (rns_scale s) a ;; Some [VP f r]
    | ExtractSlice start size, [a], [] =>
        r <- omap (fun p : rnspoly => if (start + size <=? length p)%nat
                           then Some (firstn size (skipn start p)) else None) a ;; Some [VP f r]
    | TensorSelect g, [a], idx => r <- omap (fun i => nth_error a i) (g idx) ;; Some [VP f r]
    | FromElements, ps, [] => Some [VP f (concat ps)]
    | ModSwitch ms, [a], [] => r <- omap (limb_switch ms) a ;; Some [VP f r]
    | Constant d, [], [] => Some [VP f d]
    | _, _, _ => None
    end
  end.

Definition env := nat -> option val.
Definition set (e : env) (v : nat) (x : val) : env := fun w => if (w =? v)%nat then Some x else e w.
(** the value has the type of the result *)
Definition typed (poly : nat -> bool) (f : form) (v : nat) (x : val) : bool :=
  match x with VP g _ => poly v && form_eqb f g | VO _ => negb (poly v) end.
Fixpoint bind_all (poly : nat -> bool) (f : nat -> form) (vs : list nat) (xs : list val) (e : env)
    : option env :=
  match vs, xs with
  | [], [] => Some e
  | v :: vs', x :: xs' => if typed poly (f v) v x then bind_all poly f vs' xs' (set e v x) else None
  | _, _ => None
  end.
Definition step (poly : nat -> bool) (e : env) (o : op) : option env :=
  xs <- omap e (o_args o) ;;
  ys <- sem (o_kind o) (o_form o) xs ;;
  bind_all poly (fun _ => o_form o) (o_results o) ys e.
Definition run (p : prog) (args : list val) : option (list val) :=
  e0 <- bind_all (p_poly p) (p_argform p) (p_args p) args (fun _ => None) ;;
  e <- ofold (step (p_poly p)) (p_ops p) e0 ;;
  omap e (p_ret p).
End Run.
