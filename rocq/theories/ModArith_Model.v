(** Model of the [mod_arith] dialect: type verifier, lowering to [arith],
    constant folding and constants.
    Sources: lib/Dialect/ModArith/IR/ModArithTypes.cpp,
    lib/Dialect/ModArith/IR/ModArithOps.cpp,
    lib/Dialect/ModArith/Conversions/ModArithToArith/ModArithToArith.{cpp,td}.
    Only scalars are modelled: the tensor versions are elementwise. *)
From Coq Require Import ZArith List Bool.
From Verif Require Import Words.
Import ListNotations.
Open Scope Z_scope.

(** ModArithTypes.cpp:42-54 [ModArithType::verify]: accepted iff the active bits
    of the modulus are at most bitWidth - 1.  (A zero modulus is accepted.) *)
Definition verify_type (w q : Z) : bool := active_bits q <=? w - 1.

(** ModArithToArith.cpp:346-365 [ConvertAdd] *)
Definition lower_add (w q a b : Z) : option Z := remui w (addi w a b) q.

(** ModArithToArith.cpp:367-387 [ConvertSub] *)
Definition lower_sub (w q a b : Z) : option Z :=
  remui w (addi w (subi w a b) q) q.

(** ModArithToArith.cpp:389-416 [ConvertMul]; modulusAttr with [mul] doubles the width (76-95) *)
Definition lower_mul (w q a b : Z) : option Z :=
  r <- remui (2 * w) (muli (2 * w) (extui (2 * w) a) (extui (2 * w) b)) q ;;
  Some (trunci w r).

(** ModArithToArith.cpp:418-449 [ConvertMac] *)
Definition lower_mac (w q a b c : Z) : option Z :=
  r <- remui (2 * w)
         (addi (2 * w) (muli (2 * w) (extui (2 * w) a) (extui (2 * w) b)) (extui (2 * w) c)) q ;;
  Some (trunci w r).

(** ModArithToArith.cpp:321-342 [ConvertReduce] *)
Definition lower_reduce (w q x : Z) : option Z :=
  r <- remsi w x q ;;
  remui w (addi w r q) q.

(** ModArithToArith.cpp:172-195 [ConvertLift], the part common to both lifts *)
Definition lower_lift_standard (w q x : Z) : option Z :=
  r <- remsi w x q ;;
  Some (if cmp_slt w r 0 then addi w r q else r).

(** ModArithToArith.cpp:197-207 [ConvertLift] with LiftType::CENTERED;
    the constants 1 and 2 are w-bit (intAttr, 137-140) *)
Definition lower_lift_centered (w q x : Z) : option Z :=
  r <- lower_lift_standard w q x ;;
  bound <- divsi w (addi w q (wrap w 1)) (wrap w 2) ;;
  Some (if cmp_sge w r bound then subi w r q else r).

(** ModArithToArith.cpp:469-497 [ConvertModSwitch], mod_arith to mod_arith:
    old modulus q stored in wq bits, new modulus p stored in wp bits. *)
Definition lower_modswitch (wq q wp p x : Z) : option Z :=
  let w := Z.max wq wp in
  remu <- remui w x p ;;
  oldred <- remui w q p ;;             (* compile-time APInt::urem, 488 *)
  let diff := subi w p oldred in
  addmod <- remui w (addi w remu diff) p ;;
  let result := if cmp_ugt w (q / 2) x then remu else addmod in
  Some (if wp <? wq then trunci wp result else result).

(** ModArithToArith.cpp:498-519 [ConvertModSwitch], mod_arith to RNS *)
Fixpoint lower_modswitch_to_rns (wq wr : Z) (moduli : list Z) (x : Z) : option (list Z) :=
  match moduli with
  | [] => Some []
  | m :: ms =>
      r <- remui wq x m ;;
      rs <- lower_modswitch_to_rns wq wr ms x ;;
      Some (trunci wr r :: rs)
  end.

(** ModArithToArith.cpp:578-635 [ConvertBarrettReduce]: [win] is the width of the
    input type, [wa] the width of the modulus attribute, [q] its value.
    bitWidth w = activeBits(q-1).  [APInt::trunc] (593) asserts that the target
    width is at most the current one, so [wa < 3w] aborts. *)
Definition lower_barrett (win wa q x : Z) : option Z :=
  let w := active_bits (q - 1) in
  let w3 := 3 * w in
  if wa <? w3 then None else
  let md := trunci w3 q in
  let b := wrap w3 (2 ^ (2 * w)) in
  ratio <- divui w3 b md ;;
  let e := extui w3 x in
  s <- shrui w3 (muli w3 e ratio) (2 * w) ;;
  Some (trunci win (subi w3 e (muli w3 s md))).

(** ModArithOps.cpp:199-223 [BarrettReduceOp::verify] (the attribute is read as
    a non-negative number) *)
Definition verify_barrett (win q : Z) : bool :=
  let w := active_bits (q - 1) in (w <=? win) && (win <=? 2 * w) && (0 <=? q).

(** ModArithToArith.td:28-35 [ConvertSubIfGE] *)
Definition lower_subifge (w x y : Z) : Z :=
  if cmp_uge w x y then subi w x y else x.

(** ModArithOps.cpp:419-481 [foldScalarModOp]; operands are raw words *)
Inductive modop := MAdd | MSub | MMul.
Definition fold_binop (op : modop) (w q l r : Z) : option Z :=
  let ww := 2 * w + 1 in
  let lw := wrap w l in
  let rw := wrap w r in
  res <- match op with
         | MAdd => Some (addi ww lw rw)
         | MSub => rr <- remui ww rw q ;; Some (subi ww (addi ww lw q) rr)
         | MMul => Some (muli ww lw rw)
         end ;;
  r <- remui ww res q ;; Some (trunci w r).
Definition fold_mac (w q l r a : Z) : option Z :=
  let ww := 2 * w + 1 in
  x <- remui ww (addi ww (wrap w a) (muli ww (wrap w l) (wrap w r))) q ;;
  Some (trunci w x).

(** ConvertToMac.cpp:20-53 and ModArithCanonicalization.td work on expression
    trees: SSA values are shared subtrees, block arguments are variables. *)
Inductive mexpr :=
| EVar (v : nat)
| EConst (c : Z)
| EAdd (a b : mexpr)
| ESub (a b : mexpr)
| EMul (a b : mexpr)
| EMac (a b c : mexpr).

Fixpoint mexpr_eqb (a b : mexpr) : bool :=
  match a, b with
  | EVar x, EVar y => Nat.eqb x y
  | EConst x, EConst y => Z.eqb x y
  | EAdd a1 a2, EAdd b1 b2 | ESub a1 a2, ESub b1 b2 | EMul a1 a2, EMul b1 b2 =>
      mexpr_eqb a1 b1 && mexpr_eqb a2 b2
  | EMac a1 a2 a3, EMac b1 b2 b3 =>
      mexpr_eqb a1 b1 && mexpr_eqb a2 b2 && mexpr_eqb a3 b3
  | _, _ => false
  end.

(** ModArithCanonicalization.td:10-14, the constraints IsZero, IsOne, IsMinusOne *)
Definition is_zero (c : Z) : bool := c =? 0.
Definition is_one (w c : Z) : bool := c =? wrap w 1.
Definition is_minus_one (w q c : Z) : bool := wrap w c =? subi w q 1.

(** ModArithCanonicalization.td:21-279.  One partial function per pattern. *)
Definition pattern := Z -> Z -> mexpr -> option mexpr.
Definition AddZero : pattern := fun w q e =>
  match e with EAdd l (EConst c) => if is_zero c then Some l else None | _ => None end.
Definition SubZero : pattern := fun w q e =>
  match e with ESub l (EConst c) => if is_zero c then Some l else None | _ => None end.
Definition MulZero : pattern := fun w q e =>
  match e with EMul l (EConst c) => if is_zero c then Some (EConst c) else None | _ => None end.
Definition MulOne : pattern := fun w q e =>
  match e with EMul l (EConst c) => if is_one w c then Some l else None | _ => None end.
Definition AddAddConstant : pattern := fun w q e =>
  match e with
  | EAdd (EAdd x (EConst c0)) (EConst c1) => Some (EAdd x (EAdd (EConst c0) (EConst c1)))
  | _ => None end.
Definition AddSubConstantRHS : pattern := fun w q e =>
  match e with
  | EAdd (ESub x (EConst c0)) (EConst c1) => Some (EAdd x (ESub (EConst c1) (EConst c0)))
  | _ => None end.
Definition AddSubConstantLHS : pattern := fun w q e =>
  match e with
  | EAdd (ESub (EConst c0) x) (EConst c1) => Some (ESub (EAdd (EConst c0) (EConst c1)) x)
  | _ => None end.
Definition AddMulNegativeOneRhs : pattern := fun w q e =>
  match e with
  | EAdd x (EMul y (EConst c)) => if is_minus_one w q c then Some (ESub x y) else None
  | _ => None end.
Definition AddMulNegativeOneLhs : pattern := fun w q e =>
  match e with
  | EAdd (EMul x (EConst c)) y => if is_minus_one w q c then Some (ESub y x) else None
  | _ => None end.
Definition SubMulNegativeOneRhs : pattern := fun w q e =>
  match e with
  | ESub x (EMul y (EConst c)) => if is_minus_one w q c then Some (EAdd x y) else None
  | _ => None end.
Definition SubMulNegativeOneLhs : pattern := fun w q e =>
  match e with
  | ESub (EMul x (EConst c)) y =>
      if is_minus_one w q c then Some (ESub (EConst 0) (EAdd x y)) else None
  | _ => None end.
Definition MulMulConstant : pattern := fun w q e =>
  match e with
  | EMul (EMul x (EConst c0)) (EConst c1) => Some (EMul x (EMul (EConst c0) (EConst c1)))
  | _ => None end.
Definition SubRHSAddConstant : pattern := fun w q e =>
  match e with
  | ESub (EAdd x (EConst c0)) (EConst c1) => Some (EAdd x (ESub (EConst c0) (EConst c1)))
  | _ => None end.
Definition SubLHSAddConstant : pattern := fun w q e =>
  match e with
  | ESub (EConst c1) (EAdd x (EConst c0)) => Some (ESub (ESub (EConst c1) (EConst c0)) x)
  | _ => None end.
Definition SubRHSSubConstantRHS : pattern := fun w q e =>
  match e with
  | ESub (ESub x (EConst c0)) (EConst c1) => Some (ESub x (EAdd (EConst c0) (EConst c1)))
  | _ => None end.
Definition SubRHSSubConstantLHS : pattern := fun w q e =>
  match e with
  | ESub (ESub (EConst c0) x) (EConst c1) => Some (ESub (ESub (EConst c0) (EConst c1)) x)
  | _ => None end.
Definition SubLHSSubConstantRHS : pattern := fun w q e =>
  match e with
  | ESub (EConst c1) (ESub x (EConst c0)) => Some (ESub (EAdd (EConst c0) (EConst c1)) x)
  | _ => None end.
Definition SubLHSSubConstantLHS : pattern := fun w q e =>
  match e with
  | ESub (EConst c1) (ESub (EConst c0) x) => Some (EAdd x (ESub (EConst c1) (EConst c0)))
  | _ => None end.
Definition SubSubLHSRHSLHS : pattern := fun w q e =>
  match e with
  | ESub (ESub a b) a' => if mexpr_eqb a a' then Some (ESub (EConst 0) b) else None
  | _ => None end.

(** ConvertToMac.cpp:20-53 [FindMac] *)
Definition FindMac : pattern := fun w q e =>
  match e with
  | EAdd (EMul a b) c => Some (EMac a b c)
  | EAdd c (EMul a b) => Some (EMac a b c)
  | _ => None end.

(** ModArithOps.cpp:484-560: the folders of add, sub, mul, mac on constant operands *)
Definition FoldOps : pattern := fun w q e =>
  let k o := match o with Some c => Some (EConst c) | None => None end in
  match e with
  | EAdd (EConst a) (EConst b) => k (fold_binop MAdd w q a b)
  | ESub (EConst a) (EConst b) => k (fold_binop MSub w q a b)
  | EMul (EConst a) (EConst b) => k (fold_binop MMul w q a b)
  | EMac (EConst a) (EConst b) (EConst c) => k (fold_mac w q a b c)
  | _ => None end.

Definition all_patterns : list pattern :=
  [AddZero; SubZero; MulZero; MulOne; AddAddConstant; AddSubConstantRHS;
   AddSubConstantLHS; AddMulNegativeOneRhs; AddMulNegativeOneLhs;
   SubMulNegativeOneRhs; SubMulNegativeOneLhs; MulMulConstant;
   SubRHSAddConstant; SubLHSAddConstant; SubRHSSubConstantRHS;
   SubRHSSubConstantLHS; SubLHSSubConstantRHS; SubLHSSubConstantLHS;
   SubSubLHSRHSLHS; FindMac; FoldOps].

(** One step of the greedy rewrite driver: some pattern fires at some position. *)
Inductive rewrite_step (w q : Z) : mexpr -> mexpr -> Prop :=
| rs_root p e e' : In p all_patterns -> p w q e = Some e' -> rewrite_step w q e e'
| rs_addl a a' b : rewrite_step w q a a' -> rewrite_step w q (EAdd a b) (EAdd a' b)
| rs_addr a b b' : rewrite_step w q b b' -> rewrite_step w q (EAdd a b) (EAdd a b')
| rs_subl a a' b : rewrite_step w q a a' -> rewrite_step w q (ESub a b) (ESub a' b)
| rs_subr a b b' : rewrite_step w q b b' -> rewrite_step w q (ESub a b) (ESub a b')
| rs_mull a a' b : rewrite_step w q a a' -> rewrite_step w q (EMul a b) (EMul a' b)
| rs_mulr a b b' : rewrite_step w q b b' -> rewrite_step w q (EMul a b) (EMul a b')
| rs_mac1 a a' b c : rewrite_step w q a a' -> rewrite_step w q (EMac a b c) (EMac a' b c)
| rs_mac2 a b b' c : rewrite_step w q b b' -> rewrite_step w q (EMac a b c) (EMac a b' c)
| rs_mac3 a b c c' : rewrite_step w q c c' -> rewrite_step w q (EMac a b c) (EMac a b c').
Inductive rewrites (w q : Z) : mexpr -> mexpr -> Prop :=
| rw_refl e : rewrites w q e e
| rw_step e1 e2 e3 : rewrite_step w q e1 e2 -> rewrites w q e2 e3 -> rewrites w q e1 e3.

(** The arith program produced for an expression by ModArithToArith. *)
Fixpoint run (w q : Z) (env : nat -> Z) (e : mexpr) : option Z :=
  match e with
  | EVar v => Some (env v)
  | EConst c => Some c
  | EAdd a b => x <- run w q env a ;; y <- run w q env b ;; lower_add w q x y
  | ESub a b => x <- run w q env a ;; y <- run w q env b ;; lower_sub w q x y
  | EMul a b => x <- run w q env a ;; y <- run w q env b ;; lower_mul w q x y
  | EMac a b c =>
      x <- run w q env a ;; y <- run w q env b ;; z <- run w q env c ;;
      lower_mac w q x y z
  end.

(** ModArithOps.cpp:226-242 [ConstantOp::parse]/normalizeInteger: a literal [v]
    becomes the w-bit word stored in the attribute, or is rejected.
    getSignificantBits of a negative v is at most w iff -2^(w-1) <= v. *)
Definition parse_constant (w v : Z) : option Z :=
  if v <? 0 then (if v <? - 2 ^ (w - 1) then None else Some (wrap w v))
  else (if active_bits v <=? w then Some v else None).

(** ModArithOps.cpp:355-403 [ConstantOp::fold] on the stored word *)
Definition fold_constant (w q c : Z) : option Z := remui w (wrap w c) q.

(** ModArithToArith.cpp:305-319 [ConvertConstant]: the stored word is used as is *)
Definition lower_constant (c : Z) : Z := c.
