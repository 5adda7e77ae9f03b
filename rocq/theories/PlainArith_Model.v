(** arith-to-mod-arith (lib/Dialect/Arith/Conversions/ArithToModArith) and secret-to-mod-arith
    (lib/Dialect/Secret/Conversions/SecretToModArith): integer programs on integers modulo a number. The operations of mod_arith
    are the ones of ModArith_Model, as they are lowered. Tensors are elementwise. *)
From Coq Require Import ZArith List Bool.
From Verif Require Import Words ModArith_Model PlainArith_Spec.
Open Scope Z_scope.

(** *** arith-to-mod-arith *)

(** getIntegerType, ArithToModArith.cpp 41-48: the width of the storage type. *)
Definition storage (modulus w : Z) : Z := if modulus =? 0 then w + 1 else 64.

(** convertArithType, ArithToModArith.cpp 50-58; 1L << (w - 1) for w <= 63. *)
Definition modulus_of (modulus w : Z) : Z := if modulus =? 0 then 2 ^ (w - 1) else modulus.

Inductive texpr :=
| TVar (v : nat) | TConst (w q c : Z)
| TAdd (w q : Z) (a b : texpr) | TSub (w q : Z) (a b : texpr) | TMul (w q : Z) (a b : texpr)
| TSwitch (wq q wp p : Z) (a : texpr).

(** ConvertConstant, ArithToModArith.cpp 105-155: sextOrTrunc for the elements of a tensor, zextOrTrunc for a scalar. *)
Definition convert_constant (modulus w : Z) (dense : bool) (c : Z) : texpr :=
  TConst (storage modulus w) (modulus_of modulus w)
    (if dense then wrap (storage modulus w) (sgn w c) else wrap (storage modulus w) c).

(** ConvertBinOp (ConversionUtils.h 69-86), ConvertExtSI and ConvertExtUI (ArithToModArith.cpp 157-193), both with
    mod_arith.mod_switch. *)
Fixpoint convert (modulus w : Z) (e : aexpr) : texpr :=
  let s := storage modulus w in
  let q := modulus_of modulus w in
  match e with
  | AVar v => TVar v
  | AConst dense c => convert_constant modulus w dense c
  | AAdd a b => TAdd s q (convert modulus w a) (convert modulus w b)
  | ASub a b => TSub s q (convert modulus w a) (convert modulus w b)
  | AMul a b => TMul s q (convert modulus w a) (convert modulus w b)
  | AExt _ from a => TSwitch (storage modulus from) (modulus_of modulus from) s q (convert modulus from a)
  end.

(** The result, with constants folded (mod_arith.constant folds to its value modulo q, ModArithOps.cpp 355-403). *)
Fixpoint run_mod (env : nat -> Z) (e : texpr) : option Z :=
  match e with
  | TVar v => Some (env v)
  | TConst w q c => fold_constant w q c
  | TAdd w q a b => x <- run_mod env a ;; y <- run_mod env b ;; lower_add w q x y
  | TSub w q a b => x <- run_mod env a ;; y <- run_mod env b ;; lower_sub w q x y
  | TMul w q a b => x <- run_mod env a ;; y <- run_mod env b ;; lower_mul w q x y
  | TSwitch wq q wp p a => x <- run_mod env a ;; lower_modswitch wq q wp p x
  end.

(** *** secret-to-mod-arith, with a plaintext modulus q; the storage type is i64 *)

(** encodeCleartext, SecretToModArith.cpp 251-274: sign extension and encapsulate, which lowers to nothing
    (ModArithToArith.cpp 158-170). The same for secret.conceal (276-305). *)
Definition encode (w x : Z) : Z := wrap 64 (sgn w x).

(** ConvertReveal, SecretToModArith.cpp 307-356. *)
Definition reveal (w q x : Z) : option Z :=
  r <- lower_lift_standard 64 q x ;; Some (if w <? 64 then trunci w r else r).

(** SecretGenericOpConversion and SecretGenericOpCipherPlainConversion, SecretToModArith.cpp 112-181 and 364-399, on one
    operation: the flag says whether the value has a mod_arith type. An operation on two plaintexts is not in a generic. *)
Definition as_secret (w : Z) (x : bool * Z) : Z := if fst x then snd x else encode w (snd x).
Definition convert_binop (op : Z -> Z -> Z -> Z -> option Z) (w q : Z) (x y : bool * Z) : option (bool * Z) :=
  if fst x || fst y then option_map (pair true) (op 64 q (as_secret w x) (as_secret w y)) else None.
Fixpoint run_secret (w q : Z) (secret plain : nat -> Z) (e : sexpr) : option (bool * Z) :=
  match e with
  | Secret v => Some (true, secret v)
  | Plain v => Some (false, plain v)
  | SAdd a b => x <- run_secret w q secret plain a ;; y <- run_secret w q secret plain b ;; convert_binop lower_add w q x y
  | SSub a b => x <- run_secret w q secret plain a ;; y <- run_secret w q secret plain b ;; convert_binop lower_sub w q x y
  | SMul a b => x <- run_secret w q secret plain a ;; y <- run_secret w q secret plain b ;; convert_binop lower_mul w q x y
  end.

(** A whole program: the secret arguments are concealed, the result is revealed. *)
Definition execute (w q : Z) (secret plain : nat -> Z) (e : sexpr) : option Z :=
  r <- run_secret w q (fun v => encode w (secret v)) plain e ;; if fst r then reveal w q (snd r) else None.
