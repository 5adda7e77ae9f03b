(** What scales of CKKS ciphertexts are for: a ciphertext of a message m with scale s carries 2^s * m.  Errors are left out
    and the moduli are taken to be powers of two: [q l] is the logarithm of the modulus dropped at level l. *)
From Coq Require Import ZArith QArith List Bool.
From Verif Require Import Mgmt_Model Mgmt_Spec.
Import ListNotations.
Open Scope Z_scope.

(** * Estimates *)
(** Scales of the values of a program such that the management operations already present drop the right moduli.  [D]: the
    default scale, [s0]: the scale of inputs and plaintexts, [lev]: the levels.  The estimate of a value may be below D:
    this is a value whose modulus is reduced once too often, which has to be scaled up before. *)
Record estimate (D s0 : Z) (q : nat -> Z) (lev : nat -> nat) (p : prog) (b : nat -> Z) : Prop := {
  est_none : forall i k, In i (body p) -> op i <> AdjustScale k;
  est_input : forall v, In v (sargs p) -> b v = s0;
  est_init : forall i, In i (body p) -> op i = Init -> b (res i) = s0;
  est_op : forall i, In i (body p) -> op i <> Init -> existsb (managed p) (args i) = true ->
    secret p (res i) = true /\
    match op i with
    | Mul => exists u v, args i = [u; v] /\ managed p u = true /\ managed p v = true /\
        let T := D + q (lev (res i)) in
        (T <= b u + b v /\ D <= b u /\ D <= b v /\ b (res i) = b u + b v) \/
        (b u + b v < T /\ u = v /\ D <= (T + 1) / 2 /\ b (res i) = 2 * ((T + 1) / 2)) \/
        (b u + b v < T /\ u <> v /\ D <= Z.max (b u) (b v) /\
         (D <= Z.min (b u) (b v) \/ Z.max (b u) (b v) <= q (lev (res i))) /\ b (res i) = T)
    | ModReduce => exists u, args i = [u] /\ secret p u = true /\ b (res i) = b u - q (lev u)
    | Add | Sub | Ins =>
        (exists v, In v (args i) /\ managed p v = true /\ b v = b (res i)) /\
        (forall v, In v (args i) -> managed p v = true -> b v <= b (res i)) /\
        (D <= b (res i) \/ forall v, In v (args i) -> managed p v = true -> b v = b (res i))
    | _ => forall v, In v (args i) -> managed p v = true -> b v = b (res i)
    end
}.

(** * Rules for scales *)
Definition scale_rule (q : nat -> Z) (lev : nat -> nat) (p : prog) (sc : nat -> Z) (i : inst) : Prop :=
  match op i with
  | Init => True
  | Mul => exists u v, args i = [u; v] /\ sc (res i) = sc u + sc v
  | ModReduce => exists u, args i = [u] /\ sc (res i) = sc u - q (lev u)
  | AdjustScale _ => exists u, args i = [u] /\ sc u <= sc (res i)
  | _ => forall v, In v (args i) -> managed p v = true -> sc v = sc (res i)
  end.

(** * Running a program on encrypted data *)
Definition slots := nat -> Q.
Definition eqs (a b : slots) : Prop := forall k, (a k == b k)%Q.
Definition pow2 (s : Z) : Q := Qpower 2 s.
Definition scaled (s : Z) (a : slots) : slots := fun k => (pow2 s * a k)%Q.

Section Payload.
  (** the logarithm of the modulus dropped by an operation; meaning of the operations that only move data *)
  Variables (drop : inst -> Z) (ev : opk -> list slots -> slots).

  (** the cleartext meaning of an operation: [C] are the messages *)
  Definition clear_op (C : nat -> slots) (i : inst) : Prop :=
    match op i, args i with
    | Add, [a; b] => eqs (C (res i)) (fun k => (C a k + C b k)%Q)
    | Sub, [a; b] => eqs (C (res i)) (fun k => (C a k - C b k)%Q)
    | Mul, [a; b] => eqs (C (res i)) (fun k => (C a k * C b k)%Q)
    | Ins, l | Slice, l | Other _, l => eqs (C (res i)) (ev (op i) (map C l))
    | Init, [a] | ModReduce, [a] | LevelReduce _, [a] | LevelReduceMin, [a] | Relin, [a] | AdjustScale _, [a] =>
        eqs (C (res i)) (C a)
    | _, _ => False
    end.

  (** what the scheme does: [E] are the payloads of ciphertexts and encoded plaintexts, [enc] is the scale at which a
      plaintext is encoded, [delta] is what became of an adjust_scale: nothing, or a product with ones encoded at a scale *)
  Definition exec_op (C E : nat -> slots) (enc : nat -> Z) (delta : nat -> option Z) (i : inst) : Prop :=
    match op i, args i with
    | Add, [a; b] => eqs (E (res i)) (fun k => (E a k + E b k)%Q)
    | Sub, [a; b] => eqs (E (res i)) (fun k => (E a k - E b k)%Q)
    | Mul, [a; b] => eqs (E (res i)) (fun k => (E a k * E b k)%Q)
    | Ins, l | Slice, l | Other _, l => eqs (E (res i)) (ev (op i) (map E l))
    | Init, [a] => eqs (E (res i)) (scaled (enc (res i)) (C a))
    | ModReduce, [a] => eqs (scaled (drop i) (E (res i))) (E a)
    | LevelReduce _, [a] | LevelReduceMin, [a] | Relin, [a] => eqs (E (res i)) (E a)
    | AdjustScale _, [a] => match delta (res i) with
                            | None => eqs (E (res i)) (E a)
                            | Some d => eqs (E (res i)) (fun k => (E a k * (pow2 d * 1))%Q)
                            end
    | _, _ => False
    end.

  (** operands and results may be replaced by equal ones *)
  Definition proper : Prop := forall k l l', Forall2 eqs l l' -> eqs (ev k l) (ev k l').
  (** the operands with flag are ciphertexts, [es] are their payloads *)
  Fixpoint carries (s : Z) (ct : list bool) (cs es : list slots) : Prop :=
    match ct, cs, es with
    | [], [], [] => True
    | f :: ct, c :: cs, e :: es => (if f then eqs e (scaled s c) else eqs e c) /\ carries s ct cs es
    | _, _, _ => False
    end.
  (** moving data commutes with scaling of the ciphertexts among the operands *)
  Definition linear (k : opk) (ct : list bool) : Prop :=
    forall s cs es, carries s ct cs es -> eqs (ev k es) (scaled s (ev k cs)).
End Payload.

(** [lev]: levels, [sc]: scales, [delta]: what became of each adjust_scale.  Secret inputs are encrypted and plaintexts are
    encoded at their scales, other plaintext values stay as they are. *)
Record execution (q : nat -> Z) (lev : nat -> nat) (ev : opk -> list slots -> slots) (p : prog)
    (C E : nat -> slots) (sc : nat -> Z) (delta : nat -> option Z) : Prop := {
  ex_clear : forall i, In i (body p) -> clear_op ev C i;
  ex_exec : forall i, In i (body p) -> managed p (res i) = true ->
    exec_op (fun i => q (lev (hd 0%nat (args i)))) ev C E sc delta i;
  ex_input : forall v, In v (sargs p) -> eqs (E v) (scaled (sc v) (C v));
  ex_plain : forall v, managed p v = false -> eqs (E v) (C v)
}.
(** operands of arithmetic with ciphertexts are ciphertexts or encoded plaintexts, the other operations move data *)
Definition scheme_ops (ev : opk -> list slots -> slots) (p : prog) : Prop :=
  forall i, In i (body p) -> secret p (res i) = true ->
    match op i with
    | Add | Sub | Mul => forall v, In v (args i) -> managed p v = true
    | Ins | Slice | Other _ => linear ev (op i) (map (managed p) (args i))
    | _ => True
    end.
