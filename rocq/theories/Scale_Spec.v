(** What scales are for: a B/GV ciphertext of a message m with scale s carries s * m modulo the plaintext modulus. *)
From Coq Require Import ZArith List Bool.
From Verif Require Import Mgmt_Model Mgmt_Spec.
Import ListNotations.
Open Scope Z_scope.

Definition eqm (t a b : Z) : Prop := a mod t = b mod t.
(** the slots of a message or of a payload *)
Definition slots := nat -> Z.
Definition eqv (t : Z) (a b : slots) : Prop := forall k, eqm t (a k) (b k).
Definition scaled (s : Z) (a : slots) : slots := fun k => s * a k.

Section Payload.
  (** plaintext modulus; the modulus dropped by a modulus reduction; meaning of the operations that only move data *)
  Variables (t : Z) (drop : inst -> Z) (ev : opk -> list slots -> slots).
  Definition moves (k : opk) : bool := match k with Ins | Slice | Other _ => true | _ => false end.

  (** the cleartext meaning of an operation: [C] are the messages *)
  Definition clear_op (C : nat -> slots) (i : inst) : Prop :=
    match op i, args i with
    | Add, [a; b] => eqv t (C (res i)) (fun k => C a k + C b k)
    | Sub, [a; b] => eqv t (C (res i)) (fun k => C a k - C b k)
    | Mul, [a; b] => eqv t (C (res i)) (fun k => C a k * C b k)
    | Ins, l | Slice, l | Other _, l => C (res i) = ev (op i) (map C l)
    | Init, [a] | ModReduce, [a] | LevelReduce _, [a] | LevelReduceMin, [a] | Relin, [a] | AdjustScale _, [a] => C (res i) = C a
    | _, _ => False
    end.

  (** what the scheme does: [E] are the payloads of ciphertexts and encoded plaintexts, [enc] is the scale at which a
      plaintext is encoded, [delta] is what became of an adjust_scale: nothing, or a product with ones encoded at a scale *)
  Definition exec_op (C E : nat -> slots) (enc : nat -> Z) (delta : nat -> option Z) (i : inst) : Prop :=
    match op i, args i with
    | Add, [a; b] => eqv t (E (res i)) (fun k => E a k + E b k)
    | Sub, [a; b] => eqv t (E (res i)) (fun k => E a k - E b k)
    | Mul, [a; b] => eqv t (E (res i)) (fun k => E a k * E b k)
    | Ins, l | Slice, l | Other _, l => E (res i) = ev (op i) (map E l)
    | Init, [a] => eqv t (E (res i)) (scaled (enc (res i)) (C a))
    | ModReduce, [a] => eqv t (fun k => E (res i) k * drop i) (E a)
    | LevelReduce _, [a] | LevelReduceMin, [a] | Relin, [a] => E (res i) = E a
    | AdjustScale _, [a] => match delta (res i) with
                            | None => E (res i) = E a
                            | Some d => eqv t (E (res i)) (fun k => E a k * (d * 1))
                            end
    | _, _ => False
    end.

  (** moving data commutes with scaling of the ciphertexts among the operands ([ct]) *)
  Definition linear (ct : nat -> bool) (i : inst) : Prop :=
    forall s (C E : nat -> slots), (forall v, In v (args i) -> if ct v then eqv t (E v) (scaled s (C v)) else E v = C v) ->
      eqv t (ev (op i) (map E (args i))) (scaled s (ev (op i) (map C (args i)))).
End Payload.

(** * Assignments of scales that respect every operation *)
Definition unit_mod (t s : Z) : Prop := 0 <= s < t /\ Z.gcd s t = 1.
(** values whose scale an adjust_scale chooses *)
Inductive adjustable (l : list inst) : nat -> Prop :=
| adj_op : forall i k, In i l -> op i = AdjustScale k -> adjustable l (res i)
| adj_one : forall i v, In i l -> hd_error (args i) = Some v -> adjustable l v ->
    match op i with ModReduce | Relin | LevelReduce _ => True | _ => False end -> adjustable l (res i)
| adj_add : forall i u v r, In i l -> op i = Add -> args i = u :: v :: r -> adjustable l u -> adjustable l v ->
    adjustable l (res i).
(** [q]: the moduli by level, [lev]: the level of a value *)
Record consistent (t : Z) (q : list Z) (lev : nat -> nat) (p : prog) (sc : nat -> Z) : Prop := {
  con_unit : forall v, managed p v = true -> unit_mod t (sc v);
  con_input : forall v, In v (sargs p) -> sc v = 1;
  con_init : forall i, In i (body p) -> op i = Init -> sc (res i) = 1;
  con_op : forall i, In i (body p) -> existsb (managed p) (args i) = true ->
    match op i with
    | AdjustScale _ => True
    | Mul => exists a b, args i = [a; b] /\ managed p a = true /\ managed p b = true /\
               sc (res i) = (sc a * sc b) mod t /\ (adjustable (body p) a \/ adjustable (body p) b -> sc a = sc b)
    | ModReduce => exists a m, args i = [a] /\ nth_error q (lev a) = Some m /\ unit_mod t (sc (res i)) /\
               eqm t (sc (res i) * m) (sc a)
    | _ => forall v, In v (args i) -> sc v = sc (res i)
    end
}.

(** * Running a program on encrypted data *)
(** [q]: the moduli by level; [C]: messages; [E]: payloads; [sc]: scales; [delta]: what became of each adjust_scale.
    Secret inputs are encrypted and plaintexts are encoded at their scales, other plaintext values stay as they are. *)
Record execution (t : Z) (q : list Z) (lev : nat -> nat) (ev : opk -> list slots -> slots) (p : prog)
    (C E : nat -> slots) (sc : nat -> Z) (delta : nat -> option Z) : Prop := {
  ex_clear : forall i, In i (body p) -> clear_op t ev C i;
  ex_exec : forall i, In i (body p) -> managed p (res i) = true ->
    exec_op t (fun i => nth (lev (hd 0%nat (args i))) q 0) ev C E sc delta i;
  ex_input : forall v, In v (sargs p) -> eqv t (E v) (scaled (sc v) (C v));
  ex_plain : forall v, managed p v = false -> E v = C v
}.
(** operands of arithmetic with ciphertexts are ciphertexts or encoded plaintexts, the other operations move data *)
Definition scheme_ops (t : Z) (ev : opk -> list slots -> slots) (p : prog) : Prop :=
  forall i, In i (body p) -> secret p (res i) = true ->
    match op i with
    | Add | Sub | Mul => forall v, In v (args i) -> managed p v = true
    | Ins | Slice | Other _ => linear t ev (managed p) i
    | _ => True
    end.
