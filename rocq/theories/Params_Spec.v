(** * Moduli of RLWE schemes

    Small definitions to state what generated parameters must satisfy. *)
From Coq Require Import ZArith List Znumtheory.
Import ListNotations.
Open Scope Z_scope.

Fixpoint product (l : list Z) : Z :=
  match l with [] => 1 | q :: l => q * product l end.

(** A modulus for which the ring of dimension [n] has a negacyclic number
    theoretic transform: a prime that is 1 modulo [2 n]. *)
Definition ntt_prime (n q : Z) : Prop := prime q /\ q mod (2 * n) = 1.

(** The largest number of bits of the modulus for which a ternary secret gives
    128 bits of classical security ("Security Guidelines for Implementing
    Homomorphic Encryption", https://ia.cr/2024/463). *)
Definition max_log_modulus : list (Z * Z) :=
  [(1024, 26); (2048, 53); (4096, 106); (8192, 214);
   (16384, 430); (32768, 868); (65536, 1747); (131072, 3523)].

(** ** The prime generators of OpenFHE

    [first b m] and [next d m] are [FirstPrime] and [NextPrime]; [None] is an
    exception. Primes below [limit] that are 1 modulo [m] are candidates. *)
Definition candidate (limit m p : Z) : Prop := prime p /\ p mod m = 1 /\ p < limit.

(** What a returned prime satisfies. *)
Definition returns_primes (first next : Z -> Z -> option Z) : Prop :=
  (forall b m p, 1 < m -> first b m = Some p -> prime p /\ p mod m = 1 /\ 2 ^ b < p) /\
  (forall d m p, 1 < m -> d mod m = 1 -> next d m = Some p -> prime p /\ p mod m = 1 /\ d < p).

(** The same for [prev] and [last], [PreviousPrime] and [LastPrime]. *)
Definition returns_primes_below (prev last : Z -> Z -> option Z) : Prop :=
  (forall d m p, 1 < m -> d mod m = 1 -> prev d m = Some p -> prime p /\ p mod m = 1 /\ p < d) /\
  (forall b m p, 1 < m -> last b m = Some p -> prime p /\ p mod m = 1 /\ p < 2 ^ b).

(** That they return the least candidate, and fail only if there is none with
    the number of bits asked for. *)
Definition returns_least (limit : Z) (first next : Z -> Z -> option Z) : Prop :=
  (forall b m p, 1 < m -> first b m = Some p ->
     p < limit /\ forall c, candidate limit m c -> 2 ^ b < c -> p <= c) /\
  (forall b m c, 1 < m -> first b m = None -> candidate limit m c -> ~ (2 ^ b < c < 2 ^ (b + 1))) /\
  (forall d m p, 1 < m -> d mod m = 1 -> next d m = Some p ->
     p < limit /\ forall c, candidate limit m c -> d < c -> p <= c) /\
  (forall d m c, 1 < m -> d mod m = 1 -> next d m = None -> candidate limit m c ->
     ~ (d < c < 2 ^ (Z.log2 d + 1))).
