(** Vocabulary for the statements about RLWE ciphertexts (C77, C78): polynomials with integer
    coefficients modulo x^n + 1, their residues, and the value a ciphertext stands for. *)
From Coq Require Import ZArith List Bool.
From Verif Require Import Sums.
Import ListNotations.
Open Scope Z_scope.

(** a polynomial is the list of its coefficients, the constant one first *)
Definition coef (a : list Z) (k : nat) : Z := nth k a 0.
(** the ring Z[x]/(x^n + 1) *)
Definition padd (n : nat) (a b : list Z) : list Z := map (fun k => coef a k + coef b k) (seq 0 n).
Definition psub (n : nat) (a b : list Z) : list Z := map (fun k => coef a k - coef b k) (seq 0 n).
Definition pscale (n : nat) (c : Z) (a : list Z) : list Z := map (fun k => c * coef a k) (seq 0 n).
(** the coefficient of x^k in x^m modulo x^n + 1, for m < 2n *)
Definition fold_sign (n m k : nat) : Z :=
  if (m =? k)%nat then 1 else if (m =? k + n)%nat then -1 else 0.
Definition pmul (n : nat) (a b : list Z) : list Z :=
  map (fun k => sumn n (fun i => sumn n (fun j => fold_sign n (i + j) k * (coef a i * coef b j)))) (seq 0 n).
(** equal modulo q, coefficient by coefficient *)
Definition pcong (n : nat) (q : Z) (a b : list Z) : Prop :=
  forall k, (k < n)%nat -> (coef a k) mod q = (coef b k) mod q.
(** the residues of a polynomial *)
Definition pres (n : nat) (q : Z) (a : list Z) : list Z := map (fun k => coef a k mod q) (seq 0 n).
(** the residue number representation: one polynomial per modulus *)
Definition prns (n : nat) (qs : list Z) (a : list Z) : list (list Z) := map (fun q => pres n q a) qs.

(** LWEOps.td:282-284: "A ciphertext can be viewed as a polynomial in the indeterminant S, the
    abstract secret key. For example, [c0, c1] represents c0 + c1 * S": its value at the key s. *)
Fixpoint phase (n : nat) (s : list Z) (ct : list (list Z)) : list Z :=
  match ct with
  | [] => []
  | c :: rest => padd n c (pmul n s (phase n s rest))
  end.

(** every coefficient is at most B in absolute value *)
Definition bounded (n : nat) (B : Z) (a : list Z) : Prop := forall k, (k < n)%nat -> Z.abs (coef a k) <= B.
Definition modulus_product (l : list Z) : Z := fold_right Z.mul 1 l.

(** an element of the ring with the moduli qs: n coefficients in [0,q) for each modulus q *)
Definition ring_element (n : nat) (qs : list Z) (x : list (list Z)) : Prop :=
  Forall2 (fun q a => length a = n /\ Forall (fun v => 0 <= v < q) a) qs x.
(** the components of a ciphertext modulo the j-th modulus *)
Definition limb (j : nat) (ct : list (list (list Z))) : list (list Z) := map (fun x => nth j x []) ct.

(** pairwise coprime *)
Fixpoint coprimes (l : list Z) : Prop :=
  match l with
  | [] => True
  | q :: rest => (forall r, In r rest -> Z.gcd q r = 1) /\ coprimes rest
  end.
(** a list cut into pieces of length k, the last one may be shorter *)
Fixpoint chunks {A} (k : nat) (subs : list (list A)) : Prop :=
  match subs with
  | [] => True
  | [sub] => (1 <= length sub <= k)%nat
  | sub :: rest => length sub = k /\ chunks k rest
  end.
(** one part of a key-switching key: the factor g, the two components (b, a) and the noise e *)
Record key_part := KeyPart { factor : Z; part_b : list Z; part_a : list Z; part_noise : list Z }.
(** [key] is a key-switching key from s_in to s_out for the moduli cut into [subs] with key-switch
    primes [ps]: part i stands, under s_out and modulo the product of all the moduli, for
    P * g_i * s_in plus noise at most B, where g_i is 1 modulo the moduli of piece i and 0 modulo the
    others *)
Definition switching_key (n : nat) (subs : list (list Z)) (ps : list Z) (s_in s_out : list Z) (B : Z) (key : list key_part) : Prop :=
  length key = length subs /\
  forall i part, nth_error key i = Some part ->
    pcong n (modulus_product (concat subs ++ ps)) (phase n s_out [part_b part; part_a part])
      (padd n (part_noise part) (pscale n (modulus_product ps * factor part) s_in)) /\
    bounded n B (part_noise part) /\
    forall j sub q, nth_error subs j = Some sub -> In q sub ->
      factor part mod q = if (i =? j)%nat then 1 else 0.
(** an odd modulus that a w-bit word can hold with its sign, with room to spare *)
Definition word_modulus (w q : Z) : Prop := Z.odd q = true /\ 1 < q < 2 ^ (w - 1) - 1.
(** the sum of a list *)
Definition total (l : list Z) : Z := fold_right Z.add 0 l.
