(** BGV ciphertexts over the integers: what it means that a ciphertext holds a message with some noise, and what the
    homomorphic operations do to the ciphertexts.  Nothing here refers to the noise model of the compiler. *)
From Coq Require Import ZArith QArith Qabs List Bool.
Import ListNotations.
Open Scope Z_scope.

Section Ring.
  Variable N : positive.

  (** an element of Z[X]/(X^N+1), as the sequence of its coefficients: coefficient k for 0 <= k < N, and X^N = -1 beyond *)
  Record elt : Type := Elt { coef :> Z -> Z; anti : forall k, coef (k + Z.pos N) = - coef k }.

  Definition sum (f : Z -> Z) : Z := fold_right Z.add 0 (map (fun i => f (Z.of_nat i)) (seq 0 (Pos.to_nat N))).

  Definition same (x y : elt) : Prop := forall k, x k = y k.
  (** congruent modulo a number, coefficient by coefficient *)
  Definition cong (M : Z) (x y : elt) : Prop := forall k, (M | x k - y k).
  (** the largest coefficient in absolute value is at most B *)
  Definition bounded (x : elt) (B : Q) : Prop := forall k, (inject_Z (Z.abs (x k)) <= B)%Q.

  Program Definition zero : elt := {| coef := fun _ => 0 |}.
  Program Definition plus (x y : elt) : elt := {| coef := fun k => x k + y k |}.
  Next Obligation. rewrite !anti. ring. Qed.
  Program Definition opp (x : elt) : elt := {| coef := fun k => - x k |}.
  Next Obligation. rewrite !anti. ring. Qed.
  Program Definition scale (c : Z) (x : elt) : elt := {| coef := fun k => c * x k |}.
  Next Obligation. rewrite !anti. ring. Qed.
  (** the product: coefficient k collects the products of coefficients i and k - i *)
  Program Definition mult (x y : elt) : elt := {| coef := fun k => sum (fun i => x i * y (k - i)) |}.
  Next Obligation.
    unfold sum. induction (seq 0 (Pos.to_nat N)) as [|a l IH]; [reflexivity|]. cbn [map fold_right]. rewrite IH.
    replace (k + Z.pos N - Z.of_nat a) with (k - Z.of_nat a + Z.pos N) by ring. rewrite anti. ring.
  Qed.

  (** ciphertexts of any dimension; decrypting under the key s starts with c0 + c1 s + c2 s^2 + ... *)
  Definition ct := list elt.
  Fixpoint phase (s : elt) (c : ct) : elt := match c with [] => zero | a :: l => plus a (mult s (phase s l)) end.

  (** the operations on ciphertexts of the scheme *)
  Fixpoint ct_add (a b : ct) : ct :=
    match a, b with [], b => b | a, [] => a | x :: a, y :: b => plus x y :: ct_add a b end.
  Definition ct_opp (a : ct) : ct := map opp a.
  Fixpoint ct_mul (a b : ct) : ct :=
    match a with [] => [] | x :: a => ct_add (map (mult x) b) (zero :: ct_mul a b) end.
  Definition ct_cong (M : Z) (a b : ct) : Prop := Forall2 (cong M) a b.

  (** the centred remainder modulo n, and decryption with ciphertext modulus M and plaintext modulus t *)
  Definition centred (x n : Z) : Z := (x + n / 2) mod n - n / 2.
  Definition decrypt (M t : Z) (s : elt) (c : ct) (k : Z) : Z := centred (centred (phase s c k) M) t.

  (** ciphertext c with ciphertext modulus M holds the message p (modulo t) with noise at most B: its phase is m + t v
      with m the centred representative of the message and v bounded by B *)
  Definition holds (M t : Z) (s : elt) (c : ct) (p : elt) (B : Q) : Prop :=
    exists m v : elt, cong M (phase s c) (plus m (scale t v)) /\ cong t m p /\ (forall k, 2 * Z.abs (m k) <= t) /\ bounded v B.

  (** encryption with the public key (-a s + t e, a), and with the secret key *)
  Definition encrypted_pk (M t : Z) (s : elt) (Berr : Q) (p : elt) (c : ct) : Prop :=
    exists a e u e0 e1, bounded e Berr /\ bounded e0 Berr /\ bounded e1 Berr /\ bounded u 1 /\
      ct_cong M c [plus (plus (mult (plus (opp (mult a s)) (scale t e)) u) (scale t e0)) p; plus (mult a u) (scale t e1)].
  Definition encrypted_sk (M t : Z) (s : elt) (Berr : Q) (p : elt) (c : ct) : Prop :=
    exists a e, bounded e Berr /\ ct_cong M c [plus (plus (opp (mult a s)) p) (scale t e); a].

  (** c divided by q with rounding to a multiple of t: q c' = c + delta, delta = 0 modulo t, delta at most t q / 2; the
      ciphertext modulus goes from q M to M *)
  Definition divided (M q t : Z) (c c' : elt) : Prop :=
    exists delta, cong (q * M) (scale q c') (plus c delta) /\ (forall k, (t | delta k)) /\ (forall k, 2 * Z.abs (delta k) <= t * q).
  Definition mod_reduced (M q t : Z) (c c' : ct) : Prop := Forall2 (divided M q t) c c'.

  Definition sum_elts (l : list elt) : elt := fold_right plus zero l.
  (** hybrid key switching of the component c from key s' to key s: n digits d, each at most half the special modulus P, a
      gadget g with c = sum d g, keys (b, a) with b + a s = t e + P g s' modulo M P, then division by P *)
  Definition key_switched (M P t : Z) (Berr : Q) (s' s : elt) (n : nat) (c r0 r1 : elt) : Prop :=
    exists l : list (elt * elt * (elt * elt) * elt), length l = n /\
      cong M c (sum_elts (map (fun '(d, g, _, _) => mult d g) l)) /\
      (forall d g b a e, In (d, g, (b, a), e) l -> (forall k, 2 * Z.abs (d k) <= P) /\ bounded e Berr /\
         cong (M * P) (plus b (mult a s)) (plus (scale t e) (mult (scale P g) s'))) /\
      divided M P t (sum_elts (map (fun '(d, _, (b, _), _) => mult d b) l)) r0 /\
      divided M P t (sum_elts (map (fun '(d, _, (_, a), _) => mult d a) l)) r1.
  (** relinearization: the component of s^2 is switched from the key s^2 to the key s *)
  Definition relinearized (M P t : Z) (Berr : Q) (s : elt) (n : nat) (c c' : ct) : Prop :=
    exists c0 c1 c2 r0 r1, c = [c0; c1; c2] /\ key_switched M P t Berr (mult s s) s n c2 r0 r1 /\
      ct_cong M c' [plus c0 r0; plus c1 r1].

  (** the automorphism sending x(X) to x(X^g), g the inverse of 2 h + 1 modulo 2 N: coefficient k is coefficient (2 h + 1) k of x *)
  Lemma anti_even x k j : coef x (k + 2 * j * Z.pos N) = coef x k.
  Proof.
    assert (A : forall j k, 0 <= j -> coef x (k + 2 * j * Z.pos N) = coef x k).
    { intros j' k' H. revert k'. pattern j'. apply natlike_ind; [| |exact H].
      - intros k'. f_equal. ring.
      - intros i Hi IH k'. replace (k' + 2 * Z.succ i * Z.pos N) with (k' + 2 * i * Z.pos N + Z.pos N + Z.pos N) by ring.
        rewrite !anti, IH. ring. }
    destruct (Z.le_gt_cases 0 j) as [H|H]; [exact (A j k H)|].
    rewrite <- (A (- j) (k + 2 * j * Z.pos N)) by (apply Z.lt_le_incl, Z.opp_pos_neg; exact H). f_equal. ring.
  Qed.
  Lemma auto_anti h x k : coef x ((2 * h + 1) * (k + Z.pos N)) = - coef x ((2 * h + 1) * k).
  Proof.
    replace ((2 * h + 1) * (k + Z.pos N)) with ((2 * h + 1) * k + Z.pos N + 2 * h * Z.pos N) by ring.
    rewrite anti_even, anti. reflexivity.
  Qed.
  Definition auto (h : Z) (x : elt) : elt := Elt (fun k => x ((2 * h + 1) * k)) (auto_anti h x).
  (** rotation: the automorphism is applied to both components, and the second is switched back to the key s *)
  Definition rotated (M P t : Z) (Berr : Q) (s : elt) (n : nat) (h : Z) (c c' : ct) : Prop :=
    exists c0 c1 r0 r1, c = [c0; c1] /\ key_switched M P t Berr (auto h s) s n (auto h c1) r0 r1 /\
      ct_cong M c' [plus (auto h c0) r0; r1].
End Ring.
Arguments coef {N}. Arguments zero {N}. Arguments plus {N}. Arguments opp {N}. Arguments scale {N}. Arguments mult {N}.
Arguments same {N}. Arguments cong {N}. Arguments bounded {N}. Arguments phase {N}. Arguments ct_add {N}. Arguments ct_opp {N}.
Arguments ct_mul {N}. Arguments ct_cong {N}. Arguments decrypt {N}. Arguments holds {N}. Arguments encrypted_pk {N}.
Arguments encrypted_sk {N}. Arguments divided {N}. Arguments mod_reduced {N}. Arguments sum_elts {N}.
Arguments key_switched {N}. Arguments relinearized {N}. Arguments auto {N}. Arguments rotated {N}.

(** ciphertext modulus at a level: the product of the primes 0 .. l *)
Fixpoint modulus_at (q : nat -> Z) (l : nat) : Z := match l with O => q O | S l' => q l * modulus_at q l' end.
(** the number of digits of hybrid key switching at level l: digits have as many primes as the special modulus *)
Definition ceil_div (a b : Z) : Z := (a + b - 1) / b.
Definition digits (alpha : Z) (l : nat) : Z := ceil_div (Z.of_nat l + 1) alpha.

(** the operations of a program in secret arithmetic on tensors of ciphertexts; operands are numbers of earlier values *)
Inductive operand := Sec (i : nat) | Pln (j : nat).
Inductive op :=
| AddI (a b : operand) | SubI (a b : operand) | MulI (a b : operand)
| Rotate (i : nat) (h : Z)
| AdjustScale (i : nat) (j : nat)
| ModReduce (i : nat)
| LevelReduce (i : nat)
| Relinearize (i : nat)
| ExtractSlice (i : nat) (f : nat -> nat)
| InsertSlice (i j : nat) (f : nat -> option nat)
| BlockArg (i : nat).

Section Program.
  Context {N : positive}.
  (** plaintext modulus, primes, special modulus and number of its primes, secret key, bound of the errors, plaintext operands,
      level of each value, inverse of each prime modulo t *)
  Variables (t : Z) (q : nat -> Z) (P alpha : Z) (s : elt N) (Berr : Q).
  Variable plains : nat -> nat -> elt N.
  Variable lev : nat -> nat.
  Variable qinv : nat -> Z.

  Definition nocts : nat -> ct N := fun _ => [].
  Definition cts (env : list (nat -> ct N)) (a : operand) : nat -> ct N :=
    match a with Sec i => nth i env nocts | Pln j => fun k => [plains j k] end.
  Definition at_level (n : nat) (l : nat) (a : operand) : Prop :=
    match a with Sec i => (i < n)%nat /\ lev i = l | Pln _ => True end.

  (** what executing an operation on the ciphertexts computes; the result is value number (length env) *)
  Definition executes (env : list (nat -> ct N)) (o : op) (r : nat -> ct N) : Prop :=
    let n := length env in let l := lev n in let M := modulus_at q l in
    match o with
    | AddI a b => at_level n l a /\ at_level n l b /\ forall k, ct_cong M (r k) (ct_add (cts env a k) (cts env b k))
    | SubI a b => at_level n l a /\ at_level n l b /\ forall k, ct_cong M (r k) (ct_add (cts env a k) (ct_opp (cts env b k)))
    | MulI a b => at_level n l a /\ at_level n l b /\ forall k, ct_cong M (r k) (ct_mul (cts env a k) (cts env b k))
    | Rotate i h => (i < n)%nat /\ lev i = l /\
        forall k, rotated M P t Berr s (Z.to_nat (digits alpha l)) h (nth i env nocts k) (r k)
    | AdjustScale i j => (i < n)%nat /\ lev i = l /\ forall k, ct_cong M (r k) (ct_mul (nth i env nocts k) [plains j k])
    | ModReduce i => (i < n)%nat /\ lev i = S l /\ forall k, length (nth i env nocts k) = 2%nat /\
        mod_reduced M (q (S l)) t (nth i env nocts k) (r k)
    | LevelReduce i => (i < n)%nat /\ (l <= lev i)%nat /\ forall k, ct_cong M (r k) (nth i env nocts k)
    | Relinearize i => (i < n)%nat /\ lev i = l /\
        forall k, relinearized M P t Berr s (Z.to_nat (digits alpha l)) (nth i env nocts k) (r k)
    | ExtractSlice i f => (i < n)%nat /\ lev i = l /\ forall k, r k = nth i env nocts (f k)
    | InsertSlice i j f => (i < n)%nat /\ (j < n)%nat /\ lev i = l /\ lev j = l /\
        forall k, r k = match f k with Some k' => nth i env nocts k' | None => nth j env nocts k end
    | BlockArg i => (i < n)%nat /\ lev i = l /\ forall k, r k = nth i env nocts k
    end.
  Inductive runs : list (nat -> ct N) -> list op -> list (nat -> ct N) -> Prop :=
  | runs_nil env : runs env [] env
  | runs_cons env o os r env' : executes env o r -> runs (env ++ [r]) os env' -> runs env (o :: os) env'.

  (** the same program on the messages; a modulus reduction multiplies the message by the inverse of the prime *)
  Definition nomsg : nat -> elt N := fun _ => zero.
  Definition msg (env : list (nat -> elt N)) (a : operand) : nat -> elt N :=
    match a with Sec i => nth i env nomsg | Pln j => plains j end.
  Definition clear (env : list (nat -> elt N)) (o : op) : nat -> elt N :=
    match o with
    | AddI a b => fun k => plus (msg env a k) (msg env b k)
    | SubI a b => fun k => plus (msg env a k) (opp (msg env b k))
    | MulI a b => fun k => mult (msg env a k) (msg env b k)
    | Rotate i h => fun k => auto h (nth i env nomsg k)
    | AdjustScale i j => fun k => mult (nth i env nomsg k) (plains j k)
    | ModReduce i => fun k => scale (qinv (lev i)) (nth i env nomsg k)
    | LevelReduce i | Relinearize i | BlockArg i => nth i env nomsg
    | ExtractSlice i f => fun k => nth i env nomsg (f k)
    | InsertSlice i j f => fun k => match f k with Some k' => nth i env nomsg k' | None => nth j env nomsg k end
    end.
  Fixpoint clear_all (env : list (nat -> elt N)) (os : list op) : list (nat -> elt N) :=
    match os with [] => env | o :: os => clear_all (env ++ [clear env o]) os end.
End Program.
