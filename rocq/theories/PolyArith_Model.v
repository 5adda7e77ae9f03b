(** Model of lib/Utils/Polynomial/Polynomial.h and Polynomial.cpp: sparse
    polynomials (IntPolynomial, FloatPolynomial) and Chebyshev series.

    Coefficients are elements of a commutative ring with a test for zero: for
    IntPolynomial the integers modulo 2^64, for FloatPolynomial and
    ChebyshevPolynomial exact numbers (rounding is not modelled). A term is a
    pair of a coefficient and an exponent in [0, 2^64). [None] is a failed
    assertion or undefined behaviour. *)
From Coq Require Import ZArith List Bool.
From Verif Require Import Words NumTheory_Model Kernel_Model.
Import ListNotations.
Open Scope Z_scope.

Section Poly.
Variable K : cring.
Notation R := (car K).
(** APInt::isZero, APFloat::isZero, operator== *)
Variable is0 : R -> bool.

Notation term := (R * Z)%type.
Notation poly := (list (R * Z)).

(** Polynomial.h:176-184 *)
Definition canonicalize (p : poly) : poly := filter (fun t => negb (is0 (fst t))) p.

(** 199-203 and 206-210: the two inner loops move terms with a smaller
    exponent to the result *)
Fixpoint take_lt (bound : Z) (l : poly) : poly * poly :=
  match l with
  | [] => ([], [])
  | t :: r => if snd t <? bound then let '(a, c) := take_lt bound r in (t :: a, c) else ([], l)
  end.

(** 186-224 [add]; the assertion is that of MonomialBase::add (45) *)
Fixpoint add_loop (fuel : nat) (l1 l2 : poly) : option poly :=
  match fuel with
  | O => None
  | S f =>
      match l1, l2 with
      | [], [] => Some []
      | [], t :: r => q <- add_loop f [] r ;; Some (t :: q)
      | t :: r, [] => q <- add_loop f r [] ;; Some (t :: q)
      | t1 :: _, t2 :: _ =>
          let '(a, l1') := take_lt (snd t2) l1 in
          match l1' with
          | [] => q <- add_loop f [] l2 ;; Some (a ++ q)
          | u1 :: r1 =>
              let '(b, l2') := take_lt (snd u1) l2 in
              match l2' with
              | [] => q <- add_loop f l1' [] ;; Some (a ++ b ++ q)
              | u2 :: r2 =>
                  if snd u1 =? snd u2 then
                    let c := radd K (fst u1) (fst u2) in
                    q <- add_loop f r1 r2 ;;
                    Some (a ++ b ++ (if is0 c then [] else [(c, snd u1)]) ++ q)
                  else None
              end
          end
      end
  end.
Definition add (p q : poly) : option poly := add_loop (length p + length q + 1) p q.

(** 303-309; 390-392 and 412-414 [sub]; the constant -1 *)
Definition scale (c : R) (p : poly) : poly := map (fun t => (rmul K (fst t) c, snd t)) p.
Definition sub (p q : poly) : option poly := add p (scale (ropp K (r1 K)) q).

(** 292-301; the exponent is an APInt of 64 bits *)
Definition monomial_mul (e : Z) (p : poly) : poly :=
  map (fun t => (fst t, wrap 64 (snd t + e))) p.

(** 339-341: back() of an empty vector is undefined; the exponent is
    truncated to unsigned *)
Definition get_degree (p : poly) : option Z :=
  match rev p with [] => None | t :: _ => Some (wrap 32 (snd t)) end.

(** newTerms[i].setCoefficient(newTerms[i] + c) *)
Fixpoint add_at (l : list R) (i : nat) (c : R) : option (list R) :=
  match l, i with
  | [], _ => None
  | x :: l', O => Some (radd K x c :: l')
  | x :: l', S i' => r <- add_at l' i' c ;; Some (x :: r)
  end.
(** 226-246 [naiveMul]: combinedDegree is an int; the sum of the degrees is
    computed in unsigned *)
Definition mul_step (t u : term) (l : list R) : option (list R) :=
  let d := sgn 32 (wrap 32 (snd t + snd u)) in
  if d <? 0 then None else add_at l (Z.to_nat d) (rmul K (fst t) (fst u)).
Definition naive_mul (p q : poly) : option poly :=
  dp <- get_degree p ;; dq <- get_degree q ;;
  let zeros := repeat (r0 K) (Z.to_nat (wrap 32 (dp + dq) + 1)) in
  l <- fold_left (fun acc t => fold_left (fun acc u => l <- acc ;; mul_step t u l) q acc) p (Some zeros) ;;
  Some (canonicalize (combine l (map Z.of_nat (seq 0 (length l))))).

(** 248-254 [getCoeffMap]: the first term wins; lookup of a key *)
Definition coeff_at (p : poly) (i : Z) : option R :=
  option_map fst (find (fun t => snd t =? i) p).

(** 257-290 [compose], Horner's method; the loop index is an int *)
Definition compose (p q : poly) : option poly :=
  match rev p with
  | [] => None
  | lead :: _ =>
      n <- get_degree p ;;
      let top := sgn 32 (wrap 32 (n - 1)) in
      r <- fold_left
             (fun acc i =>
                r <- acc ;; r' <- naive_mul r q ;;
                match coeff_at p i with
                | Some c => add r' [(c, 0)]
                | None => Some r'
                end)
             (map (fun k => top - Z.of_nat k) (seq 0 (Z.to_nat (top + 1)))) (Some [(fst lead, 0)]) ;;
      Some (canonicalize r)
  end.

(** Polynomial.cpp:36-53: sort by exponent (std::sort), fail on equal
    neighbours *)
Fixpoint insert_term (t : term) (l : poly) : poly :=
  match l with
  | [] => [t]
  | u :: r => if snd t <? snd u then t :: l else u :: insert_term t r
  end.
Fixpoint has_adjacent (l : poly) : bool :=
  match l with
  | t :: ((u :: _) as r) => (snd t =? snd u) || has_adjacent r
  | _ => false
  end.
Definition from_monomials (l : list term) : option poly :=
  let s := fold_right insert_term [] l in
  if has_adjacent s then None else Some s.
(** 64-77 *)
Definition from_coefficients (l : list R) : option poly :=
  from_monomials (canonicalize (combine l (map Z.of_nat (seq 0 (length l))))).
(** 83-92 *)
Definition dense (p : poly) : option (list R) :=
  match p with
  | [] => Some []
  | _ =>
      n <- get_degree p ;;
      fold_left (fun acc t => l <- acc ;; list_set l (Z.to_nat (snd t)) (fst t)) p
        (Some (repeat (r0 K) (Z.to_nat (n + 1))))
  end.

(** 210-232 [getChebyshevPolynomials], latest first *)
Definition two : R := radd K (r1 K) (r1 K).
Fixpoint cheb_polys (n : nat) : option (list poly) :=
  match n with
  | O => Some []
  | S O => p <- from_coefficients [r1 K] ;; Some [p]
  | S (S O) => p <- from_coefficients [r1 K] ;; q <- from_coefficients [r0 K; r1 K] ;; Some [q; p]
  | S m =>
      l <- cheb_polys m ;;
      match l with
      | last :: second_last :: _ =>
          r <- sub (scale two (monomial_mul 1 last)) second_last ;; Some (r :: l)
      | _ => None
      end
  end.
(** 21-32 [chebyshevToMonomial] *)
Definition to_standard_basis (c : list R) : option poly :=
  l <- cheb_polys (length c) ;;
  fold_left (fun acc pc => r <- acc ;; add r (scale (snd pc) (fst pc))) (combine (rev l) c) (Some []).

(** 112-207 [compose] of a Chebyshev series with a x + b. Elements outside a
    vector are zero where the code tests the index. [half] is 0.5. *)
Variable half : R.
Definition at0 (l : list R) (i : Z) : R := if i <? 0 then r0 K else nth (Z.to_nat i) l (r0 K).
Definition cheb_step (a b ck : R) (len : nat) (d1 d2 : list R) : list R :=
  map (fun i =>
         let m := Z.of_nat i in
         let v :=
           if m =? 0 then radd K (rmul K a (at0 d1 1)) (rmul K (rmul K b (at0 d1 0)) two)
           else if m =? 1 then
             radd K (rmul K a (radd K (rmul K (at0 d1 0) two) (at0 d1 2))) (rmul K (rmul K b (at0 d1 1)) two)
           else
             radd K (rmul K a (radd K (at0 d1 (m - 1)) (at0 d1 (m + 1)))) (rmul K (rmul K b (at0 d1 m)) two) in
         let v := if m =? 0 then radd K v ck else v in
         if Nat.ltb i (length d2) then rsub K v (at0 d2 m) else v)
      (seq 0 len).
(** the loop of 148-190, k from n-1 down to 0; the state is (d_kplus1,
    d_kplus2, d_2_coeffs) *)
Fixpoint cheb_loop (n k : nat) (c : list R) (a b : R) (d1 d2 d2c : list R) : list R * list R :=
  match k with
  | O => (d1, d2c)
  | S k' =>
      let dk := cheb_step a b (nth k' c (r0 K)) (n - k' + 1) d1 d2 in
      cheb_loop n k' c a b dk d1 (if Nat.eqb k' 2 then dk else d2c)
  end.
Definition cheb_is_zero (c : list R) : bool :=
  match c with [] => true | [x] => is0 x | _ => false end.
Definition cheb_compose (c : list R) (q : poly) : option (list R) :=
  dq <- get_degree q ;;
  if negb (dq =? 1) then None else
  let n := if cheb_is_zero c then 0%nat else (length c - 1)%nat in
  let b := match coeff_at q 0 with Some x => x | None => r0 K end in
  let a := match coeff_at q 1 with Some x => x | None => r0 K end in
  cn <- nth_error c n ;;
  let '(d0, d2c) := cheb_loop n n c a b [cn] [] [] in
  Some (map (fun i => let v := rmul K (rsub K (nth i d0 (r0 K)) (nth i d2c (r0 K))) half in
                      if Nat.eqb i 0 then radd K v (rmul K (nth 0 c (r0 K)) half) else v) (seq 0 (n + 1))).
End Poly.
