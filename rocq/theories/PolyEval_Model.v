(** Model of the generators of polynomial evaluation programs:
    lib/Utils/Polynomial/Horner.h, PatersonStockmeyer.h,
    ChebyshevPatersonStockmeyer.h and ChebyshevDecomposition.cpp.

    An ArithmeticDagNode is modelled by the tree of its operations; sharing of
    nodes does not change values or depths. Scalars and splatted tensors are
    treated alike, so the DagType is not modelled. Coefficients are exact
    elements of a commutative ring; rounding of doubles is not modelled.
    A std::map from degrees to coefficients is a list of pairs (coefficient,
    degree) in increasing order of degree.
    The outer [None] is undefined behaviour or a loop that does not end, the
    inner [None] a null pointer. *)
From Coq Require Import ZArith List Bool.
From Verif Require Import Words Kernel_Model.
Import ListNotations.
Open Scope Z_scope.

Section Eval.
Variable K : cring.
Notation R := (car K).

(** lib/Kernel/ArithmeticDag.h: leaf, constantScalar or splat, add, sub, mul *)
Inductive dag := X | Const (c : R) | Add (a b : dag) | Sub (a b : dag) | Mul (a b : dag).

(** Horner.h:18-56. [count] and [at] on a std::map *)
Definition lookup (m : list (R * Z)) (i : Z) : option R :=
  option_map fst (find (fun ce => snd ce =? i) m).
(** rbegin()->first *)
Definition max_key (m : list (R * Z)) : option Z :=
  match rev m with [] => None | ce :: _ => Some (snd ce) end.
Definition horner (m : list (R * Z)) : option dag :=
  match max_key m with
  | None => Some (Const (r0 K))
  | Some n =>
      lead <- lookup m n ;;
      Some (fold_left
              (fun res i =>
                 let res := Mul res X in
                 match lookup m i with Some c => Add res (Const c) | None => res end)
              (map (fun j => n - 1 - Z.of_nat j) (seq 0 (Z.to_nat n))) (Const lead))
  end.

(** ChebyshevPatersonStockmeyer.h:100-122 [computePowers]; result[i] of a
    vector is undefined outside *)
Definition at_ {A} (l : list A) (i : Z) : option A := if i <? 0 then None else nth_error l (Z.to_nat i).
Definition compute_powers (k : Z) : option (list dag) :=
  fold_left
    (fun acc i =>
       l <- acc ;;
       a <- at_ l (i / 2) ;;
       b <- (if i mod 2 =? 0 then at_ l (i / 2) else at_ l (i / 2 + 1)) ;;
       Some (l ++ [Mul a b]))
    (map (fun j => 2 + Z.of_nat j) (seq 0 (Z.to_nat (k - 1))))
    (Some (Const (r1 K) :: (if k >=? 1 then [X] else []))).

(** PatersonStockmeyer.h:22-97 with the chunk size k as an argument. The
    number of chunks ceil((maxDegree+1)/k), computed there in double, is exact
    here (as it is there up to 2^53). *)
Definition ceil_div (a b : Z) : Z := (a + b - 1) / b.
Definition chunk (m : list (R * Z)) (powers : list dag) (k n i : Z) : option dag :=
  let hi := Z.min ((i + 1) * k - 1) n in
  let lo := i * k in
  v <- fold_left
         (fun acc j =>
            v <- acc ;;
            match lookup m j with
            | None => Some v
            | Some c =>
                let p := j - lo in
                term <- (if p =? 0 then Some (Const c) else (xp <- at_ powers p ;; Some (Mul (Const c) xp))) ;;
                Some (match v with None => Some term | Some w => Some (Add w term) end)
            end)
         (map (fun j => lo + Z.of_nat j) (seq 0 (Z.to_nat (hi + 1 - lo)))) (Some None) ;;
  Some (match v with None => Const (r0 K) | Some w => w end).
Definition ps_monomial_with (k : Z) (m : list (R * Z)) : option dag :=
  match max_key m with
  | None => Some (Const (r0 K))
  | Some n =>
      powers <- compute_powers k ;;
      let cnt := ceil_div (n + 1) k in
      chunks <- fold_left (fun acc i => l <- acc ;; c <- chunk m powers k n i ;; Some (l ++ [c]))
                  (map Z.of_nat (seq 0 (Z.to_nat cnt))) (Some []) ;;
      last <- at_ chunks (cnt - 1) ;;
      fold_left
        (fun acc i =>
           res <- acc ;; xk <- at_ powers k ;; c <- at_ chunks i ;;
           Some (Add (Mul res xk) c))
        (map (fun j => cnt - 2 - Z.of_nat j) (seq 0 (Z.to_nat (cnt - 1)))) (Some last)
  end.
(** the k chosen, ceil(sqrt(maxDegree)) computed exactly *)
Definition ps_monomial (m : list (R * Z)) : option dag :=
  match max_key m with
  | None => ps_monomial_with 1 m
  | Some n => ps_monomial_with (Z.max (Z.sqrt_up n) 1) m
  end.

(** 50-60 *)
Definition optimal_split (log_degree : Z) : Z :=
  let s := Z.shiftr log_degree 1 in
  let a := 2 ^ s + 2 ^ (log_degree - s) + log_degree - s - 3 in
  let b := 2 ^ (s + 1) + 2 ^ (log_degree - s - 1) + log_degree - s - 4 in
  if a >? b then s + 1 else s.

(** 75-95; the loop of 87-90 runs at most 63 times *)
Fixpoint log_loop (fuel : nat) (temp k : Z) : option Z :=
  match fuel with
  | O => None
  | S f => if temp >? 1 then log_loop f (Z.shiftr temp 1) (k + 1) else Some k
  end.
Definition split_degree (n : Z) : option (Z * Z) :=
  if negb (n >? 0) then None else
  if Z.land n (n - 1) =? 0 then Some (n / 2, n / 2)
  else k <- log_loop 64 (n - 1) 0 ;; Some (2 ^ k - 1, n - (2 ^ k - 1)).

(** 138-196 with the cache as an association list *)
Definition cache := list (Z * dag).
Definition find_cache (c : cache) (n : Z) : option dag := option_map snd (find (fun kv => fst kv =? n) c).
Fixpoint gen_power (fuel : nat) (n : Z) (c : cache) : option (dag * cache) :=
  match fuel with
  | O => None
  | S f =>
      match find_cache c n with
      | Some d => Some (d, c)
      | None =>
          if n =? 0 then Some (Const (r1 K), (0, Const (r1 K)) :: c)
          else if n =? 1 then Some (X, (1, X) :: c)
          else
            ab <- split_degree n ;;
            ra <- gen_power f (fst ab) c ;;
            rb <- gen_power f (snd ab) (snd ra) ;;
            let prod := Mul (fst ra) (fst rb) in
            let twice := Add prod prod in
            let cc := Z.abs (fst ab - snd ab) in
            rc <- (if cc =? 0 then Some (Sub twice (Const (r1 K)), snd rb)
                   else (r <- gen_power f cc (snd rb) ;; Some (Sub twice (fst r), snd r))) ;;
            Some (fst rc, (n, fst rc) :: snd rc)
      end
  end.
(** 207-223 *)
Definition gen_powers (max_degree : Z) : option cache :=
  c <- fold_left (fun acc i => c <- acc ;; r <- gen_power (S (Z.to_nat i)) i c ;; Some (snd r))
         (map (fun j => 1 + Z.of_nat j) (seq 0 (Z.to_nat max_degree))) (Some []) ;;
  Some ((0, Const (r1 K)) :: c).

(** 228-258 *)
Definition compute_chebyshev (k : Z) : option (list dag) :=
  fold_left
    (fun acc i =>
       l <- acc ;;
       a <- at_ l (i / 2) ;;
       b <- (if i mod 2 =? 0 then at_ l (i / 2) else at_ l (i / 2 + 1)) ;;
       let p := Mul a b in
       Some (l ++ [Sub (Add p p) (if i mod 2 =? 0 then Const (r1 K) else X)]))
    (map (fun j => 2 + Z.of_nat j) (seq 0 (Z.to_nat (k - 1))))
    (Some (Const (r1 K) :: (if k >=? 1 then [X] else []))).

(** ChebyshevDecomposition.cpp:14-43; the loop index is k + m - 1 *)
Variable is0 : R -> bool.
Definition two_ : R := radd K (r1 K) (r1 K).
Fixpoint divide_loop (m k : nat) (p q : list R) : option (list R * list R) :=
  match m with
  | O => Some (p, q)
  | S m' =>
      let i := (k + m')%nat in
      pi <- nth_error p i ;;
      if is0 pi then divide_loop m' k p q
      else if Nat.eqb i k then
        q' <- list_set q 0 pi ;; divide_loop m' k p q'
      else
        q' <- list_set q (i - k) (rmul K pi two_) ;;
        let t := Z.to_nat (Z.abs (Z.of_nat i - 2 * Z.of_nat k)) in
        pt <- nth_error p t ;;
        p1 <- list_set p t (rsub K pt pi) ;;
        p2 <- list_set p1 i (r0 K) ;;
        divide_loop m' k p2 q'
  end.
Definition divide (p : list R) (k : nat) : option (list R * list R) :=
  if Nat.leb (length p) k then Some ([], p)
  else
    r <- divide_loop (length p - k) k p (repeat (r0 K) (length p - k)) ;;
    Some (snd r, firstn k (fst r)).
(** 46-56 *)
Fixpoint decompose (fuel : nat) (p : list R) (k : nat) : option (list (list R)) :=
  match p with
  | [] => Some []
  | _ =>
      match fuel with
      | O => None
      | S f => d <- divide p k ;; rest <- decompose f (fst d) k ;; Some (snd d :: rest)
      end
  end.

(** ChebyshevPatersonStockmeyer.h:271-377. [small c] is
    |c| < minCoeffThreshold. *)
Variable small : R -> bool.
Definition baby_step (powers : cache) (coeffs : list R) : option (option dag) :=
  if negb (existsb (fun c => negb (small c)) coeffs) then Some None
  else
    fold_left
      (fun acc jc =>
         pol <- acc ;;
         if small (snd jc) then Some pol
         else
           t <- find_cache powers (fst jc) ;;
           let term := Mul (Const (snd jc)) t in
           Some (match pol with Some w => Some (Add w term) | None => Some term end))
      (combine (map Z.of_nat (seq 0 (length coeffs))) coeffs) (Some None).
Fixpoint combine_round (l : list (option dag)) (y : dag) : list (option dag) :=
  match l with
  | a :: b :: r =>
      (match b with
       | Some b' => Some (match a with Some a' => Add a' (Mul b' y) | None => Mul b' y end)
       | None => a
       end) :: combine_round r y
  | [a] => [a]
  | [] => []
  end.
Fixpoint combine_all (fuel : nat) (l : list (option dag)) (y : dag) : option (option dag) :=
  match l with
  | [] => None
  | [a] => Some a
  | _ =>
      match fuel with
      | O => None
      | S f => combine_all f (combine_round l y) (Mul y y)
      end
  end.
Definition ps_chebyshev (c : list R) : option (option dag) :=
  match c with
  | [] => Some None
  | [c0] => Some (if small c0 then None else Some (Const c0))
  | _ =>
      let degree := Z.of_nat (length c) - 1 in
      let k := 2 ^ optimal_split (Z.log2 degree + 1) in
      dec <- decompose (length c) c (Z.to_nat k) ;;
      powers <- gen_powers k ;;
      steps <- fold_left (fun acc coeffs => l <- acc ;; s <- baby_step powers coeffs ;; Some (l ++ [s])) dec (Some []) ;;
      y <- find_cache powers k ;;
      combine_all (length steps) steps y
  end.

(** lib/Transforms/LowerPolynomialEval/Patterns.cpp:77-167: the two patterns
    for monomial-basis polynomials, given the terms in increasing order.
    Outer [None]: terms.back() of an empty vector (85, 131). Inner [None]: the
    pattern fails. Coefficients are finite and the type is a float. *)
Definition horner_pattern (force : bool) (m : list (R * Z)) : option (option dag) :=
  d <- max_key m ;;
  if negb force && (d >? 5) then Some None else r <- horner m ;; Some (Some r).
Definition ps_pattern (force : bool) (m : list (R * Z)) : option (option dag) :=
  d <- max_key m ;;
  if negb force && (d >? 5) then Some None else r <- ps_monomial m ;; Some (Some r).
(** LowerPolynomialEval.cpp:64-103 restricted to an operation with a
    monomial-basis polynomial: the first pattern that applies *)
Inductive method := Automatic | Horner | PatersonStockmeyer | PatersonStockmeyerChebyshev.
Definition lower_monomial (how : method) (m : list (R * Z)) : option (option dag) :=
  match how with
  | Automatic => r <- horner_pattern false m ;; match r with Some d => Some (Some d) | None => ps_pattern false m end
  | Horner => horner_pattern true m
  | PatersonStockmeyer => ps_pattern true m
  | PatersonStockmeyerChebyshev => Some None
  end.
(** Patterns.cpp:196-219: the input mapped to the unit interval; a factor of
    one and a zero shift are not emitted *)
Definition scaled_input (is1 isz : R -> bool) (rescale shift : R) : dag :=
  let m := if is1 rescale then X else Mul X (Const rescale) in
  if isz shift then m else Add m (Const shift).
End Eval.
