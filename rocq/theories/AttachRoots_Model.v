(** Model of the pass that attaches roots of unity to polynomial.ntt and polynomial.intt.
    Source: lib/Dialect/Polynomial/Transforms/AttachNTTRoots.cpp and .h.
    Attributes are compared by value (they are uniqued by MLIR).  A root is the list of its residues,
    one per limb; [fuel] bounds the search for a generator (C13). *)
From Coq Require Import ZArith List Bool.
From Verif Require Import Words NumTheory_Model.
Import ListNotations.
Open Scope Z_scope.

(** !mod_arith.int: storage width and modulus *)
Definition ma_type := (Z * Z)%type.
Inductive coeff_type := CMod (t : ma_type) | CRns (l : list ma_type) | COther (id : nat).
(** #polynomial.int_polynomial: (exponent, coefficient), exponents ascending *)
Definition int_poly := list (Z * Z).
Record ring := Ring { rg_coeff : coeff_type; rg_poly : option int_poly }.
(** Polynomial.h:339-341 *)
Definition degree (p : int_poly) : Z := fst (last p (0, 0)).

Definition pair_eqb (a b : Z * Z) : bool := (fst a =? fst b) && (snd a =? snd b).
Fixpoint pairs_eqb (a b : list (Z * Z)) : bool :=
  match a, b with
  | [], [] => true
  | x :: a', y :: b' => pair_eqb x y && pairs_eqb a' b'
  | _, _ => false
  end.
Definition coeff_eqb (a b : coeff_type) : bool :=
  match a, b with
  | CMod s, CMod t => pair_eqb s t
  | CRns s, CRns t => pairs_eqb s t
  | COther s, COther t => Nat.eqb s t
  | _, _ => false
  end.
Definition ring_eqb (a b : ring) : bool :=
  coeff_eqb (rg_coeff a) (rg_coeff b) &&
  match rg_poly a, rg_poly b with
  | Some p, Some q => pairs_eqb p q
  | None, None => true
  | _, _ => false
  end.

(** AttachNTTRoots.h:23-27 the two maps *)
Record cache := Cache { ntt_roots : list (ring * list Z); intt_roots : list (ring * list Z) }.
Definition lookup (m : list (ring * list Z)) (r : ring) : option (list Z) :=
  option_map snd (find (fun e => ring_eqb (fst e) r) m).
Definition empty_cache : cache := Cache [] [].

(** AttachNTTRoots.cpp:34-76 [getModArithRoot]; result: the root if one exists, and the cache.
    [None]: out of fuel, or an assertion of the number theory helpers fails. *)
Definition get_root (fuel : nat) (rg : ring) (t : ma_type) (n : Z) (inv : bool) (c : cache)
    : option (option Z * cache) :=
  match lookup (if inv then intt_roots c else ntt_roots c) rg with
  | Some l => Some (Some (hd 0 l), c)                                        (* 40-42 *)
  | None =>
      c1 <- (match lookup (ntt_roots c) rg with                               (* 48-54 *)
             | Some _ => Some (Some c)
             | None =>
                 r <- find_primitive_2nth_root fuel (fst t) (snd t) n ;;
                 match r with
                 | None => Some None
                 | Some x => Some (Some (Cache ((rg, [x]) :: ntt_roots c) (intt_roots c)))
                 end
             end) ;;
      match c1 with
      | None => Some (None, c)
      | Some c1 =>
          match lookup (ntt_roots c1) rg with
          | None => None
          | Some l =>
              let fwd := hd 0 l in
              if inv then                                                     (* 58-68 *)
                y <- multiplicative_inverse (fst t) fwd (snd t) ;;
                Some (Some y, Cache (ntt_roots c1) ((rg, [y]) :: intt_roots c1))
              else Some (Some fwd, c1)
          end
      end
  end.

(** 117-133 the limbs of an RNS type *)
Fixpoint limb_roots (fuel : nat) (p : int_poly) (ts : list ma_type) (inv : bool) (c : cache)
    : option (option (list Z) * cache) :=
  match ts with
  | [] => Some (Some [], c)
  | t :: ts' =>
      rc <- get_root fuel (Ring (CMod t) (Some p)) t (degree p) inv c ;;
      match rc with
      | (None, c1) => Some (None, c1)
      | (Some r, c1) =>
          lc <- limb_roots fuel p ts' inv c1 ;;
          match lc with
          | (None, c2) => Some (None, c2)
          | (Some l, c2) => Some (Some (r :: l), c2)
          end
      end
  end.

(** 78-144 [attachNTTRootsGeneric]: the residues of the new root and its cyclotomic index, or [None]
    when the operation is left without a root *)
Definition attach (fuel : nat) (rg : ring) (forward : bool) (c : cache)
    : option (option (list Z * Z) * cache) :=
  let inv := negb forward in
  match rg_poly rg with
  | None => Some (None, c)
  | Some p =>
      let cyc := 2 * degree p in
      match rg_coeff rg with
      | CMod t =>
          rc <- get_root fuel rg t (degree p) inv c ;;
          Some (option_map (fun r => ([r], cyc)) (fst rc), snd rc)
      | CRns ts =>
          match lookup (if inv then intt_roots c else ntt_roots c) rg with
          | Some l => Some (Some (l, cyc), c)
          | None =>
              lc <- limb_roots fuel p ts inv c ;;
              match lc with
              | (None, c1) => Some (None, c1)
              | (Some l, c1) =>
                  Some (Some (l, cyc),
                        if inv then Cache (ntt_roots c1) ((rg, l) :: intt_roots c1)
                        else Cache ((rg, l) :: ntt_roots c1) (intt_roots c1))
              end
          end
      | COther _ => Some (None, c)
      end
  end.

(** An operation: its ring, ntt (true) or intt, and the root it already has. *)
Record ntt_op := NttOp { n_ring : ring; n_forward : bool; n_root : option (list Z * Z) }.
(** 146-179: the patterns and the walk; the result is the root attribute of every operation *)
Fixpoint attach_pass (fuel : nat) (ops : list ntt_op) (c : cache) : option (list (option (list Z * Z))) :=
  match ops with
  | [] => Some []
  | o :: ops' =>
      match n_root o with
      | Some r => rest <- attach_pass fuel ops' c ;; Some (Some r :: rest)
      | None =>
          rc <- attach fuel (n_ring o) (n_forward o) c ;;
          rest <- attach_pass fuel ops' (snd rc) ;; Some (fst rc :: rest)
      end
  end.
