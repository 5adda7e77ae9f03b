(** What a program computes in the clear, and what a homomorphic evaluation of it does.  A ciphertext is its
    plaintext together with its degree: it decrypts with the powers 1, s, ..., s^degree of the key. *)
From Coq Require Import List Bool Arith QArith.
From Verif Require Import Relin_Model.
Import ListNotations.
Local Open Scope nat_scope.

Definition bind {A B} (x : option A) (k : A -> option B) : option B := match x with Some a => k a | None => None end.
Notation "x <- e1 ; e2" := (bind e1 (fun x => e2)) (at level 61, e1 at next level, right associativity).
Fixpoint lookups {A} (e : nat -> option A) (vs : list nat) : option (list A) :=
  match vs with [] => Some [] | v :: vs' => x <- e v; xs <- lookups e vs'; Some (x :: xs) end.
Fixpoint assign {A} (vs : list nat) (xs : list A) (e : nat -> option A) : option (nat -> option A) :=
  match vs, xs with
  | [], [] => Some e
  | v :: vs', x :: xs' => assign vs' xs' (fun u => if u =? v then Some x else e u)
  | _, _ => None
  end.

Section Exec.
  Variable D : Type.
  Variable ev : nat -> list D -> list D.     (* the meaning of the operations *)

  (** * In the clear: a relinearization does nothing *)
  Fixpoint plain (c : code) (e : nat -> option D) : option (nat -> option D) :=
    match c with
    | End => Some e
    | Do k f args res c =>
        xs <- lookups e (map fst args);
        e' <- assign res (match k with KRelin => xs | _ => ev f xs end) e;
        plain c e'
    | For t inits bargs body ys res c =>
        xs <- lookups e inits;
        zs <- Nat.iter t (fun o => ws <- o; e1 <- assign bargs ws e; e2 <- plain body e1; lookups e2 ys) (Some xs);
        e' <- assign res zs e; plain c e'
    end.
  Definition run_plain (p : prog) (xs : list D) : option (list D) :=
    e <- assign (pargs p) xs (fun _ => None); e' <- plain (pcode p) e; lookups e' (outs p).

  (** * Homomorphically *)
  Definition val := (D * option nat)%type.   (* None: not encrypted; Some d: a ciphertext of degree d *)
  Variable sec : nat -> bool.                (* which values are represented by ciphertexts *)
  Variable mixed : bool.                     (* the backend combines ciphertexts of different degrees *)
  Variable strict : bool.                    (* false: ignore the rules of the backend *)

  Definition degrees (vs : list val) : list nat := flat_map (fun v => match snd v with Some d => [d] | None => [] end) vs.
  Definition all_one (ds : list nat) : bool := forallb (Nat.eqb 1) ds.
  Definition all_equal (ds : list nat) : bool := match ds with [] => true | d :: ds' => forallb (Nat.eqb d) ds' end.
  Definition uses_plaintext (fls : list bool) (vs : list val) : bool :=
    existsb (fun p => fst p && match snd (snd p) with None => true | Some _ => false end) (combine fls vs).
  (** the rules: rotation, modulus reduction and operations with plaintexts need ciphertexts of degree 1 *)
  Definition legal (k : kind) (fls : list bool) (vs : list val) : bool :=
    match k with
    | KRelin => true
    | KRotate | KModReduce => all_one (degrees vs)
    | _ => negb (uses_plaintext fls vs) || all_one (degrees vs)
    end && (mixed || all_equal (degrees vs)).
  Definition result_degree (k : kind) (ds : list nat) : option nat :=
    match ds with
    | [] => None
    | _ => Some (match k with KRelin => 1 | KMul => list_sum ds | _ => list_max ds end)
    end.
  (** ciphertexts have degree at most 2 *)
  Definition allowed (k : kind) (fls : list bool) (vs : list val) : bool :=
    negb strict || (legal k fls vs && match result_degree k (degrees vs) with Some d => d <=? 2 | None => true end).
  (** a plaintext used where the loop carries ciphertexts is encrypted *)
  Definition encrypt (b : bool) (v : val) : val := match b, snd v with true, None => (fst v, Some 1) | _, _ => v end.
  Definition encrypts (vs : list nat) (xs : list val) : list val :=
    map (fun p => encrypt (sec (fst p)) (snd p)) (combine vs xs).

  Fixpoint exec (c : code) (e : nat -> option val) : option (nat -> option val) :=
    match c with
    | End => Some e
    | Do k f args res c =>
        vs <- lookups e (map fst args);
        if allowed k (map snd args) vs
        then e' <- assign res (map (fun x => (x, result_degree k (degrees vs)))
                                   (match k with KRelin => map fst vs | _ => ev f (map fst vs) end)) e;
             exec c e'
        else None
    | For t inits bargs body ys res c =>
        xs <- lookups e inits;
        zs <- Nat.iter t (fun o => ws <- o; e1 <- assign bargs (encrypts bargs ws) e; e2 <- exec body e1; lookups e2 ys) (Some xs);
        e' <- assign res (encrypts res zs) e; exec c e'
    end.
  Definition returnable (v : val) : bool := match snd v with Some d => d =? 1 | None => true end.
  (** the results of a secret.generic must have degree 1 *)
  Definition run (p : prog) (xs : list val) : option (list val) :=
    e <- assign (pargs p) xs (fun _ => None); e' <- exec (pcode p) e; ys <- lookups e' (outs p);
    if negb strict || forallb returnable ys then Some ys else None.
End Exec.

(** * Well-formed programs *)
(** SSA with scopes: operands are defined before, results are new, the operations have the right shape. *)
Fixpoint defs (c : code) : list nat :=
  match c with End => [] | Do _ _ _ res c => defs c ++ res | For _ _ _ _ _ res c => defs c ++ res end.
Fixpoint wf (av : list nat) (c : code) : Prop :=
  match c with
  | End => True
  | Do k f args res c =>
      incl (map fst args) av /\ NoDup res /\ (forall r, In r res -> ~ In r av) /\
      match k with
      | KRelin => length args = 1 /\ length res = 1
      | KMul => length args = 2 /\ length res = 1
      | _ => True
      end /\ wf (res ++ av) c
  | For t inits bargs body ys res c =>
      incl inits av /\ NoDup bargs /\ NoDup res /\ length bargs = length inits /\ length ys = length inits /\
      length res = length inits /\
      (forall r, In r bargs -> ~ In r av) /\ (forall r, In r res -> ~ In r av) /\
      wf (bargs ++ av) body /\ incl ys (defs body ++ bargs ++ av) /\ wf (res ++ av) c
  end.
Definition wf_prog (p : prog) : Prop :=
  NoDup (pargs p) /\ wf (pargs p) (pcode p) /\ incl (outs p) (defs (pcode p) ++ pargs p).

(** The secretness of values: a result is secret exactly when an operand is; loops carry secrets through. *)
Fixpoint secretness (sec : nat -> bool) (c : code) : Prop :=
  match c with
  | End => True
  | Do k f args res c =>
      (forall r, In r res -> sec r = existsb (fun p => sec (fst p)) args) /\ secretness sec c
  | For t inits bargs body ys res c =>
      (forall a b, In (a, b) (combine inits bargs ++ combine ys bargs ++ combine inits res ++ combine ys res) ->
         sec a = true -> sec b = true) /\
      secretness sec body /\ secretness sec c
  end.
(** The arguments: secret ones are ciphertexts of degree [deg], the others are not encrypted. *)
Definition good_args {D} (sec : nat -> bool) (deg : nat -> nat) (vs : list nat) (xs : list (D * option nat)) : Prop :=
  Forall2 (fun v x => snd x = if sec v then Some (deg v) else None) vs xs.

Fixpoint flat (c : code) : Prop := match c with End => True | Do _ _ _ _ c => flat c | For _ _ _ _ _ _ _ => False end.
Fixpoint count_relin (c : code) : nat :=
  match c with
  | End => 0
  | Do KRelin _ _ _ c => 1 + count_relin c
  | Do _ _ _ _ c => count_relin c
  | For _ _ _ body _ _ c => count_relin body + count_relin c
  end.
Fixpoint single (c : code) : Prop :=
  match c with End => True | Do _ _ _ res c => length res <= 1 /\ single c | For _ _ _ body _ res c => length res <= 1 /\ single body /\ single c end.

(** What the integer program does not ask for at loops: the degrees assumed inside the loop and after it cover
    the degrees of what flows there. *)
Section Loops.
  Variable sec : nat -> bool.
  Variable mixed : bool.
  Variable x : solution.
  Definition covers (a b : Q) : Prop := if mixed then (a <= b)%Q else (a == b)%Q.
  Definition flow_deg (v : nat) : Q := if sec v then deg x v else 1%Q.
  Fixpoint loops_ok (c : code) : Prop :=
    match c with
    | End => True
    | Do _ _ _ _ c => loops_ok c
    | For t inits bargs body ys res c =>
        (forall a b, In (a, b) (combine inits bargs ++ combine ys bargs) -> sec b = true -> covers (flow_deg a) (deg x b)) /\
        (forall a r, In (a, r) (combine inits res ++ combine ys res) -> sec r = true ->
           covers (flow_deg a) (if all_secret sec res then bef x r else deg x r)) /\
        loops_ok body /\ loops_ok c
    end.
End Loops.

(** For the dimension analysis: the loop-carried values, and that they have a dimension. *)
Fixpoint carried (c : code) : list nat :=
  match c with End => [] | Do _ _ _ _ c => carried c | For _ _ bargs body _ res c => bargs ++ res ++ carried body ++ carried c end.
Definition initialized (sec : nat -> bool) (st : dims) (vs : list nat) : Prop :=
  forall v, In v vs -> sec v = true -> exists m, st v = Some m /\ 2 <= m.
Section Relinearized.
  Variable sec : nat -> bool.
  (** relinearized values are secret *)
  Fixpoint relin_secret (c : code) : Prop :=
    match c with
    | End => True
    | Do k _ args _ c => (k = KRelin -> forallb sec (map fst args) = true) /\ relin_secret c
    | For _ _ _ body _ _ c => relin_secret body /\ relin_secret c
    end.
  (** the results of products of two secrets *)
  Fixpoint products (c : code) : list nat :=
    match c with
    | End => []
    | Do k _ args res c => (match k with KMul => if length (filter sec (map fst args)) =? 2 then res else [] | _ => [] end) ++ products c
    | For _ _ _ body _ _ c => products body ++ products c
    end.
  (** the values [ps] are defined by products only and used by relinearizations only *)
  Fixpoint only_relin (ps : list nat) (c : code) : Prop :=
    match c with
    | End => True
    | Do k _ args res c =>
        (match k with KRelin => True | _ => forall a, In a (map fst args) -> ~ In a ps end) /\
        (match k with
         | KMul => length (filter sec (map fst args)) <> 2 -> forall r, In r res -> ~ In r ps
         | _ => forall r, In r res -> ~ In r ps
         end) /\ only_relin ps c
    | For _ inits bargs body ys res c =>
        (forall a, In a (inits ++ ys ++ bargs ++ res) -> ~ In a ps) /\ only_relin ps body /\ only_relin ps c
    end.
End Relinearized.
