(** What a program with management operations needs in order to be executable, and what it computes.
    Everything is a run over the operations; a run that gets stuck is None. *)
From Coq Require Import List Bool Arith.
From Verif Require Import Mgmt_Model.
Import ListNotations.

Fixpoint run {A} (g : opk -> list A -> option A) (e : nat -> A) (p : list inst) : option (nat -> A) :=
  match p with
  | [] => Some e
  | i :: p => match g (op i) (map e (args i)) with None => None | Some a => run g (upd e (res i) a) p end
  end.

(** The ciphertexts among the operands; None stands for a plaintext. *)
Fixpoint cts (l : list (option nat)) : list nat :=
  match l with [] => [] | Some a :: l => a :: cts l | None :: l => cts l end.
Definition all_equal (l : list nat) : bool := match l with [] => true | a :: l => forallb (Nat.eqb a) l end.
(** inputs: every secret input has [a], plaintexts have nothing *)
Definition inputs (p : prog) (a : nat) : nat -> option nat := fun v => if mem v (sargs p) then Some a else None.

(** Levels, counted as the number of moduli dropped.  There are [L] moduli that can be dropped.
    The ciphertext operands of an operation must have the same level. *)
Definition lev_g (L : nat) (k : opk) (l : list (option nat)) : option (option nat) :=
  match k with
  | ModReduce => match l with [Some a] => if a + 1 <=? L then Some (Some (a + 1)) else None | _ => None end
  | LevelReduce j => match l with [Some a] => if a + j <=? L then Some (Some (a + j)) else None | _ => None end
  | LevelReduceMin => match l with [Some a] => Some (Some L) | _ => None end
  | _ => if all_equal (cts l) then Some (hd_error (cts l)) else None
  end.

(** Numbers of components.  A product of two ciphertexts has three; every operation but a relinearization or a
    dropping of moduli needs two. *)
Definition dim_g (k : opk) (l : list (option nat)) : option (option nat) :=
  match k with
  | Mul => match cts l with [] => Some None | [2] => Some (Some 2) | [2; 2] => Some (Some 3) | _ => None end
  | Relin => match l with [Some 3] => Some (Some 2) | _ => None end
  | ModReduce | LevelReduce _ | LevelReduceMin => match l with [Some a] => Some (Some a) | _ => None end
  | _ => if forallb (Nat.eqb 2) (cts l) then Some (hd_error (cts l)) else None
  end.

(** Multiplicative depth of the values; None for what is not secret. *)
Definition depth_g (k : opk) (l : list (option nat)) : option (option nat) :=
  match cts l with
  | [] => Some None
  | a :: c => Some (Some (fold_right Nat.max a c + match k with Mul => 1 | _ => 0 end))
  end.

(** The cleartext function: management operations do nothing. *)
Definition is_mgmt (k : opk) : bool :=
  match k with Init | ModReduce | LevelReduce _ | LevelReduceMin | Relin | AdjustScale _ => true | _ => false end.
Definition ev_g {V} (dflt : V) (ev : opk -> list V -> V) (k : opk) (l : list V) : option V :=
  Some (if is_mgmt k then hd dflt l else ev k l).

(** SSA: every value is defined once, before its uses. *)
Fixpoint ssa (d : list nat) (p : list inst) : Prop :=
  match p with
  | [] => True
  | i :: p => incl (args i) d /\ ~ In (res i) d /\ ssa (res i :: d) p
  end.
Definition wf (p : prog) : Prop :=
  ssa (sargs p ++ pargs p) (body p) /\ incl (outs p) (sargs p ++ pargs p ++ map res (body p)) /\
  (forall v, In v (sargs p) -> ~ In v (pargs p)).

(** * Programs before management *)
(** operations whose operands the pass brings to one level *)
Definition handled (k : opk) : bool := match k with Add | Sub | Mul | Ins => true | _ => false end.
Definition plain_ops (p : list inst) : Prop :=
  forall i, In i p -> is_mgmt (op i) = false /\ (op i = Mul -> length (args i) = 2).
(** [D] are the multiplicative depths.  The other operations have ciphertext operands of one depth. *)
Record source (p : prog) (D : nat -> option nat) : Prop := {
  src_wf : wf p;
  src_plain : plain_ops (body p);
  src_depth : run depth_g (inputs p 0) (body p) = Some D;
  src_other : forall i u v a b, In i (body p) -> handled (op i) = false -> In u (args i) -> In v (args i) ->
                D u = Some a -> D v = Some b -> a = b
}.
(** the level of a value of depth d *)
Definition phi (m : mode) (d : nat) : nat := match m with BeforeMul false => Nat.pred d | _ => d end.
(** the number of moduli a value of depth d may need, including the reduction at the end *)
Definition needed (m : mode) (d : nat) : nat :=
  match m with BeforeMul true => match d with 0 => 0 | _ => d + 1 end | _ => d end.
(** the level of an output of depth d, where [ds] are the depths of all outputs: before a multiplication the modulus
    is reduced, and so are all outputs if one of them is a product *)
Definition out_level (m : mode) (ds : list (option nat)) (d : nat) : nat :=
  match m with
  | AfterMul => d
  | _ => phi m d + (if existsb (fun x => 0 <? x) (cts ds) then 1 else 0)
  end.
(** every plaintext operand is used at one level *)
Definition uniform (q : prog) (F : nat -> option nat) : Prop :=
  forall v i j, F v = None -> In i (body q) -> In j (body q) -> handled (op i) = true -> handled (op j) = true ->
    In v (firstn 2 (args i)) -> In v (firstn 2 (args j)) -> F (res i) <> None -> F (res j) <> None -> F (res i) = F (res j).
(** the moduli an operation drops *)
Definition drops (k : opk) : nat := match k with ModReduce => 1 | LevelReduce j => j | _ => 0 end.
