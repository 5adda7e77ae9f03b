(** A small language for programs with secret.generic, and what such programs compute.

    A value carries its type, of which only one bit matters here: whether it is a !secret.secret.
    Secrets are modelled by the clear value they hide (SecretOps.td:115-185: secret.generic "lifts a
    plaintext computation to operate on one or more secrets").  Operations without regions are
    arbitrary partial functions from clear values to clear values; memory is not modelled. *)
From Coq Require Import List Bool Arith.
Import ListNotations.

Definition val := (bool * nat)%type.
Definition secret (v : val) : bool := fst v.
Definition public (v : val) : bool := negb (fst v).
Definition veqb (a b : val) : bool := eqb (fst a) (fst b) && (snd a =? snd b).

Inductive op :=
| Plain (name : nat) (xs rs : list val)
| Conceal (r x : val)
| Reveal (r x : val)
| Generic (ins args : list val) (body : list op) (ys outs : list val)
| For (count : val) (inits : list val) (iv : val) (iters : list val) (body : list op) (ys rs : list val)
| If (cond : val) (thn : list op) (tys : list val) (els : list op) (eys rs : list val).

Definition results (o : op) : list val :=
  match o with
  | Plain _ _ rs | For _ _ _ _ _ _ rs | If _ _ _ _ _ rs => rs
  | Conceal r _ | Reveal r _ => [r]
  | Generic _ _ _ _ outs => outs
  end.
(** all values read, in the operation and in its regions *)
Fixpoint uses (o : op) : list val :=
  match o with
  | Plain _ xs _ => xs
  | Conceal _ x | Reveal _ x => [x]
  | Generic ins _ body ys _ => ins ++ flat_map uses body ++ ys
  | For c inits _ _ body ys _ => c :: inits ++ flat_map uses body ++ ys
  | If c thn tys els eys _ => c :: flat_map uses thn ++ tys ++ flat_map uses els ++ eys
  end.
(** all values defined, in the operation and in its regions *)
Fixpoint defs (o : op) : list val :=
  match o with
  | Plain _ _ rs => rs
  | Conceal r _ | Reveal r _ => [r]
  | Generic _ args body _ outs => args ++ flat_map defs body ++ outs
  | For _ _ iv iters body _ rs => iv :: iters ++ flat_map defs body ++ rs
  | If _ thn _ els _ rs => flat_map defs thn ++ flat_map defs els ++ rs
  end.
(** the values read by the operations without regions that have one of the names *)
Fixpoint reads_of (names : nat -> bool) (o : op) : list val :=
  match o with
  | Plain name xs _ => if names name then xs else []
  | Conceal _ _ | Reveal _ _ => []
  | Generic _ _ body _ _ | For _ _ _ _ body _ _ => flat_map (reads_of names) body
  | If _ thn _ els _ _ => flat_map (reads_of names) thn ++ flat_map (reads_of names) els
  end.
(** no secret.generic in the operation *)
Fixpoint generic_free (o : op) : bool :=
  match o with
  | Generic _ _ _ _ _ => false
  | For _ _ _ _ body _ _ => forallb generic_free body
  | If _ thn _ els _ _ => forallb generic_free thn && forallb generic_free els
  | _ => true
  end.
(** the same operation with one of its blocks exchanged *)
Inductive nested (l : list op) (ys : list val) (l' : list op) (ys' : list val) : op -> op -> Prop :=
| in_generic ins args outs : nested l ys l' ys' (Generic ins args l ys outs) (Generic ins args l' ys' outs)
| in_for c inits iv iters rs : nested l ys l' ys' (For c inits iv iters l ys rs) (For c inits iv iters l' ys' rs)
| in_then c els eys rs : nested l ys l' ys' (If c l ys els eys rs) (If c l' ys' els eys rs)
| in_else c thn tys rs : nested l ys l' ys' (If c thn tys l ys rs) (If c thn tys l' ys' rs).

Section Run.
Variable V : Type.
Variable sem : nat -> list V -> option (list V).
Variable trips : V -> nat.          (* the number of iterations of a loop *)
Variable index : nat -> V.          (* the induction variable *)
Variable truth : V -> bool.

Definition env := val -> option V.
Definition upd (e : env) (r : val) (w : V) : env := fun v => if veqb v r then Some w else e v.
Fixpoint bind (rs : list val) (ws : list V) (e : env) : option env :=
  match rs, ws with
  | [], [] => Some e
  | r :: rs', w :: ws' => bind rs' ws' (upd e r w)
  | _, _ => None
  end.
Fixpoint vals (xs : list val) (e : env) : option (list V) :=
  match xs with
  | [] => Some []
  | x :: xs' => match e x, vals xs' e with Some w, Some ws => Some (w :: ws) | _, _ => None end
  end.
Definition same_types (a b : list val) : bool := if list_eq_dec bool_dec (map fst a) (map fst b) then true else false.
Fixpoint iterate (n : nat) (f : nat -> list V -> option (list V)) (i : nat) (ws : list V) : option (list V) :=
  match n with
  | O => Some ws
  | S n' => match f i ws with Some ws' => iterate n' f (S i) ws' | None => None end
  end.

(** The results of an operation.  No result: a use of a value that is not visible, a type error, or a
    failing operation. *)
Fixpoint eval (o : op) (e : env) : option (list V) :=
  let run := fix run (l : list op) (e : env) : option env :=
    match l with
    | [] => Some e
    | o :: l' =>
        match eval o e with
        | Some ws => match bind (results o) ws e with Some e' => run l' e' | None => None end
        | None => None
        end
    end in
  let block := fun (l : list op) (ys : list val) (e : env) =>
    match run l e with Some e' => vals ys e' | None => None end in
  match o with
  | Plain name xs rs =>
      if forallb public xs && forallb public rs then
        match vals xs e with Some ws => sem name ws | None => None end
      else None
  | Conceal r x => if secret r && public x then vals [x] e else None
  | Reveal r x => if public r && secret x then vals [x] e else None
  | Generic ins args body ys outs =>
      if forallb public args && forallb public ys then
        match vals ins e with
        | Some ws => match bind args ws e with Some e' => block body ys e' | None => None end
        | None => None
        end
      else None
  | For c inits iv iters body ys rs =>
      if public c && public iv && same_types inits iters && same_types ys iters && same_types rs iters then
        match e c, vals inits e with
        | Some n, Some ws =>
            iterate (trips n)
              (fun i ws => match bind (iv :: iters) (index i :: ws) e with Some e' => block body ys e' | None => None end) 0 ws
        | _, _ => None
        end
      else None
  | If c thn tys els eys rs =>
      if public c && same_types tys rs && same_types eys rs then
        match e c with
        | Some w => if truth w then block thn tys e else block els eys e
        | None => None
        end
      else None
  end.
Fixpoint run (l : list op) (e : env) : option env :=
  match l with
  | [] => Some e
  | o :: l' =>
      match eval o e with
      | Some ws => match bind (results o) ws e with Some e' => run l' e' | None => None end
      | None => None
      end
  end.
(** a block of operations with the operands of its terminator *)
Definition block (l : list op) (ys : list val) (e : env) : option (list V) :=
  match run l e with Some e' => vals ys e' | None => None end.

(** Every value is defined once: in the block, and not in the scopes around it, whose values are
    visible in [e].  Names from [next] on are unused. *)
Definition ssa (next : nat) (l : list op) (ys : list val) (e : env) : Prop :=
  NoDup (flat_map defs l) /\
  (forall v, In v (flat_map defs l) -> e v = None) /\
  (forall v, In v (flat_map defs l ++ flat_map uses l ++ ys) -> snd v < next) /\
  (forall v, e v <> None -> snd v < next).
End Run.
