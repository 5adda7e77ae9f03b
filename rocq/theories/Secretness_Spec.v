(** Execution of the programs, and the conditions under which secrets flow only along data dependencies. *)
From Coq Require Import List Bool Arith Relations.
From Verif Require Import Secretness_Model.
Import ListNotations.

Definition public (st : state) (v : nat) : Prop := st v = Some false.
Definition known (st : state) (v : nat) : Prop := st v <> None.

(** values defined by an operation *)
Fixpoint defs (o : op) : list nat :=
  match o with
  | OpPure _ _ outs | OpRegion _ _ _ outs | OpCall _ _ outs => outs
  | OpReveal _ r => [r]
  | OpAlloc m => [m]
  | OpStore _ _ _ => []
  | OpLoad r _ _ => [r]
  | OpIf _ tb _ eb _ outs => outs ++ flat_map defs tb ++ flat_map defs eb
  | OpFor _ _ _ _ iv args body _ outs => [iv] ++ args ++ outs ++ flat_map defs body
  | OpGeneric _ args body _ outs => args ++ outs ++ flat_map defs body
  end.
Definition ssa (f : func) : Prop := NoDup (map fst (f_args f) ++ flat_map defs (f_body f)).
Definition secret_args (f : func) : list nat :=
  map fst (filter (fun a => fst (snd a) || snd (snd a)) (f_args f)).

(** * Execution *)
Section Exec.
Variable V : Type.
Variable dflt : V.
Variable sem : nat -> list V -> list V -> list V.      (* name, operands, values used inside the regions *)
Variable truth : V -> bool.
Variable ivs : V -> V -> V -> list V.                  (* values of the induction variable *)
Variable idx : V -> nat.

Record mstate := MState { env : nat -> V; mem : nat -> nat -> V; trace : list V }.
Definition assign (outs : list nat) (vals : list V) (e : nat -> V) : nat -> V :=
  fold_left (fun e p => upd (fst p) (snd p) e) (combine outs vals) e.
Definition set_env (e : nat -> V) (s : mstate) : mstate := MState e (mem s) (trace s).
Definition results (outs : list nat) (vals : list V) (s : mstate) : mstate := set_env (assign outs vals (env s)) s.

(** secret.reveal makes its operand visible: it is appended to the trace *)
Fixpoint exec (o : op) (s : mstate) : mstate :=
  match o with
  | OpPure n ins outs | OpCall n ins outs => results outs (sem n (map (env s) ins) []) s
  | OpRegion n ins caps outs => results outs (sem n (map (env s) ins) (map (env s) caps)) s
  | OpReveal i o => MState (upd o (env s i) (env s)) (mem s) (trace s ++ [env s i])
  | OpAlloc m => MState (env s) (upd m (fun _ => dflt) (mem s)) (trace s)
  | OpStore v m i => MState (env s) (upd m (upd (idx (env s i)) (env s v) (mem s m)) (mem s)) (trace s)
  | OpLoad r m i => set_env (upd r (mem s m (idx (env s i))) (env s)) s
  | OpIf c tb ty eb ey outs =>
      if truth (env s c)
      then let s' := fold_left (fun s o => exec o s) tb s in results outs (map (env s') ty) s'
      else let s' := fold_left (fun s o => exec o s) eb s in results outs (map (env s') ey) s'
  | OpFor lb ub st inits iv args body yields outs =>
      let sv := fold_left
        (fun sv i =>
           let s0 := set_env (assign args (snd sv) (upd iv i (env (fst sv)))) (fst sv) in
           let s1 := fold_left (fun s o => exec o s) body s0 in
           (s1, map (env s1) yields))
        (ivs (env s lb) (env s ub) (env s st)) (s, map (env s) inits) in
      results outs (snd sv) (fst sv)
  | OpGeneric ins args body yields outs =>
      let s0 := results args (map (fun p => env s (fst p)) ins) s in
      let s1 := fold_left (fun s o => exec o s) body s0 in
      results outs (map (env s1) yields) s1
  end.
Definition exec_func (f : func) (s : mstate) : mstate := fold_left (fun s o => exec o s) (f_body f) s.
End Exec.
Arguments env {V} _ _. Arguments mem {V} _ _ _. Arguments trace {V} _. Arguments MState {V} _ _ _.

(** Control flow depends on public values only, only public values are stored, values forwarded by control
    flow or passed to external functions have a known secretness, and an operand of secret.generic that is
    not of secret type is public. *)
Fixpoint data_flow_only (st : state) (o : op) : Prop :=
  match o with
  | OpPure _ _ _ | OpRegion _ _ _ _ | OpReveal _ _ | OpAlloc _ | OpLoad _ _ _ => True
  | OpCall _ ins _ => Forall (known st) ins
  | OpStore v _ i => public st v /\ public st i
  | OpIf c tb ty eb ey _ =>
      public st c /\ Forall (known st) ty /\ Forall (known st) ey /\
      fold_right and True (map (data_flow_only st) tb) /\ fold_right and True (map (data_flow_only st) eb)
  | OpFor lb ub s inits _ _ body yields _ =>
      public st lb /\ public st ub /\ public st s /\ Forall (known st) inits /\ Forall (known st) yields /\
      fold_right and True (map (data_flow_only st) body)
  | OpGeneric ins _ body _ _ =>
      Forall (fun p => snd p = false -> public st (fst p)) ins /\
      fold_right and True (map (data_flow_only st) body)
  end.

(** * Data dependencies *)
Definition all_to_all (ins outs : list nat) : list (nat * nat) := flat_map (fun i => map (fun o => (i, o)) outs) ins.
Fixpoint dep_edges (o : op) : list (nat * nat) :=
  match o with
  | OpPure _ ins outs | OpRegion _ ins _ outs | OpCall _ ins outs => all_to_all ins outs
  | OpReveal _ _ | OpAlloc _ | OpStore _ _ _ => []
  | OpLoad r m i => [(m, r); (i, r)]
  | OpIf _ tb ty eb ey outs => combine ty outs ++ combine ey outs ++ flat_map dep_edges tb ++ flat_map dep_edges eb
  | OpFor _ _ _ inits _ args body yields outs =>
      combine inits args ++ combine yields args ++ combine inits outs ++ combine yields outs ++ flat_map dep_edges body
  | OpGeneric ins args body _ outs => all_to_all (map fst ins) outs ++ flat_map dep_edges body
  end.
(** block arguments of secret.generic whose operand has secret type *)
Fixpoint secret_block_args (o : op) : list nat :=
  match o with
  | OpIf _ tb _ eb _ _ => flat_map secret_block_args tb ++ flat_map secret_block_args eb
  | OpFor _ _ _ _ _ _ body _ _ => flat_map secret_block_args body
  | OpGeneric ins args body _ _ =>
      map fst (filter (fun p => snd (snd p)) (combine args ins)) ++ flat_map secret_block_args body
  | _ => []
  end.
Definition sources (f : func) : list nat := secret_args f ++ flat_map secret_block_args (f_body f).
Definition depends (f : func) : nat -> nat -> Prop :=
  clos_refl_trans nat (fun a b => In (a, b) (flat_map dep_edges (f_body f))).
