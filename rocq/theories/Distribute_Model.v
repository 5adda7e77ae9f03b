(** The pass secret-distribute-generic (lib/Dialect/Secret/Transforms/DistributeGeneric.cpp): splitting
    a secret.generic and moving it into the regions of loops and conditionals.  The conventions are
    those of Generic_Model.  Attributes and memory are not modelled; the flags of
    kSecretInitsAttrName (95-132) are an argument. *)
From Coq Require Import List Bool Arith.
From Verif Require Import Generic_Spec Generic_Model.
Import ListNotations.

(** FoldSecretSeparators (69-90) *)
Definition fold_separator (separator : nat -> bool) (next : nat) (g : op) : option rewrite :=
  match g with
  | Generic ins args [o] ys [] => if is_plain separator o then Some ([], [], next) else None
  | _ => None
  end.

(** moveOpToEarlierGeneric (567-691): the first operation of the generic [s] moves to the end of the
    generic [t] in front of it.  A block argument of [s] read by the operation becomes the yielded
    value of [t] if its operand is a result of [t] (595-614), the argument of [t] for the same operand
    (616-630), or a new argument (632-641).  The new operands are listed in the order of the operands
    of the operation, then of those in its regions; the code visits the regions first. *)
Definition move_earlier (next : nat) (t s : op) : option (op * op * nat) :=
  match t, s with
  | Generic tins targs tbody tys touts, Generic sins sargs (o :: rest) sys souts =>
      let captured := first_occurrences [] (filter (fun v => mem v sargs) (operands o ++ walk o)) in
      let k := length captured in
      let n := length (results o) in
      let sources := map (operand_of sargs sins) captured in
      let ins := merge_operands touts sources tins in
      let added := length ins - length tins in
      let args := targs ++ fresh false (next + k + n + n) added in
      let m := combine captured (map (merge_arg touts tys ins args) sources) in
      let new_outs := fresh true (next + k) n in
      let new_args := fresh false (next + k + n) n in
      let m' := combine (results o) new_args in
      Some (Generic ins args (tbody ++ [subst m o]) (tys ++ results o) (touts ++ new_outs),
            Generic (sins ++ new_outs) (sargs ++ new_args) (map (subst m') rest) (map (look m') sys) souts,
            next + k + n + n + added)
  | _, _ => None
  end.
(** splitGenericBeforeOp (697-708), [count] further operations after the first one *)
Fixpoint move_all (next count : nat) (t s : op) : option (op * op * nat) :=
  match count with
  | O => Some (t, s, next)
  | S count' =>
      match move_earlier next t s with
      | Some (t', s', next') => move_all next' count' t' s'
      | None => None
      end
  end.
Definition split_before (next i : nat) (g : op) : option (op * op * nat) :=
  match extract_before next 0 g with
  | Some (t, s, next') => move_all next' (i - 1) t s
  | None => None
  end.

(** new values with the types of the given ones *)
Definition fresh_as (types : list bool) (next : nat) : list val := combine types (seq next (length types)).

(** distributeThroughIfOp (168-246) with the test of the condition (256-275) *)
Definition vals_eqb (a b : list val) : bool :=
  (length a =? length b) && forallb (fun p => veqb (fst p) (snd p)) (combine a b).
Definition distribute_if (next : nat) (g : op) : option rewrite :=
  match g with
  | Generic ins args [If c thn tys els eys rs] ys outs =>
      if mem c args then None
      else if vals_eqb ys rs then
        let k := length args in
        let n := length outs in
        let branch := fun (next : nat) (l : list op) (zs : list val) =>
          let args' := fresh false next k in
          let m := combine args args' in
          let outs' := fresh_as (map fst outs) (next + k) in
          ([Generic ins args' (map (subst m) l) (map (look m) zs) outs'], outs') in
        let '(thn', tys') := branch next thn tys in
        let '(els', eys') := branch (next + k + n) els eys in
        Some ([If c thn' tys' els' eys' outs], [], next + k + n + k + n)
      else None
  | _ => None
  end.

(** distributeThroughRegionHoldingOp, loops (277-554).  [lift]: shouldLoopInitBeLiftedToSecret for each
    loop-carried value. *)
Definition flag (lift : list bool) (i : nat) : bool := nth i lift false.
(** the positions at which the block argument is the initial value (420-432) *)
Fixpoint carried_by (a : val) (inits iters : list val) : list val :=
  match inits, iters with
  | x :: inits', t :: iters' => if veqb x a then t :: carried_by a inits' iters' else carried_by a inits' iters'
  | _, _ => []
  end.
(** 412-436, without the initial values that were concealed *)
Definition loop_operands (inits iters : list val) (ins args : list val) : list val :=
  flat_map (fun p => match carried_by (snd p) inits iters with [] => [fst p] | l => l end) (combine ins args).
(** the conceals of 369-382: the position, the concealed value, the new initial value *)
Definition concealed_inits (lift : list bool) (next : nat) (inits : list val) : list (nat * val * val) :=
  flat_map (fun p => if public (snd p) && flag lift (fst p) then [(fst p, snd p, (true, next + fst p))] else [])
           (combine (seq 0 (length inits)) inits).
Definition distribute_for (lift : list bool) (next : nat) (g : op) : option rewrite :=
  match g with
  | Generic ins args [For c inits iv iters body ys rs] gys outs =>
      let n := length inits in
      (* 328-347: secret bounds *)
      if (mem c args && secret (operand_of args ins c)) || secret c then None
      else
        (* 318-324, 349-350: the clone; initial values that are block arguments become operands, in the whole loop *)
        let mp := map (fun x => (x, operand_of args ins x)) (filter (fun x => mem x args) inits) in
        let inits1 := map (look mp) inits in
        (* 354-384 *)
        let hidden := concealed_inits lift next inits1 in
        let inits2 := map (fun p => if public (snd p) && flag lift (fst p) then (true, next + fst p) else snd p) (combine (seq 0 n) inits1) in
        let iters' := fresh_as (map fst inits2) (next + n) in
        let hidden_iters := map (fun p => nth (fst (fst p)) iters' (snd p)) hidden in
        (* 410-440 *)
        let operands := loop_operands inits iters' ins args ++ hidden_iters in
        let k := length operands in
        let new_args := fresh false (next + n + n) k in
        (* 446-456: later entries replace earlier ones *)
        let gm := rev (combine operands new_args) ++ rev (combine (map snd hidden) hidden_iters) ++ rev (combine args new_args) in
        let m0 := combine iters iters' in
        let mapped := fun v => look gm (look m0 (look mp v)) in
        let body' := map (subst gm) (map (subst m0) (map (subst mp) body)) in
        (* 469-474: IRMapping::lookup fails for a value without an entry *)
        let found := fun y => let v := look m0 (look mp y) in mem v (map fst gm) || mem v (flat_map results body) in
        let types := map fst iters' in
        let outs' := fresh_as types (next + n + n + k) in
        let rs' := fresh_as types (next + n + n + k + n) in
        (* 512-540: the index of a value that is not a result of the loop is out of bounds *)
        if forallb found ys && forallb (fun y => mem y rs) gys then
          Some (map (fun p => Conceal (snd p) (snd (fst p))) hidden ++
                [For (look mp c) inits2 iv iters' [Generic operands new_args body' (map mapped ys) outs'] outs' rs'],
                combine outs (map (look (combine rs rs')) gys),
                next + n + n + k + n + n)
        else None
  | _ => None
  end.

(** SplitGeneric::matchAndRewrite (720-778); [listed]: the operations to distribute through, if given.
    A generic without an operation is not modelled: the terminator would be taken for the first one. *)
Definition has_regions (o : op) : bool := match o with Plain _ _ _ | Conceal _ _ | Reveal _ _ => false | _ => true end.
Definition split_generic (listed : option (op -> bool)) (lift : list bool) (next : nat) (g : op) : option rewrite :=
  match g with
  | Generic ins args body ys outs =>
      match (match listed with None => match body with [] => None | _ => Some 0 end | Some p => index_where p body end) with
      | None => None
      | Some i =>
          match body with
          | [o] =>
              if has_regions o then
                match o with
                | If _ _ _ _ _ _ => distribute_if next g
                | For _ _ _ _ _ _ _ => distribute_for lift next g
                | _ => None
                end
              else None
          | _ =>
              match (if i =? 0 then extract_before next 0 g else split_before next i g) with
              | Some (t, s, next') => Some ([t; s], [], next')
              | None => None
              end
          end
      end
  | _ => None
  end.
