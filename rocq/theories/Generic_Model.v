(** The rewrites of secret.generic (lib/Dialect/Secret/IR/SecretPatterns.cpp, SecretOps.cpp).

    A rewrite returns the operations that take the place of the generic, the values whose later uses
    are replaced (replaceAllUsesWith), and the next unused name.  A cloned generic keeps the names of
    the values defined in it, which differ only in identity from those of the original.  Attributes
    are not modelled. *)
From Coq Require Import List Bool Arith.
From Verif Require Import Generic_Spec.
Import ListNotations.

Definition mem (v : val) (l : list val) : bool := existsb (veqb v) l.
(** [count] new values *)
Definition fresh (sec : bool) (next count : nat) : list val := map (fun i => (sec, next + i)) (seq 0 count).
(** IRMapping::lookupOrDefault *)
Definition ren := list (val * val).
Definition look (m : ren) (v : val) : val :=
  match find (fun p => veqb v (fst p)) m with Some p => snd p | None => v end.
(** the uses of the domain of [m] in the operation and in its regions are replaced *)
Fixpoint subst (m : ren) (o : op) : op :=
  match o with
  | Plain name xs rs => Plain name (map (look m) xs) rs
  | Conceal r x => Conceal r (look m x)
  | Reveal r x => Reveal r (look m x)
  | Generic ins args body ys outs => Generic (map (look m) ins) args (map (subst m) body) (map (look m) ys) outs
  | For c inits iv iters body ys rs => For (look m c) (map (look m) inits) iv iters (map (subst m) body) (map (look m) ys) rs
  | If c thn tys els eys rs =>
      If (look m c) (map (subst m) thn) (map (look m) tys) (map (subst m) els) (map (look m) eys) rs
  end.
(** the same without the bodies of nested generics (SecretPatterns.cpp:333-336: the closest enclosing
    generic of the use is the given one) *)
Fixpoint subst_own (m : ren) (o : op) : op :=
  match o with
  | Plain name xs rs => Plain name (map (look m) xs) rs
  | Conceal r x => Conceal r (look m x)
  | Reveal r x => Reveal r (look m x)
  | Generic ins args body ys outs => Generic (map (look m) ins) args body ys outs
  | For c inits iv iters body ys rs => For (look m c) (map (look m) inits) iv iters (map (subst_own m) body) (map (look m) ys) rs
  | If c thn tys els eys rs =>
      If (look m c) (map (subst_own m) thn) (map (look m) tys) (map (subst_own m) els) (map (look m) eys) rs
  end.

(** Operation::getOperands *)
Definition operands (o : op) : list val :=
  match o with
  | Plain _ xs _ => xs
  | Conceal _ x | Reveal _ x => [x]
  | Generic ins _ _ _ _ => ins
  | For c inits _ _ _ _ _ => c :: inits
  | If c _ _ _ _ _ => [c]
  end.
(** the operands of the operations met by Operation::walk, which visits the regions first *)
Fixpoint walk (o : op) : list val :=
  match o with
  | Plain _ xs _ => xs
  | Conceal _ x | Reveal _ x => [x]
  | Generic ins _ body ys _ => flat_map walk body ++ ys ++ ins
  | For c inits _ _ body ys _ => flat_map walk body ++ ys ++ c :: inits
  | If c thn tys els eys _ => flat_map walk thn ++ tys ++ flat_map walk els ++ eys ++ [c]
  end.
(** the operands of the secret.yield operations inside the operation *)
Fixpoint yielded_inside (o : op) : list val :=
  match o with
  | Generic _ _ body ys _ => flat_map yielded_inside body ++ ys
  | For _ _ _ _ body _ _ => flat_map yielded_inside body
  | If _ thn _ els _ _ => flat_map yielded_inside thn ++ flat_map yielded_inside els
  | _ => []
  end.
(** SecretType::get of the type of the value (SecretOps.cpp:370-374, 420-424) *)
Definition as_secret (v : val) : val := (true, snd v).

Definition rewrite := (list op * ren * nat)%type.

(** CollapseSecretlessGeneric (SecretPatterns.cpp:104-168).  The test for tensor.empty (121-138) never
    succeeds: at that point no operand is secret. *)
Definition is_plain (p : nat -> bool) (o : op) : bool := match o with Plain name _ _ => p name | _ => false end.
Definition collapse (alloc : nat -> bool) (next : nat) (g : op) : option rewrite :=
  match g with
  | Generic ins args body ys outs =>
      if existsb secret ins || existsb (is_plain alloc) body then None
      else
        let m := combine args ins in
        let rs := fresh true next (length ys) in
        Some (map (subst m) body ++ map (fun p => Conceal (fst p) (look m (snd p))) (combine rs ys),
              combine outs rs, next + length ys)
  | _ => None
  end.

(** GenericOp::removeYieldedValues (SecretOps.cpp:387-424, 426-465): only the pairs of a yielded value
    and a result that satisfy [keep] remain. *)
Definition keep_yields (keep : val * val -> bool) (ys outs : list val) : list val * list val :=
  let kept := filter keep (combine ys outs) in
  (map fst kept, map (fun p => as_secret (snd p)) kept).

(** RemoveUnusedGenericArgs (170-230): the loop over the block arguments.  Its result: the operands and
    arguments that remain, and the argument that is passed through to a secret.yield, if the loop stops
    at one. *)
Fixpoint scan_args (body : list op) (ys ins args : list val) : list val * list val * option (val * val) :=
  match ins, args with
  | x :: ins', a :: args' =>
      if negb (mem a (flat_map uses body ++ ys)) then scan_args body ys ins' args'
      else if mem a (ys ++ flat_map yielded_inside body) then (ins, args, Some (a, x))
      else let '(i, r, p) := scan_args body ys ins' args' in (x :: i, a :: r, p)
  | _, _ => ([], [], None)
  end.
Definition remove_unused_args (next : nat) (g : op) : option rewrite :=
  match g with
  | Generic ins args body ys outs =>
      match scan_args body ys ins args with
      | (ins', args', Some (a, x)) =>
          let m := map (fun p => (snd p, x)) (filter (fun p => veqb (fst p) a) (combine ys outs)) in
          let '(ys', outs') := keep_yields (fun p => negb (veqb (fst p) a)) ys outs in
          Some ([Generic ins' args' body ys' outs'], m, next)
      | (ins', args', None) =>
          if length args' =? length args then None else Some ([Generic ins' args' body ys outs], [], next)
      end
  | _ => None
  end.

(** RemoveUnusedYieldedValues (232-254); [used]: the values read after the generic *)
Definition remove_unused_yields (used : list val) (next : nat) (g : op) : option rewrite :=
  match g with
  | Generic ins args body ys outs =>
      let '(ys', outs') := keep_yields (fun p => mem (snd p) used) ys outs in
      if length ys' =? length ys then None else Some ([Generic ins args body ys' outs'], [], next)
  | _ => None
  end.

(** RemoveNonSecretGenericArgs (256-285) *)
Definition remove_public_args (next : nat) (g : op) : option rewrite :=
  match g with
  | Generic ins args body ys outs =>
      let pairs := combine ins args in
      let kept := filter (fun p => secret (fst p)) pairs in
      let m := map (fun p => (snd p, fst p)) (filter (fun p => negb (secret (fst p))) pairs) in
      match m with
      | [] => None
      | _ => Some ([Generic (map fst kept) (map snd kept) (map (subst m) body) (map (look m) ys) outs], [], next)
      end
  | _ => None
  end.

(** CaptureAmbientScope (287-341), without the replacement of affine loads and stores (296-318) *)
Definition capture_ambient (next : nat) (g : op) : option rewrite :=
  match g with
  | Generic ins args body ys outs =>
      match find (fun v => negb (mem v (args ++ flat_map defs body))) (flat_map walk body ++ ys) with
      | Some v =>
          let a := (fst v, next) in
          let m := [(v, a)] in
          Some ([Generic (ins ++ [v]) (args ++ [a]) (map (subst_own m) body) (map (look m) ys) outs], [], S next)
      | None => None
      end
  | _ => None
  end.

(** MergeAdjacentGenerics (343-473).  First the operands of the merged generic and, for each operand of
    the second generic that is not a result of the first, its index (366-393). *)
Fixpoint find_index (v : val) (l : list val) : option nat :=
  match l with
  | [] => None
  | x :: l' => if veqb v x then Some 0 else option_map S (find_index v l')
  end.
Fixpoint merge_operands (outs1 ins2 operands : list val) : list val :=
  match ins2 with
  | [] => operands
  | x :: ins2' =>
      if mem x outs1 then merge_operands outs1 ins2' operands
      else if mem x operands then merge_operands outs1 ins2' operands
      else merge_operands outs1 ins2' (operands ++ [x])
  end.
(** 412-435: what the block arguments of the second generic become *)
Definition merge_arg (outs1 ys1 operands args : list val) (x : val) : val :=
  match find_index x outs1 with
  | Some i => nth i ys1 x
  | None => match find_index x operands with Some j => nth j args x | None => x end
  end.
Definition merge (next : nat) (g1 g2 : op) : option rewrite :=
  match g1, g2 with
  | Generic ins1 args1 body1 ys1 outs1, Generic ins2 args2 body2 ys2 outs2 =>
      let ins := merge_operands outs1 ins2 ins1 in
      let added := length ins - length ins1 in
      let args := args1 ++ fresh false next added in
      let m := combine args2 (map (merge_arg outs1 ys1 ins args) ins2) in
      Some ([Generic ins args (body1 ++ map (subst m) body2) (ys1 ++ map (look m) ys2) (outs1 ++ outs2)], [], next + added)
  | _, _ => None
  end.

(** DedupeYieldedValues (511-550): the first yielded value that occurred before *)
Fixpoint first_repeat (seen ys outs : list val) (prev : list val) : option (val * val) :=
  match ys, outs with
  | y :: ys', r :: outs' =>
      match find_index y seen with
      | Some i => Some (r, nth i prev r)
      | None => first_repeat (seen ++ [y]) ys' outs' (prev ++ [r])
      end
  | _, _ => None
  end.
Definition dedupe_yields (next : nat) (g : op) : option rewrite :=
  match g with
  | Generic ins args body ys outs =>
      match first_repeat [] ys outs [] with
      | Some (r, r') =>
          let '(ys', outs') := keep_yields (fun p => negb (veqb (snd p) r)) ys outs in
          Some ([Generic ins args body ys' outs'], [(r, as_secret r')], next)
      | None => None
      end
  | _ => None
  end.

(** GenericOp::extractOpBeforeGeneric (SecretOps.cpp:480-602): the operation at index [i] of the body
    moves to a generic of its own. *)
Fixpoint first_occurrences (seen l : list val) : list val :=
  match l with
  | [] => []
  | x :: l' => if mem x seen then first_occurrences seen l' else x :: first_occurrences (x :: seen) l'
  end.
Definition operand_of (args ins : list val) (a : val) : val := look (combine args ins) a.
Definition extract_before (next i : nat) (g : op) : option (op * op * nat) :=
  match g with
  | Generic ins args body ys outs =>
      match nth_error body i with
      | Some o =>
          let captured := first_occurrences [] (filter (fun v => mem v args) (operands o ++ walk o)) in
          let k := length captured in
          let n := length (results o) in
          let new_args := fresh false next k in
          let new_outs := fresh true (next + k) n in
          let old_args := fresh false (next + k + n) n in
          let m := combine (results o) old_args in
          Some (Generic (map (operand_of args ins) captured) new_args [subst (combine captured new_args) o] (results o) new_outs,
                Generic (ins ++ new_outs) (args ++ old_args) (map (subst m) (firstn i body ++ skipn (S i) body)) (map (look m) ys) outs,
                next + k + n + n)
      | None => None
      end
  | _ => None
  end.

(** HoistOpBeforeGeneric (SecretPatterns.cpp:552-590); [listed]: the name of the operation is one of the
    configured ones *)
Fixpoint index_where {A} (p : A -> bool) (l : list A) : option nat :=
  match l with
  | [] => None
  | x :: l' => if p x then Some 0 else option_map S (index_where p l')
  end.
Definition can_hoist_before (listed : op -> bool) (body : list op) (o : op) : bool :=
  listed o && forallb (fun v => negb (mem v (flat_map results body))) (operands o).
Definition hoist_before (listed : op -> bool) (next : nat) (g : op) : option rewrite :=
  match g with
  | Generic ins args body ys outs =>
      if length body <=? 1 then None
      else match index_where (can_hoist_before listed body) body with
           | Some i => match extract_before next i g with Some (n, g', next') => Some ([n; g'], [], next') | None => None end
           | None => None
           end
  | _ => None
  end.

(** HoistPlaintextOps (624-710).  [eligible]: the operation has no region or is a linalg operation, and
    is speculatable or a packing call (627-640).  The values checked are the operands and those used in
    the regions and defined above them (659-674). *)
Definition hoistable_value (ins args : list val) (body : list op) (v : val) : bool :=
  if mem v args then public (operand_of args ins v) else negb (mem v (flat_map defs body)).
Definition can_hoist_plaintext (eligible : op -> bool) (ins args : list val) (body : list op) (o : op) : bool :=
  eligible o &&
  forallb (hoistable_value ins args body) (operands o) &&
  forallb (fun v => mem v (defs o) || hoistable_value ins args body v) (walk o).
(** the operations found are extracted one after the other; the position of the next one moves as those
    before it leave the body *)
Fixpoint extract_all (next : nat) (is : list nat) (removed : nat) (g : op) : option (list op * nat) :=
  match is with
  | [] => Some ([g], next)
  | i :: is' =>
      match extract_before next (i - removed) g with
      | Some (n, g', next') =>
          match extract_all next' is' (S removed) g' with Some (l, next'') => Some (n :: l, next'') | None => None end
      | None => None
      end
  end.
Fixpoint indices_where {A} (p : A -> bool) (i : nat) (l : list A) : list nat :=
  match l with
  | [] => []
  | x :: l' => if p x then i :: indices_where p (S i) l' else indices_where p (S i) l'
  end.
Definition hoist_plaintext (eligible : op -> bool) (next : nat) (g : op) : option rewrite :=
  match g with
  | Generic ins args body ys outs =>
      if length body <=? 1 then None
      else match indices_where (can_hoist_plaintext eligible ins args body) 0 body with
           | [] => None
           | is => match extract_all next is 0 g with Some (l, next') => Some (l, [], next') | None => None end
           end
  | _ => None
  end.

(** extractOpAfterGeneric (SecretOps.cpp:640-752) with the pattern HoistOpAfterGeneric
    (SecretPatterns.cpp:592-622).  A result of the operation without a use makes [getUses().begin()]
    invalid (SecretOps.cpp:723): no result here. *)
Fixpoint other_uses (o : op) : list val :=
  match o with
  | Plain _ xs _ => xs
  | Conceal _ x | Reveal _ x => [x]
  | Generic ins _ body _ _ => ins ++ flat_map other_uses body
  | For c inits _ _ body ys _ => c :: inits ++ flat_map other_uses body ++ ys
  | If c thn tys els eys _ => c :: flat_map other_uses thn ++ tys ++ flat_map other_uses els ++ eys
  end.
Definition yielded_only (body : list op) (o : op) : bool :=
  forallb (fun r => negb (mem r (flat_map other_uses body))) (results o).
Fixpoint positions (ys outs rs : list val) : option (list val) :=
  match rs with
  | [] => Some []
  | r :: rs' =>
      match find_index r ys, positions ys outs rs' with
      | Some i, Some l => Some (nth i outs r :: l)
      | _, _ => None
      end
  end.
Definition extract_after (next i : nat) (g : op) : option rewrite :=
  match g with
  | Generic ins args body ys outs =>
      match nth_error body i with
      | Some o =>
          let xs := operands o in
          let k := length xs in
          let n := length (results o) in
          let rest := firstn i body ++ skipn (S i) body in
          let added := fresh true next k in
          let new_args := fresh false (next + k) k in
          let new_outs := fresh true (next + k + k) n in
          let all_ys := ys ++ xs in
          let all_outs := map as_secret outs ++ added in
          let new_operand := fun x =>
            if mem x args then operand_of args ins x
            else if negb (mem x (flat_map results body)) then x
            else look (combine all_ys all_outs) x in
          match positions ys (map as_secret outs) (results o) with
          | Some replaced =>
              let '(ys', outs') := keep_yields (fun p => negb (mem (fst p) (results o))) all_ys all_outs in
              Some ([Generic ins args rest ys' outs';
                     Generic (map new_operand xs) new_args [subst (rev (combine xs new_args)) o] (results o) new_outs],
                    combine replaced new_outs, next + k + k + n)
          | None => None
          end
      | None => None
      end
  | _ => None
  end.
Definition hoist_after (listed : op -> bool) (next : nat) (g : op) : option rewrite :=
  match g with
  | Generic ins args body ys outs =>
      if length body <=? 1 then None
      else match index_where (fun o => listed o && yielded_only body o) body with
           | Some i => extract_after next i g
           | None => None
           end
  | _ => None
  end.

(** ConcealThenGeneric (SecretPatterns.cpp:712-743); [before]: the operations whose results are visible.
    tensor.insert takes the scalar, the destination and the indices. *)
Fixpoint insert_dests (insert : nat -> bool) (o : op) : list val :=
  match o with
  | Plain name xs _ => if insert name then match xs with _ :: d :: _ => [d] | _ => [] end else []
  | Conceal _ _ | Reveal _ _ => []
  | Generic _ _ body _ _ | For _ _ _ _ body _ _ => flat_map (insert_dests insert) body
  | If _ thn _ els _ _ => flat_map (insert_dests insert) thn ++ flat_map (insert_dests insert) els
  end.
Definition concealed (before : list op) (x : val) : option val :=
  match find (fun o => match o with Conceal r _ => veqb r x | _ => false end) before with
  | Some (Conceal _ c) => Some c
  | _ => None
  end.
Definition conceal_then_generic (insert : nat -> bool) (before : list op) (next : nat) (g : op) : option rewrite :=
  match g with
  | Generic ins args body ys outs =>
      let update := fun p : val * val =>
        match concealed before (fst p) with
        | Some c => if mem (snd p) (flat_map (insert_dests insert) body) then None else Some c
        | None => None
        end in
      if existsb (fun p => match update p with Some _ => true | None => false end) (combine ins args) then
        Some ([Generic (map (fun p => match update p with Some c => c | None => fst p end) (combine ins args)) args body ys outs], [], next)
      else None
  | _ => None
  end.

(** ConcealPlaintextInsert (745-786), when the destination is visible in the block of the generic: the
    new secret.conceal, placed before the generic and not next to the definition of the destination.
    The destination is replaced in all tensor.insert operations, also in those outside the generic
    (773-779). *)
Definition insert_operands (o : op) : option (val * val) :=
  match o with Plain _ (s :: d :: _) _ => Some (s, d) | _ => None end.
Fixpoint subst_dest (insert : nat -> bool) (m : ren) (o : op) : op :=
  match o with
  | Plain name xs rs => if insert name then Plain name (map (look m) xs) rs else o
  | Conceal _ _ | Reveal _ _ => o
  | Generic ins args body ys outs => Generic ins args (map (subst_dest insert m) body) ys outs
  | For c inits iv iters body ys rs => For c inits iv iters (map (subst_dest insert m) body) ys rs
  | If c thn tys els eys rs => If c (map (subst_dest insert m) thn) tys (map (subst_dest insert m) els) eys rs
  end.
Definition conceal_insert (insert : nat -> bool) (next : nat) (g : op) : option (list op * ren * nat) :=
  match g with
  | Generic ins args body ys outs =>
      let sec := fun v => mem v args && secret (operand_of args ins v) in
      let wanted := fun o =>
        match insert_operands o with
        | Some (s, d) => is_plain insert o && sec s && negb (sec d) && negb (mem d (args ++ flat_map defs body))
        | None => false
        end in
      match find wanted body with
      | Some o =>
          match insert_operands o with
          | Some (_, d) =>
              let c := (true, next) in
              let a := (false, S next) in
              let m := [(d, a)] in
              Some ([Conceal c d; Generic (ins ++ [c]) (args ++ [a]) (map (subst_dest insert m) body) ys outs], m, S (S next))
          | None => None
          end
      | None => None
      end
  | _ => None
  end.
(** the block after the rewrite of the generic, which [before] precedes and [after] follows *)
Definition apply_conceal_insert (insert : nat -> bool) (next : nat) (before : list op) (g : op) (after : list op) : option (list op * nat) :=
  match conceal_insert insert next g with
  | Some (new, m, next') => Some (map (subst_dest insert m) before ++ new ++ map (subst_dest insert m) after, next')
  | None => None
  end.
