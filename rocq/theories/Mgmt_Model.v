(** Model of the insertion of ciphertext management operations.
    Sources: lib/Transforms/SecretInsertMgmt/SecretInsertMgmtPatterns.cpp, Pipeline.cpp, SecretInsertMgmt{BGV,BFV,CKKS}.cpp,
    lib/Analysis/LevelAnalysis/LevelAnalysis.{h,cpp}, lib/Analysis/MulDepthAnalysis/MulDepthAnalysis.{h,cpp},
    lib/Dialect/Mgmt/Transforms/AnnotateMgmt.cpp, lib/Dialect/Mgmt/IR/MgmtOps.{td,cpp}.
    A program is the body of a secret.generic without regions: a list of operations with one result each.
    Values are numbers.  Not modelled: loops and branches, bootstrapping, calls, kernel.eval_chebyshev. *)
From Coq Require Import List Bool Arith.
Import ListNotations.

Inductive opk :=
| Add | Sub                 (* arith.addi/addf, arith.subi/subf *)
| Ins                       (* tensor.insert, tensor.insert_slice *)
| Mul                       (* arith.muli/mulf *)
| Slice                     (* tensor.extract_slice *)
| Other (f : nat)           (* tensor_ext.rotate, arith.constant, ... *)
| Init                      (* mgmt.init *)
| ModReduce | LevelReduce (k : nat) | LevelReduceMin | Relin | AdjustScale (id : nat).
Record inst := Inst { op : opk; args : list nat; res : nat }.
(** Block arguments that are secret, block arguments and values from outside that are not, body, yielded values. *)
Record prog := Prog { sargs : list nat; pargs : list nat; body : list inst; outs : list nat }.

Definition upd {A} (e : nat -> A) (v : nat) (a : A) : nat -> A := fun u => if u =? v then a else e u.
Definition mem (v : nat) (l : list nat) : bool := existsb (Nat.eqb v) l.

(** In a block without branches the solver visits every operation after its operands are settled, so the fixed point
    is reached in one pass. *)
Fixpoint flow {A} (tf : (nat -> A) -> inst -> A) (st : nat -> A) (p : list inst) : nat -> A :=
  match p with [] => st | i :: p => flow tf (upd st (res i) (tf st i)) p end.

(** * Secretness (SecretnessAnalysis, see C62): a result is secret if an operand is *)
Definition sec_tf (st : nat -> bool) (i : inst) : bool := existsb st (args i).
Definition secret (p : prog) : nat -> bool := flow sec_tf (fun v => mem v (sargs p)) (body p).

(** * MulDepthAnalysis *)
Inductive mds := DUninit | DInvalid | DInt (n : nat).
(** MulDepthState::join, MulDepthAnalysis.h:69-91 *)
Definition djoin (l r : mds) : mds :=
  match l, r with
  | DInvalid, _ => DInvalid
  | DUninit, o => o
  | DInt _, DInvalid => DInvalid
  | DInt a, DUninit => DInt a
  | DInt a, DInt b => DInt (Nat.max a b)
  end.
(** IncreasesMulDepthOpInterface: HEIRInterfaces.cpp:50-55 and MgmtOps.td *)
Definition increases (k : opk) : bool := match k with Mul | AdjustScale _ => true | _ => false end.
(** deriveResultMulDepth, MulDepthAnalysis.cpp:39-58; the operands given are the secret ones *)
Definition derive_depth (k : opk) (ds : list mds) : mds :=
  match fold_left djoin ds (DInt 0) with
  | DInt d => DInt (if increases k then d + 1 else d)
  | o => o
  end.
Definition depth_budget : nat := 40.
(** visitOperation, MulDepthAnalysis.cpp:60-99 *)
Definition depth_tf (sec : nat -> bool) (st : nat -> mds) (i : inst) : mds :=
  if sec (res i) then
    match derive_depth (op i) (map st (filter sec (args i))) with
    | DInt d => if depth_budget <? d then DInvalid else DInt d
    | o => o
    end
  else DUninit.
Definition depths (p : prog) : nat -> mds :=
  flow (depth_tf (secret p)) (fun v => if mem v (sargs p) then DInt 0 else DUninit) (body p).

(** * LevelAnalysis: the level counts the moduli dropped since the input *)
Inductive lvl := LUninit | LInt (n : nat) | LMax | LInvalid.
(** LevelState::join, LevelAnalysis.h:97-121 *)
Definition ljoin (l r : lvl) : lvl :=
  match l, r with
  | LInvalid, _ => LInvalid
  | LUninit, o => o
  | LMax, LInvalid => LInvalid
  | LMax, _ => LMax
  | LInt _, LMax => LMax
  | LInt a, LUninit => LInt a
  | LInt _, LInvalid => LInvalid
  | LInt a, LInt b => LInt (Nat.max a b)
  end.
(** transferForward(ReducesLevelOpInterface), LevelAnalysis.cpp:58-80 *)
Definition reduce_level (k : nat) (l : lvl) : lvl :=
  match l with LMax => LInvalid | LUninit => LUninit | LInvalid => LInvalid | LInt n => LInt (n + k) end.
(** transferForward(ReducesAllLevelsOpInterface), 82-96 *)
Definition reduce_all (l : lvl) : lvl := match l with LInt _ => LMax | o => o end.
(** deriveResultLevel, 123-144 *)
Definition derive_level (k : opk) (ls : list lvl) : lvl :=
  match k with
  | LevelReduceMin => reduce_all (nth 0 ls LUninit)
  | ModReduce => ljoin LUninit (reduce_level 1 (nth 0 ls LUninit))
  | LevelReduce n => ljoin LUninit (reduce_level n (nth 0 ls LUninit))
  | _ => fold_left ljoin ls LUninit
  end.
(** visitOperation, 146-193 *)
Definition level_tf (sec : nat -> bool) (budget : nat) (st : nat -> lvl) (i : inst) : lvl :=
  if match op i with Init => true | _ => sec (res i) end then
    match derive_level (op i) (map st (args i)) with
    | LInt l => if budget <? l then LInvalid else LInt l
    | o => o
    end
  else LUninit.
(** setToEntryState: all block arguments start at 0, LevelAnalysis.h:204-206 *)
Definition levels (budget : nat) (p : prog) : nat -> lvl :=
  flow (level_tf (secret p) budget) (fun v => if mem v (sargs p) || mem v (pargs p) then LInt 0 else LUninit) (body p).

(** * Rewriting.  The state carries the next unused number.  The handled operations have at most two ciphertext operands. *)
Fixpoint walk {S} (f : S -> inst -> list inst * S) (s : S) (p : list inst) : list inst * S :=
  match p with
  | [] => ([], s)
  | i :: p => let '(q, s1) := f s i in let '(r, s2) := walk f s1 p in (q ++ r, s2)
  end.
Definition list_max (l : list nat) : nat := fold_right Nat.max 0 l.
Definition fresh (p : prog) : nat :=
  S (list_max (sargs p ++ pargs p ++ outs p ++ flat_map (fun i => res i :: args i) (body p))).
(** Operation::replaceUsesOfWith *)
Definition replace (a b : nat) (l : list nat) : list nat := map (fun v => if v =? a then b else v) l.

(** ** UseInitOpForPlaintextOperand, SecretInsertMgmtPatterns.cpp:385-420 *)
Definition takes_init (k : opk) : bool := match k with Add | Sub | Mul | Ins | Slice => true | _ => false end.
Fixpoint init_args (sec isinit : nat -> bool) (n : nat) (l : list nat) : list inst * list nat * nat :=
  match l with
  | [] => ([], [], n)
  | v :: l =>
      if negb (sec v) && negb (isinit v) then
        let '(q, l', n') := init_args sec isinit (S n) l in (Inst Init [v] n :: q, n :: l', n')
      else let '(q, l', n') := init_args sec isinit n l in (q, v :: l', n')
  end.
Definition init_op (sec isinit : nat -> bool) (n : nat) (i : inst) : list inst * nat :=
  if takes_init (op i) && sec (res i) then
    let '(q, l, n') := init_args sec isinit n (args i) in (q ++ [Inst (op i) l (res i)], n')
  else ([i], n).
Definition inits (p : prog) : nat -> bool :=
  fun v => existsb (fun i => match op i with Init => res i =? v | _ => false end) (body p).
(** insertMgmtInitForPlaintexts, Pipeline.cpp:220-244 *)
Definition insert_init (p : prog) : prog :=
  Prog (sargs p) (pargs p) (fst (walk (init_op (secret p) (inits p)) (fresh p) (body p))) (outs p).

(** ** ModReduceBefore, SecretInsertMgmtPatterns.cpp:118-189 *)
(** the multiplicative depth that counts for the operation; None: no match *)
Fixpoint effective_depth (ds : list mds) (acc : nat) : option nat :=
  match ds with
  | [] => Some acc
  | DUninit :: _ => None
  | DInvalid :: ds => effective_depth ds (Nat.max acc 1)
  | DInt d :: ds => effective_depth ds (Nat.max acc d)
  end.
(** a new mgmt.modreduce for every secret operand *)
Fixpoint reduce_operands (vs : list nat) (n : nat) (l : list nat) : list inst * list nat * nat :=
  match vs with
  | [] => ([], l, n)
  | v :: vs => let '(q, l', n') := reduce_operands vs (S n) (replace v n l) in (Inst ModReduce [v] n :: q, l', n')
  end.
Definition mod_reduce_before (sec : nat -> bool) (dep : nat -> mds) (first : bool) (n : nat) (l : list nat)
  : list inst * list nat * nat :=
  let vs := filter sec l in
  match effective_depth (map dep vs) 0 with
  | None => ([], l, n)
  | Some d => if negb first && (d =? 0) then ([], l, n) else reduce_operands vs n l
  end.
Definition before_op (sec : nat -> bool) (dep : nat -> mds) (first : bool) (n : nat) (i : inst) : list inst * nat :=
  match op i with
  | Mul => if sec (res i) then
             let '(q, l, n') := mod_reduce_before sec dep first n (args i) in (q ++ [Inst Mul l (res i)], n')
           else ([i], n)
  | _ => ([i], n)
  end.
(** ** ModReduceAfterMult, 103-116.  The product gets a new number and the new operation defines the old one;
    in the code the uses are redirected (replaceAllUsesExcept). *)
Definition after_op (sec : nat -> bool) (n : nat) (i : inst) : list inst * nat :=
  match op i with
  | Mul => if sec (res i) then ([Inst Mul (args i) n; Inst ModReduce [n] (res i)], S n) else ([i], n)
  | _ => ([i], n)
  end.
(** insertModReduceBeforeOrAfterMult, Pipeline.cpp:246-279 *)
Inductive mode := AfterMul | BeforeMul (first : bool).
Definition insert_mod_reduce (m : mode) (p : prog) : prog :=
  let sec := secret p in
  match m with
  | AfterMul => Prog (sargs p) (pargs p) (fst (walk (after_op sec) (fresh p) (body p))) (outs p)
  | BeforeMul first =>
      let dep := depths p in
      let '(b, n) := walk (before_op sec dep first) (fresh p) (body p) in
      let '(q, o, _) := mod_reduce_before sec dep false n (outs p) in
      Prog (sargs p) (pargs p) (b ++ q) o
  end.

(** ** MultRelinearize, SecretInsertMgmtPatterns.cpp:78-101 *)
Definition relin_op (sec : nat -> bool) (n : nat) (i : inst) : list inst * nat :=
  match op i with
  | Mul => if sec (res i) && forallb sec (args i) then ([Inst Mul (args i) n; Inst Relin [n] (res i)], S n) else ([i], n)
  | _ => ([i], n)
  end.
(** insertRelinearizeAfterMult, Pipeline.cpp:281-291 *)
Definition insert_relin (p : prog) : prog :=
  Prog (sargs p) (pargs p) (fst (walk (relin_op (secret p)) (fresh p) (body p))) (outs p).

(** ** MatchCrossLevel, SecretInsertMgmtPatterns.cpp:191-268 *)
Definition matched (k : opk) : bool := match k with Add | Sub | Mul | Ins => true | _ => false end.
Record cl_state := Cl { cl_next : nat; cl_id : nat; cl_lev : nat -> lvl }.
(** the operations that bring [v] from level [l] to level [r] *)
Definition bridge (ckks : bool) (n id v l r : nat) : list inst * nat * nat * nat :=
  let '(q1, v1, n1) := if 1 <? r - l then ([Inst (LevelReduce (r - l - 1)) [v] n], n, S n) else ([], v, n) in
  let '(q2, v2, n2, id2) := if ckks then ([], v1, n1, id) else ([Inst (AdjustScale id) [v1] n1], n1, S n1, S id) in
  (q1 ++ q2 ++ [Inst ModReduce [v2] n2], n2, S n2, id2).
(** [done] tells whether operations were inserted, [l] are the current operands; None: no match because a state
    is uninitialized *)
Fixpoint match_operands (ckks : bool) (lev : nat -> lvl) (r : lvl) (vs : list nat) (n id : nat) (l : list nat)
  : option (list inst * list nat * nat * nat) :=
  match vs with
  | [] => Some ([], l, n, id)
  | v :: vs =>
      match lev v, r with
      | LUninit, _ => None
      | LInt a, LInt b =>
          if a <? b then
            let '(q, v', n', id') := bridge ckks n id v a b in
            option_map (fun '(q', l', n'', id'') => (q ++ q', l', n'', id''))
                       (match_operands ckks lev r vs n' id' (replace v v' l))
          else match_operands ckks lev r vs n id l
      | LInt a, LMax =>
          option_map (fun '(q', l', n'', id'') => (Inst LevelReduceMin [v] n :: q', l', n'', id''))
                     (match_operands ckks lev r vs (S n) id (replace v n l))
      | _, _ => match_operands ckks lev r vs n id l
      end
  end.
Definition cross_level (ckks : bool) (sec : nat -> bool) (s : cl_state) (i : inst) : list inst * cl_state :=
  let lev := cl_lev s in
  if matched (op i) && sec (res i) then
    match lev (res i) with
    | LUninit => ([i], s)
    | r => match match_operands ckks lev r (filter sec (args i)) (cl_next s) (cl_id s) (args i) with
           | None => ([i], s)
           | Some (q, l, n, id) =>
               if cl_next s <? n
               (* updateResultLevelLattice, 38-63: the states of the new operands are uninitialized *)
               then (q ++ [Inst (op i) l (res i)],
                     Cl n id (upd lev (res i) (derive_level (op i) (map (fun v => if v <? cl_next s then lev v else LUninit) l))))
               else ([i], s)
           end
    end
  else ([i], s).
(** handleCrossLevelOps, Pipeline.cpp:293-307 *)
Definition handle_cross_level (ckks : bool) (budget : nat) (p : prog) : prog * nat :=
  let '(b, s) := walk (cross_level ckks (secret p)) (Cl (fresh p) 0 (levels budget p)) (body p) in
  (Prog (sargs p) (pargs p) b (outs p), cl_id s).

(** ** MatchCrossMulDepth, SecretInsertMgmtPatterns.cpp:270-331.  The solver is run again after each change; in a
    straight line this is the analysis continued on the new operations. *)
Record md_state := Md { md_next : nat; md_id : nat; md_sec : nat -> bool; md_dep : nat -> mds }.
Definition md_visit (s : md_state) (i : inst) : md_state :=
  let sec := upd (md_sec s) (res i) (sec_tf (md_sec s) i) in
  Md (md_next s) (md_id s) sec (upd (md_dep s) (res i) (depth_tf sec (md_dep s) i)).
Fixpoint adjust_operands (dep : nat -> mds) (vs : list nat) (n id : nat) (l : list nat) : list inst * list nat * nat * nat :=
  match vs with
  | [] => ([], l, n, id)
  | v :: vs =>
      match dep v with
      | DInt 0 => let '(q, l', n', id') := adjust_operands dep vs (S n) (S id) (replace v n l) in
                  (Inst (AdjustScale id) [v] n :: q, l', n', id')
      | _ => adjust_operands dep vs n id l
      end
  end.
Definition is_int (d : mds) : bool := match d with DInt _ => true | _ => false end.
Definition mismatch (ds : list mds) : bool :=
  match ds with
  | DInt 0 :: DInt 1 :: _ | DInt 1 :: DInt 0 :: _ => true
  | _ => false
  end.
Definition cross_depth (s : md_state) (i : inst) : list inst * md_state :=
  let sec := md_sec s in
  let vs := filter sec (args i) in
  let q :=
    if matched (op i) && existsb sec (args i) && (2 <=? length vs) &&
       forallb is_int (map (md_dep s) vs) && mismatch (map (md_dep s) vs)
    then let '(q, l, n, id) := adjust_operands (md_dep s) vs (md_next s) (md_id s) (args i) in
         (q ++ [Inst (op i) l (res i)], Md n id (md_sec s) (md_dep s))
    else ([i], s) in
  (fst q, fold_left md_visit (fst q) (snd q)).
(** handleCrossMulDepthOps, Pipeline.cpp:312-337 *)
Definition handle_cross_depth (ckks : bool) (id : nat) (p : prog) : prog :=
  if ckks then p
  else Prog (sargs p) (pargs p)
         (fst (walk cross_depth (Md (fresh p) id (fun v => mem v (sargs p))
                                    (fun v => if mem v (sargs p) then DInt 0 else DUninit)) (body p)))
         (outs p).

(** ** The patterns of MgmtOps.cpp:19-225 on operations without attributes.  One use of them: the operation [i] whose
    operand is defined by [d] is replaced.  [n] is a new number. *)
Definition pattern (d i : inst) (n : nat) : option (list inst) :=
  match op d, args d, op i, args i with
  | ModReduce, [a], LevelReduce k, [b] => Some [Inst (LevelReduce k) [a] n; Inst ModReduce [n] (res i)]
  | ModReduce, [a], AdjustScale id, [b] => Some [Inst (AdjustScale id) [a] n; Inst ModReduce [n] (res i)]
  | AdjustScale id, [a], LevelReduce k, [b] => Some [Inst (LevelReduce k) [a] n; Inst (AdjustScale id) [n] (res i)]
  | LevelReduce k', [a], LevelReduce k, [b] => Some [Inst (LevelReduce (k + k')) [a] (res i)]
  | ModReduce, [a], ModReduce, [b] => Some [Inst (LevelReduce 1) [a] n; Inst ModReduce [n] (res i)]
  | AdjustScale id', [a], AdjustScale id, [b] => Some [Inst (AdjustScale id) [a] (res i)]
  | _, _, _, _ => None
  end.
(** hasOneUse *)
Definition uses (p : prog) (v : nat) : nat :=
  length (filter (Nat.eqb v) (flat_map args (body p) ++ outs p)).
Definition needs_one_use (d i : inst) : bool :=
  match op d, op i with
  | ModReduce, LevelReduce _ | ModReduce, AdjustScale _ | AdjustScale _, LevelReduce _ => true
  | _, _ => false
  end.
Inductive clean_step : prog -> prog -> Prop :=
| clean_pattern : forall sa pa p0 d p1 i p2 o q n,
    let p := Prog sa pa (p0 ++ d :: p1 ++ i :: p2) o in
    args i = [res d] ->
    uses p (res d) = 1 ->
    (needs_one_use d i = true -> uses p (res i) = 1) ->
    n = fresh p ->
    pattern d i n = Some q ->
    clean_step p (Prog sa pa (p0 ++ d :: p1 ++ q ++ p2) o).
Inductive clean : prog -> prog -> Prop :=
| clean_refl : forall p, clean p p
| clean_more : forall p q r, clean_step p q -> clean q r -> clean p r.

(** ** The canonicalizer and CSE: the patterns above, removal of unused operations, merging of equal operations.
    mgmt.init has a memory effect and stays. *)
Definition opk_eq_dec (a b : opk) : {a = b} + {a <> b}.
Proof. decide equality; apply Nat.eq_dec. Defined.
Definition rename (a b : nat) (p : list inst) : list inst := map (fun i => Inst (op i) (replace a b (args i)) (res i)) p.
Inductive canon_step : prog -> prog -> Prop :=
| canon_clean : forall p q, clean_step p q -> canon_step p q
| canon_dce : forall sa pa p0 i p1 o,
    op i <> Init -> uses (Prog sa pa (p0 ++ i :: p1) o) (res i) = 0 ->
    canon_step (Prog sa pa (p0 ++ i :: p1) o) (Prog sa pa (p0 ++ p1) o)
| canon_cse : forall sa pa p0 d p1 i p2 o,
    op i <> Init -> op i = op d -> args i = args d ->
    canon_step (Prog sa pa (p0 ++ d :: p1 ++ i :: p2) o)
               (Prog sa pa (p0 ++ d :: p1 ++ rename (res i) (res d) p2) (replace (res i) (res d) o)).
Inductive canon : prog -> prog -> Prop :=
| canon_refl : forall p, canon p p
| canon_more : forall p q r, canon_step p q -> canon q r -> canon p r.

(** ** validateLevelAnalysis, LevelAnalysis.cpp:354-380 *)
Definition is_invalid (l : lvl) : bool := match l with LInvalid => true | _ => false end.
(** shouldHaveMgmtAttribute, MgmtAttributes.cpp *)
Definition managed (p : prog) (v : nat) : bool := secret p v || inits p v.
Definition values (p : prog) : list nat := sargs p ++ pargs p ++ map res (body p).
Definition validate (budget : nat) (p : prog) : bool :=
  forallb (fun v => negb (managed p v && is_invalid (levels budget p v))) (values p).

(** ** runInsertMgmtPipeline, Pipeline.cpp:100-217, without bootstrapping, on a body without regions *)
Definition insert_all (ckks : bool) (m : mode) (budget : nat) (p : prog) : prog :=
  let p3 := insert_relin (insert_mod_reduce m (insert_init p)) in
  let '(p4, id) := handle_cross_level ckks budget p3 in
  handle_cross_depth ckks id p4.
Definition pipeline_budget (level_budget : option nat) : nat := match level_budget with None => 100 | Some b => b end.
(** The cleaning is one run of the greedy driver: the patterns and the removal of unused operations, in any order. *)
Inductive insert_mgmt (ckks : bool) (m : mode) (lb : option nat) (p q : prog) : Prop :=
| Insert_mgmt : canon (insert_all ckks m (pipeline_budget lb) p) q -> validate (pipeline_budget lb) q = true ->
                insert_mgmt ckks m lb p q.

(** * AnnotateMgmt *)
(** LevelAnalysisBackward, LevelAnalysis.cpp:224-273: plaintext operands get the level of the result.
    maybePlaintextOperands: operands 0 and 1 (HEIRInterfaces.cpp:58-83) *)
Definition back_level (sec : nat -> bool) (st : nat -> lvl) (i : inst) : nat -> lvl :=
  if matched (op i) && sec (res i) then
    match st (res i) with
    | LInt _ | LMax => fold_left (fun st v => upd st v (ljoin (st v) (st (res i))))
                                 (filter (fun v => negb (sec v)) (firstn 2 (args i))) st
    | _ => st
    end
  else st.
(** Forward and backward analysis reach a common fixed point: the forward one first, then the uses of plaintexts,
    which do not change the forward result when every plaintext operand is a mgmt.init of one use. *)
Definition all_levels (budget : nat) (p : prog) : nat -> lvl :=
  fold_left (back_level (secret p)) (body p) (levels budget p).
(** getMaxLevel, 282-300 *)
Definition lev_or (d : nat) (l : lvl) : nat := match l with LInt n => n | _ => d end.
Definition max_level (budget : nat) (p : prog) : nat :=
  list_max (map (fun v => if managed p v then lev_or 0 (all_levels budget p v) else 0) (values p)).
(** annotateLevel, 303-335; AnnotateMgmt fails if a level is invalid (AnnotateMgmt.cpp:106-134) *)
Definition annotate_budget (level_budget : option nat) : nat := match level_budget with None => 40 | Some b => b end.
Definition annotate_level (base budget : nat) (p : prog) (v : nat) : option nat :=
  if validate budget p then
    if managed p v then
      Some (match all_levels budget p v with
            | LMax => 0
            | LInt l => max_level budget p - l + base
            | _ => max_level budget p + base
            end)
    else None
  else None.

(** * SecretInsertMgmtBFV.cpp:37-92: relinearizations only, the level is the multiplicative depth *)
(** getMaxMulDepth, MulDepthAnalysis.cpp:109-131; None: getMulDepth of an invalid state *)
Fixpoint max_depth (ds : list mds) : option nat :=
  match ds with
  | [] => Some 0
  | DInvalid :: _ => None
  | DUninit :: ds => max_depth ds
  | DInt d :: ds => option_map (Nat.max d) (max_depth ds)
  end.
Definition max_mul_depth (p : prog) : option nat := max_depth (map (fun i => depths p (res i)) (body p)).
(** [d] is the level that annotate-mgmt gets as base level and as budget *)
Inductive insert_mgmt_bfv (p q : prog) (d : nat) : Prop :=
| Insert_bfv : max_mul_depth p = Some d -> canon (insert_relin (insert_init p)) q -> insert_mgmt_bfv p q d.
