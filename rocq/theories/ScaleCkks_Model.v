(** Model of the scale analysis for CKKS and of the pass that populates the scales of CKKS ciphertexts.
    Sources: lib/Analysis/ScaleAnalysis/ScaleAnalysis.{h,cpp}, lib/Transforms/PopulateScale/PopulateScaleCKKS.cpp,
    PopulateScalePatterns.cpp.
    Programs are those of Mgmt_Model.  Scales are logarithms.  Not modelled: loops and branches (parts 3 and 4 of the
    walk), bootstrapping, calls, overflow of int64_t and int (annotations), the canonicalizer and CSE at the end. *)
From Coq Require Import ZArith List Bool.
From Verif Require Import Mgmt_Model Scale_Model.
Import ListNotations.
Open Scope Z_scope.

(** logDefaultScale and the rounded logqi of ckks::SchemeParam *)
Record ckks := Ckks { ld : Z; lq : list Z }.
(** the modulus dropped at a level, ScaleAnalysis.cpp:130-140, 147-157, PopulateScaleCKKS.cpp:217-221, 253-257 *)
Definition lq_at (P : ckks) (l : nat) : Z := nth l (lq P) (ld P).
(** evalMulTargetScale, ScaleAnalysis.cpp:147-157 *)
Definition target (P : ckks) (l : nat) : Z := ld P + lq_at P l.
(** evalAddScale, ScaleAnalysis.cpp:115-122 *)
Definition max_scale (a : Z) (l : list Z) : Z := fold_left Z.max l a.

(** in an annotation the scale -1 means that there is none *)
Definition annotated (att : smap) (v : nat) : option Z := s <- att v ;; if s =? -1 then None else Some s.
(** ScaleAnalysis::visitOperation, 163-341, with inputScale [s0]; [tm]: assumeTargetScaleForMul; [att]: the scales already
    annotated; [lev]: the levels annotated *)
Definition ckks_tf (tm : bool) (P : ckks) (s0 : Z) (lev : nat -> nat) (att : smap) (p : prog) (st : smap) (i : inst) : option Z :=
  match op i with
  | AdjustScale _ => annotated att (res i)
  | Init => Some (match annotated att (res i) with Some s => s | None => s0 end)
  | k => match operand_scales (adaptable p) st (filter (managed p) (args i)) with
         | None | Some [] => None
         | Some (a :: l) =>
             match k with
             | Mul => let b := hd a l in
                      let T := target P (lev (res i)) in
                      Some (if tm && (a + b <? T)
                            then match args i with
                                 | [u; v] => if (u =? v)%nat then 2 * Z.quot (T + 1) 2 else T
                                 | _ => T
                                 end
                            else a + b)
             | ModReduce => Some (a - lq_at P (lev (hd 0%nat (args i))))
             | Add | Sub | Ins => Some (max_scale a l)
             | _ => if secret p (res i) then Some a else None
             end
         end
  end.
(** The forward analysis; every secret input starts with inputScale.  There is no backward analysis for CKKS. *)
Definition ckks_scales (tm : bool) (P : ckks) (s0 : Z) (lev : nat -> nat) (att : smap) (p : prog) : smap :=
  flow (ckks_tf tm P s0 lev att p) (fun v => if mem v (sargs p) then Some s0 else None) (body p).
(** createAndRunDataflow, PopulateScaleCKKS.cpp:59-78; [first]: beforeMulIncludeFirstMul *)
Definition input_scale (P : ckks) (first : bool) : Z := if first then ld P * 2 else ld P.

(** * Step 2: insertion of adjust_scale, PopulateScaleCKKS.cpp:157-270 *)
(** next number, next id, annotated scales and levels; [c_ok] is false after getScale of a value without scale *)
Record cstate := Cs { c_next : nat; c_id : nat; c_att : smap; c_lev : nat -> nat; c_ok : bool }.
Definition adjust (s : cstate) (v : nat) (t : Z) : inst * cstate :=
  let w := c_next s in
  (Inst (AdjustScale (c_id s)) [v] w,
   Cs (S w) (S (c_id s)) (upd (c_att s) w (Some t)) (upd (c_lev s) w (c_lev s v)) (c_ok s)).
Definition stuck (s : cstate) (i : inst) : list inst * cstate :=
  ([i], Cs (c_next s) (c_id s) (c_att s) (c_lev s) false).
(** 171-186: the largest scale of the operands *)
Fixpoint all_scales (st : smap) (vs : list nat) : option (list Z) :=
  match vs with
  | [] => Some []
  | v :: vs => s <- st v ;; option_map (cons s) (all_scales st vs)
  end.
(** 187-203 *)
Fixpoint raise (mg : nat -> bool) (st : smap) (m : Z) (s : cstate) (l : list nat) : list inst * list nat * cstate :=
  match l with
  | [] => ([], [], s)
  | v :: l =>
      if mg v && match st v with Some a => a <? m | None => false end then
        let '(j, s1) := adjust s v m in
        let '(q, l', s2) := raise mg st m s1 l in (j :: q, res j :: l', s2)
      else let '(q, l', s2) := raise mg st m s l in (q, v :: l', s2)
  end.
Definition adjust_op (P : ckks) (sec mg : nat -> bool) (st : smap) (s : cstate) (i : inst) : list inst * cstate :=
  match op i with
  | Add | Sub | Ins =>
      match filter mg (args i) with
      | _ :: _ :: _ =>
          match all_scales st (filter mg (args i)) with
          | Some (a :: l) => let '(q, l', s') := raise mg st (max_scale a l) s (args i) in
                             (q ++ [Inst (op i) l' (res i)], s')
          | _ => stuck s i
          end
      | _ => ([i], s)
      end
  | Mul =>
      match args i with
      | [lhs; rhs] =>
          if sec lhs || sec rhs then
            match st lhs, st rhs with
            | Some a, Some b =>
                let T := target P (c_lev s (res i)) in
                if a + b <? T then
                  let '(to, t) := if (lhs =? rhs)%nat then (lhs, Z.quot (T + 1) 2)
                                  else if a <? b then (lhs, T - b) else (rhs, T - a) in
                  let '(j, s') := adjust s to t in
                  ([j; Inst Mul (replace to (res j) (args i)) (res i)], s')
                else ([i], s)
            | _, _ => stuck s i
            end
          else ([i], s)
      | _ => ([i], s)
      end
  | ModReduce =>
      match args i with
      | [v] =>
          if sec v then
            match st v with
            | Some a =>
                if a - lq_at P (c_lev s v) <? ld P then
                  let '(j, s') := adjust s v (target P (c_lev s v)) in ([j; Inst ModReduce [res j] (res i)], s')
                else ([i], s)
            | None => stuck s i
            end
          else ([i], s)
      | _ => ([i], s)
      end
  | _ => ([i], s)
  end.

(** * Step 3: MergeAdjustScaleIntoInit, 80-123.  The mgmt.init with the new scale stands where the adjust_scale was and
    has its number; the old mgmt.init stays even if this was its only use. *)
Definition merge_init (l : list inst) (i : inst) : inst :=
  match op i, args i with
  | AdjustScale _, [v] =>
      match find (fun d => (res d =? v)%nat && match op d with Init => true | _ => false end) l with
      | Some d => Inst Init (args d) (res i)
      | None => i
      end
  | _, _ => i
  end.

(** * The pass, 126-416: the program before the adjust_scales are materialized, its levels, its scales and what becomes of
    every adjust_scale (see [materialize]).  None: failure of the pass, a scale that is not there, or an adjust_scale to a
    smaller scale.  (In the last case PopulateScalePatterns.cpp:29-32 reports an error and leaves the adjust_scale in the
    program, but the pass itself does not fail.) *)
Definition delta_ckks (scale input : Z) : option Z := Some (scale - input).
Definition is_some {A} (o : option A) : bool := match o with Some _ => true | None => false end.
Definition delta_of (st : smap) (i : inst) : option (option Z) :=
  match args i with
  | [v] => s <- st (res i) ;; a <- st v ;; materialize delta_ckks s a
  | _ => None
  end.
Definition is_adjust (i : inst) : bool := match op i with AdjustScale _ => true | _ => false end.
Record result := Result { r_prog : prog; r_lev : nat -> nat; r_scale : smap; r_delta : nat -> option Z }.
Definition deltas (st : smap) (l : list inst) (v : nat) : option Z :=
  match find (fun i => (res i =? v)%nat) l with
  | Some i => match delta_of st i with Some d => d | None => None end
  | None => None
  end.
Definition populate (P : ckks) (first : bool) (lev : nat -> nat) (p : prog) : option result :=
  let s0 := input_scale P first in
  let st := ckks_scales true P s0 lev (fun _ => None) p in
  let w := walk (adjust_op P (secret p) (managed p) st) (Cs (fresh p) 0 (fun _ => None) lev true) (body p) in
  let b := fst w in
  let s := snd w in
  let q := Prog (sargs p) (pargs p) (map (merge_init b) b) (outs p) in
  let st2 := ckks_scales false P s0 (c_lev s) (c_att s) q in
  if c_ok s && forallb (fun v => negb (managed q v) || is_some (st2 v)) (values q) &&
     forallb (fun i => negb (is_adjust i) || is_some (delta_of st2 i)) (body q)
  then Some (Result q (c_lev s) st2 (deltas st2 (body q))) else None.
