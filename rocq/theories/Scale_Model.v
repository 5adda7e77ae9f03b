(** Model of the scale analysis and of the passes that populate scales.
    Sources: lib/Analysis/ScaleAnalysis/ScaleAnalysis.{h,cpp}, lib/Transforms/PopulateScale/PopulateScaleBGV.cpp,
    PopulateScaleCKKS.cpp, PopulateScalePatterns.cpp.
    Programs are those of Mgmt_Model: the body of a secret.generic without regions, with management operations and the
    levels of the annotation.  Not modelled: loops and branches, bootstrapping, calls. *)
From Coq Require Import ZArith List Bool.
From Verif Require Import NumTheory_Model Mgmt_Model.
Import ListNotations.
Open Scope Z_scope.

Definition smap := nat -> option Z.
Notation "x <- a ;; b" := (match a with Some x => b | None => None end) (at level 61, a at next level, right associativity).

(** * B/GV *)
(** plaintextModulus and Qi of bgv::SchemeParam *)
Record bgv := Bgv { pt : Z; qi : list Z }.
(** a * b % t on int64_t; None: signed overflow or division by zero *)
Definition mul_mod (t a b : Z) : option Z :=
  if (- 2 ^ 63 <=? a * b) && (a * b <? 2 ^ 63) && negb (t =? 0) then Some (Z.rem (a * b) t) else None.
(** evalAddScale, ScaleAnalysis.cpp:60-69; [dbg]: built with assertions *)
Definition add_scale (dbg : bool) (l : list Z) : option Z :=
  match l with
  | [] => None
  | a :: l => if dbg && negb (forallb (Z.eqb a) l) then None else Some a
  end.
(** evalMulScale, 71-76 *)
Definition mul_scale (P : bgv) (a b : Z) : option Z := mul_mod (pt P) a b.
(** evalMulScaleBackward, 78-84 *)
Definition mul_scale_back (P : bgv) (r a : Z) : option Z :=
  i <- multiplicative_inverse 64 a (pt P) ;; mul_mod (pt P) r i.
(** evalModReduceScale, 86-94; None for a level without modulus *)
Definition reduce_scale (P : bgv) (lev : nat) (s : Z) : option Z :=
  q <- nth_error (qi P) lev ;; i <- multiplicative_inverse 64 (Z.rem q (pt P)) (pt P) ;; mul_mod (pt P) s i.
(** evalModReduceScaleBackward, 96-103 *)
Definition reduce_scale_back (P : bgv) (lev : nat) (r : Z) : option Z :=
  q <- nth_error (qi P) lev ;; mul_mod (pt P) r (Z.rem q (pt P)).

(** isAdaptable, 39-55 *)
Definition adapt_tf (st : nat -> bool) (i : inst) : bool :=
  match op i with
  | AdjustScale _ => true
  | ModReduce | Relin | LevelReduce _ => match args i with v :: _ => st v | [] => false end
  | Add => match args i with u :: v :: _ => st u && st v | _ => false end
  | _ => false
  end.
Definition adaptable (p : prog) : nat -> bool := flow adapt_tf (fun _ => false) (body p).

(** getOperandScales of the forward analysis, 200-224; [mg]: secret or defined by mgmt.init.  None: failure *)
Fixpoint operand_scales (ad : nat -> bool) (st : smap) (vs : list nat) : option (list Z) :=
  match vs with
  | [] => Some []
  | v :: vs => match st v with
               | Some s => option_map (cons s) (operand_scales ad st vs)
               | None => if ad v then operand_scales ad st vs else None
               end
  end.
Definition one (v : nat) (s : option Z) : option (list (nat * Z)) := option_map (fun s => [(v, s)]) s.
(** ScaleAnalysis::visitOperation, 163-341, with inputScale 1: what is propagated to which values.
    None: failed assertion or undefined behaviour *)
Definition forward (dbg : bool) (P : bgv) (lev : nat -> nat) (p : prog) (st : smap) (i : inst) : option (list (nat * Z)) :=
  match op i with
  | AdjustScale _ => Some []
  | Init => Some [(res i, 1)]
  | k => match operand_scales (adaptable p) st (filter (managed p) (args i)) with
         | None | Some [] => Some []
         | Some (a :: l) =>
             match k with
             | Mul => one (res i) (mul_scale P a (hd a l))
             | ModReduce => one (res i) (reduce_scale P (lev (hd 0%nat (args i))) a)
             | Add | Sub | Ins => one (res i) (add_scale dbg (a :: l))
             | _ => if secret p (res i) then Some [(res i, a)] else Some []
             end
         end
  end.
(** getOperandScales of the backward analysis, 412-441 *)
Fixpoint split_scales (st : smap) (vs : list nat) : list nat * list Z :=
  match vs with
  | [] => ([], [])
  | v :: vs => let '(u, l) := split_scales st vs in
               match st v with Some s => (u, s :: l) | None => (v :: u, l) end
  end.
(** ScaleAnalysisBackward::visitOperation, 366-541 *)
Definition backward (P : bgv) (lev : nat -> nat) (p : prog) (st : smap) (i : inst) : option (list (nat * Z)) :=
  match (if secret p (res i) then st (res i) else None) with
  | None => Some []
  | Some r =>
      let '(without, scales) := split_scales st (filter (managed p) (args i)) in
      match op i with
      | Mul => match scales with
               | [a] => match without with
                        | [] => Some []
                        | _ => s <- mul_scale_back P r a ;; Some (map (fun v => (v, s)) without)
                        end
               | _ => Some []
               end
      | ModReduce => match scales with
                     | [] => one (hd 0%nat (args i)) (reduce_scale_back P (lev (hd 0%nat (args i))) r)
                     | _ => Some []
                     end
      | AdjustScale _ => Some []
      | _ => Some (map (fun v => (v, r)) (args i))
      end
  end.
(** ScaleState::join, ScaleAnalysis.h:43-49 *)
Definition propagate (dbg : bool) (st : smap) (v : nat) (s : Z) : option smap :=
  match st v with
  | None => Some (upd st v (Some s))
  | Some a => if dbg && negb (a =? s) then None else Some st
  end.
(** The solver visits operations in some order until nothing changes. *)
Definition scale_start (p : prog) : smap := fun v => if mem v (sargs p) then Some 1 else None.
Inductive scale_step (dbg : bool) (P : bgv) (lev : nat -> nat) (p : prog) (st st' : smap) : Prop :=
| Scale_step : forall i f v s, In i (body p) ->
    forward dbg P lev p st i = Some f \/ backward P lev p st i = Some f -> In (v, s) f ->
    propagate dbg st v s = Some st' -> scale_step dbg P lev p st st'.
Inductive scale_steps (dbg : bool) (P : bgv) (lev : nat -> nat) (p : prog) : smap -> smap -> Prop :=
| steps_refl : forall st, scale_steps dbg P lev p st st
| steps_more : forall st1 st2 st3, scale_steps dbg P lev p st1 st2 -> scale_step dbg P lev p st2 st3 ->
    scale_steps dbg P lev p st1 st3.
(** No operation fails and nothing changes any more. *)
Definition scale_settled (dbg : bool) (P : bgv) (lev : nat -> nat) (p : prog) (st : smap) : Prop :=
  forall i, In i (body p) -> exists f b, forward dbg P lev p st i = Some f /\ backward P lev p st i = Some b /\
    forall v s, In (v, s) (f ++ b) -> propagate dbg st v s = Some st.
(** annotateScale, 583-601: the scale of every managed value is read, which must be there *)
Definition scale_annotated (p : prog) (st : smap) : Prop :=
  forall v, In v (values p) -> managed p v = true -> st v <> None.
(** the parameter of getIntegerAttr is an int, 585-587 *)
Definition annotation (st : smap) (v : nat) : option Z :=
  option_map (fun s => (s + 2 ^ 31) mod 2 ^ 32 - 2 ^ 31) (st v).
Inductive scale_bgv (dbg : bool) (P : bgv) (lev : nat -> nat) (p : prog) (st : smap) : Prop :=
| Scale_bgv : scale_steps dbg P lev p (scale_start p) st -> scale_settled dbg P lev p st -> scale_annotated p st ->
    scale_bgv dbg P lev p st.

(** ** ConvertAdjustScaleToMulPlain, PopulateScalePatterns.cpp:18-67, and BGVAdjustScaleMaterializer *)
(** deltaScale, PopulateScaleBGV.cpp:38-44 *)
Definition delta_bgv (P : bgv) (scale input : Z) : option Z :=
  i <- multiplicative_inverse 64 input (pt P) ;; mul_mod (pt P) scale i.
(** An adjust_scale is removed (None) or becomes a product with ones encoded at scale d (Some d); the outer None:
    failure. *)
Definition materialize (delta : Z -> Z -> option Z) (scale input : Z) : option (option Z) :=
  if scale =? input then Some None
  else d <- delta scale input ;; if d <? 0 then None else Some (Some d).
