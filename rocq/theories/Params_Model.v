(** * Generation of RLWE parameters

    Model of /repo/lib/Parameters/RLWEParams.cpp, RLWESecurityParams.cpp,
    BGV/Params.cpp:27-35, CKKS/Params.cpp and of the sizes computed in
    /repo/lib/Transforms/GenerateParam/GenerateParamBGV.cpp.

    [FirstPrime], [NextPrime], [PreviousPrime] and [LastPrime] of OpenFHE are
    arguments; an exception is [None]. Simplified: sizes are integers (the
    doubles given are integral), and the sum of the logarithms of the primes,
    which is truncated to an integer, is the logarithm of their product rounded
    down. Failed assertions, uncaught exceptions and loops that run out of fuel
    are [None]. *)
From Coq Require Import ZArith List Bool.
Import ListNotations.
Open Scope Z_scope.

(** RLWEParams.h:44-69 *)
Record params := Params {
  ringDim : Z; level : Z; qi : list Z; dnum : Z; pi : list Z }.

(** RLWEParams.cpp:22-30 *)
Definition computeDnum (level : Z) : Z :=
  if level >? 3 then 3 else if level >? 0 then 2 else 1.

(** RLWESecurityParams.cpp:12-14 *)
Definition rlweSecurityParam128BitClassic : list (Z * Z) :=
  [(1024, 26); (2048, 53); (4096, 106); (8192, 214);
   (16384, 430); (32768, 868); (65536, 1747); (131072, 3523)].

(** RLWESecurityParams.cpp:17-26 *)
Fixpoint find_dim (l : list (Z * Z)) (logPQ minRingDim : Z) : option Z :=
  match l with
  | [] => None
  | (n, logMaxQ) :: l =>
      if n <? minRingDim then find_dim l logPQ minRingDim
      else if logMaxQ >=? logPQ then Some n
      else find_dim l logPQ minRingDim
  end.

(** RLWESecurityParams.cpp:16-27 *)
Definition computeRingDim (logPQ minRingDim : Z) : option Z :=
  find_dim rlweSecurityParam128BitClassic logPQ minRingDim.

(** RLWEParams.cpp:99: [ceil(size / dnum)] *)
Definition num_special (size dnum : Z) : Z := (size + dnum - 1) / dnum.

(** RLWEParams.cpp:126 and 132, truncated by the call in line 135. *)
Definition log_total (l : list Z) : Z := Z.log2 (fold_right Z.mul 1 l).

Inductive search := Found (p : Z) | Thrown | Fuel.

(** RLWEParams.cpp:56-75: from a prime to the next as long as it exists. *)
Fixpoint skip_existing (next : Z -> Z -> option Z) (fuel : nat) (m p : Z) (existing : list Z) : search :=
  if existsb (Z.eqb p) existing then
    match fuel with
    | O => Fuel
    | S fuel =>
        match next p m with
        | Some p' => skip_existing next fuel m p' existing
        | None => Thrown
        end
    end
  else Found p.

(** RLWEParams.cpp:51-81, [k] being [80 - qi]. *)
Fixpoint find_bits (first next : Z -> Z -> option Z) (fuel k : nat) (bits m : Z) (existing : list Z) : option Z :=
  match k with
  | O => None
  | S k =>
      match
        match first bits m with
        | Some p => skip_existing next fuel m p existing
        | None => Thrown
        end
      with
      | Found p => Some p
      | Thrown => find_bits first next fuel k (bits + 1) m existing
      | Fuel => None
      end
  end.

(** RLWEParams.cpp:49-82 *)
Definition findPrime (first next : Z -> Z -> option Z) (fuel : nat) (bits ringDim : Z) (existing : list Z) : option Z :=
  find_bits first next fuel (Z.to_nat (80 - bits)) bits (2 * ringDim) existing.

(** RLWEParams.cpp:122-127 and 128-133: primes of the given sizes, each added
    to the existing ones. *)
Fixpoint find_primes (first next : Z -> Z -> option Z) (fuel : nat) (ringDim : Z)
    (sizes existing : list Z) : option (list Z * list Z) :=
  match sizes with
  | [] => Some ([], existing)
  | s :: sizes =>
      match findPrime first next fuel s ringDim existing with
      | Some p =>
          match find_primes first next fuel ringDim sizes (existing ++ [p]) with
          | Some (ps, e) => Some (p :: ps, e)
          | None => None
          end
      | None => None
      end
  end.

(** RLWEParams.cpp:110-140, the loop that generates primes until the ring
    dimension fits them. *)
Fixpoint fit_primes (first next : Z -> Z -> option Z) (fuel rounds : nat) (ringDim minRingDim t : Z)
    (logqi logpi : list Z) : option (Z * list Z * list Z) :=
  match rounds with
  | O => None
  | S rounds =>
      match find_primes first next fuel ringDim logqi (if t =? 0 then [] else [t]) with
      | Some (qs, e) =>
          match find_primes first next fuel ringDim logpi e with
          | Some (ps, _) =>
              match computeRingDim (log_total (qs ++ ps)) minRingDim with
              | Some newRingDim =>
                  if newRingDim =? ringDim then Some (ringDim, qs, ps)
                  else fit_primes first next fuel rounds newRingDim minRingDim t logqi logpi
              | None => None
              end
          | None => None
          end
      | None => None
      end
  end.

(** RLWEParams.cpp:91-95 *)
Definition sanitize (l : list Z) : list Z := map (fun q => if q <? 20 then 20 else q) l.

Definition sum (l : list Z) : Z := fold_right Z.add 0 l.

(** RLWEParams.cpp:97; an empty list has no maximum. *)
Definition max_element (l : list Z) : option Z :=
  match l with [] => None | q :: l => Some (fold_left Z.max l q) end.

(** RLWEParams.cpp:84-154 *)
Definition getConcreteRLWESchemeParam (first next : Z -> Z -> option Z) (fuel rounds : nat)
    (sizes : list Z) (minRingDim t : Z) : option params :=
  let level := Z.of_nat (length sizes) - 1 in
  let dnum := computeDnum level in
  let logqi := sanitize sizes in
  match max_element logqi with
  | None => None
  | Some maxLogqi =>
      let logpi := repeat maxLogqi (Z.to_nat (num_special (Z.of_nat (length logqi)) dnum)) in
      match computeRingDim (sum logqi + sum logpi) minRingDim with
      | None => None
      | Some ringDim =>
          match fit_primes first next fuel rounds ringDim minRingDim t logqi logpi with
          | Some (n, qs, ps) => Some (Params n level qs dnum ps)
          | None => None
          end
      end
  end.

(** BGV/Params.cpp:27-35 *)
Definition bgvConcreteSchemeParam (first next : Z -> Z -> option Z) (fuel rounds : nat)
    (sizes : list Z) (t minSlotCount : Z) : option params :=
  getConcreteRLWESchemeParam first next fuel rounds sizes (2 * minSlotCount) t.

(** GenerateParamBGV.cpp:60-66, [updateLevelToGap], on an association list. *)
Fixpoint updateLevelToGap (l : list (Z * Z)) (level gap : Z) : list (Z * Z) :=
  match l with
  | [] => [(level, gap)]
  | (k, g) :: l =>
      if k =? level then (k, Z.max g gap) :: l else (k, g) :: updateLevelToGap l level gap
  end.

(** Writing element [k] of a vector; outside it is undefined behaviour. *)
Definition write (l : list Z) (k v : Z) : option (list Z) :=
  if (0 <=? k) && (k <? Z.of_nat (length l))
  then Some (firstn (Z.to_nat k) l ++ v :: skipn (S (Z.to_nat k)) l)
  else None.

(** GenerateParamBGV.cpp:114-118 *)
Fixpoint write_gaps (l : list Z) (gaps : list (Z * Z)) : option (list Z) :=
  match gaps with
  | [] => Some l
  | (level, gap) :: gaps =>
      match write l level (1 + gap) with Some l => write_gaps l gaps | None => None end
  end.

(** GenerateParamBGV.cpp:80-118: the sizes requested, from the gaps (rounded
    up) of the modulus reductions, by the level of their operands, and the
    noise bounds (rounded up) at level 0. *)
Definition sizes_by_gap (reductions : list (Z * Z)) (bounds0 : list Z) : option (list Z) :=
  let levelToGap := fold_left (fun m r => updateLevelToGap m (fst r) (snd r)) reductions [] in
  let firstModSize := fold_left (fun s b => Z.max s (2 + b)) bounds0 0 in
  write_gaps (firstModSize :: repeat 0 (length levelToGap)) levelToGap.

(** ** CKKS *)

(** CKKS/Params.cpp:37-45: primes alternating below and above the first one,
    from the last level down; [k] iterations from [cnt]. *)
Fixpoint alternate (next prev : Z -> Z -> option Z) (k cnt : nat) (m qPrev qNext : Z) : option (list Z) :=
  match k with
  | O => Some []
  | S k =>
      if Nat.even cnt then
        match prev qPrev m with
        | Some p => option_map (cons p) (alternate next prev k (S cnt) m p qNext)
        | None => None
        end
      else
        match next qNext m with
        | Some p => option_map (cons p) (alternate next prev k (S cnt) m qPrev p)
        | None => None
        end
  end.

(** CKKS/Params.cpp:31 and 46-47 *)
Definition max_prime (q : Z) (l : list Z) : Z := fold_left (fun mx p => if p >? mx then p else mx) l q.

(** CKKS/Params.cpp:53-67 and 140-157: the modulus of level 0, before the others. *)
Definition add_first (next last : Z -> Z -> option Z) (logFirstMod logDefaultScale m maxPrime : Z)
    (rest : list Z) : option (list Z) :=
  if logFirstMod =? logDefaultScale then
    option_map (fun q0 => q0 :: rest) (next maxPrime m)
  else
    match last logFirstMod m with
    | None => None
    | Some q0 =>
        if existsb (Z.eqb q0) rest
        then option_map (fun q0 => q0 :: rest) (next maxPrime m)
        else Some (q0 :: rest)
    end.

(** CKKS/Params.cpp:21-69, for at least one level. *)
Definition moduliQGenerationOpenFHEFixed (first next prev last : Z -> Z -> option Z)
    (logFirstMod logDefaultScale : Z) (numLevel : nat) (ringDim : Z) : option (list Z) :=
  let m := ringDim * 2 in
  match first logDefaultScale m with
  | None => None
  | Some q =>
      match alternate next prev (numLevel - 2) 0 m q q with
      | None => None
      | Some l =>
          let rest := match numLevel with S O => [] | _ => rev l ++ [q] end in
          add_first next last logFirstMod logDefaultScale m (max_prime q l) rest
      end
  end.

(** CKKS/Params.cpp:106-115 and 120-129: from a prime to the next until it is
    not among those of the levels above. *)
Fixpoint fresh (step : Z -> Z -> option Z) (fuel : nat) (m p : Z) (above : list Z) : option Z :=
  match fuel with
  | O => None
  | S fuel =>
      match step p m with
      | Some p' => if existsb (Z.eqb p') above then fresh step fuel m p' above else Some p'
      | None => None
      end
  end.

(** CKKS/Params.cpp:97-136: the levels from the last but one down to 1, before
    those [above]. [target], the scaling factor rounded to an integer, is
    computed with floating point from the primes of the levels above. The loop
    around (87) repeats this with the same result. Simplified: differences do
    not wrap around. *)
Fixpoint reduced (next prev : Z -> Z -> option Z) (target : list Z -> Z) (fuel k cnt : nat) (m : Z)
    (above : list Z) : option (list Z) :=
  match k with
  | O => Some above
  | S k =>
      let sfInt := target above in
      let sfRem := sfInt mod m in
      match
        (if Nat.even cnt then fresh prev fuel m (sfInt - m - sfRem + 1) above
         else fresh next fuel m (sfInt + m - sfRem + 1) above)
      with
      | Some p => reduced next prev target fuel k (S cnt) m (p :: above)
      | None => None
      end
  end.

(** CKKS/Params.cpp:73-159, for at least one level. *)
Definition moduliQGenerationReducedError (first next prev last : Z -> Z -> option Z) (target : list Z -> Z)
    (fuel : nat) (logFirstMod logDefaultScale : Z) (numLevel : nat) (ringDim : Z) : option (list Z) :=
  let m := ringDim * 2 in
  match first logDefaultScale m with
  | None => None
  | Some q =>
      match reduced next prev target fuel (numLevel - 2) 0 m [q] with
      | None => None
      | Some l =>
          let rest := match numLevel with S O => [] | _ => l end in
          add_first next last logFirstMod logDefaultScale m (max_prime q l) rest
      end
  end.

(** CKKS/Params.cpp:176-177: [ceil] of a quotient. *)
Definition ceil_div (a b : Z) : Z := (a + b - 1) / b.

(** CKKS/Params.cpp:188-220 *)
Fixpoint fit_ckks (first next prev last : Z -> Z -> option Z) (target : list Z -> Z) (reducedError : bool)
    (fuel rounds : nat) (ringDim minRingDim : Z) (logFirstMod logDefaultScale : Z) (numLevel : nat) (logpi : list Z) : option (Z * list Z * list Z) :=
  match rounds with
  | O => None
  | S rounds =>
      match
        (if reducedError
         then moduliQGenerationReducedError first next prev last target fuel logFirstMod logDefaultScale
                numLevel ringDim
         else moduliQGenerationOpenFHEFixed first next prev last logFirstMod logDefaultScale numLevel ringDim)
      with
      | Some qs =>
          match find_primes first next fuel ringDim logpi qs with
          | Some (ps, _) =>
              match computeRingDim (log_total (qs ++ ps)) minRingDim with
              | Some newRingDim =>
                  if newRingDim =? ringDim then Some (ringDim, qs, ps)
                  else fit_ckks first next prev last target reducedError fuel rounds newRingDim minRingDim
                         logFirstMod logDefaultScale numLevel logpi
              | None => None
              end
          | None => None
          end
      | None => None
      end
  end.

(** CKKS/Params.cpp:162-235 *)
Definition ckksConcreteSchemeParam (first next prev last : Z -> Z -> option Z) (target : list Z -> Z)
    (reducedError : bool) (fuel rounds : nat)
    (logFirstMod logDefaultScale : Z) (numScaleMod : nat) (minSlotCount : Z) : option params :=
  let minRingDim := 2 * minSlotCount in
  let L := Z.of_nat numScaleMod in
  let dnum := computeDnum L in
  let logQ := logFirstMod + logDefaultScale * L in
  let sizePi := 60 in
  let numPi := ceil_div (ceil_div logQ dnum) sizePi in
  match computeRingDim (logQ + numPi * sizePi) minRingDim with
  | None => None
  | Some ringDim =>
      match fit_ckks first next prev last target reducedError fuel rounds ringDim minRingDim logFirstMod logDefaultScale
              (S numScaleMod) (repeat sizePi (Z.to_nat numPi)) with
      | Some (n, qs, ps) => Some (Params n (L + 1) qs dnum ps)
      | None => None
      end
  end.
