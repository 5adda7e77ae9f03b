(** What a block computes.  Ciphertexts live in storage cells; SSA values of ciphertext type are pointers to
    cells, tensors are vectors of pointers, memrefs are mutable buffers of pointers.  This is how the
    emitters print the operations: *rlwe.Ciphertext in Go, std::shared_ptr in C++. *)
From Coq Require Import List Bool Arith.
From Verif Require Import InPlace_Model.
Import ListNotations.

Section Exec.
  Variable D : Type.                      (* the contents of a ciphertext *)
  Variable ev : nat -> list D -> D.       (* the meaning of the operations *)
  (** true: a result may be written only into a storage that has not consumed more levels than the result *)
  Variable strict : bool.

  Inductive rv := Ptr (l : nat) | Vec (ls : list nat) | Buf (b : nat).
  Definition cell := (D * nat)%type.      (* contents and consumed levels *)
  Record state := State { env : nat -> option rv; heap : list cell; bufs : list (list (option nat));
                          out : list (list (option cell)) }.

  Definition bind {A B} (x : option A) (k : A -> option B) : option B := match x with Some a => k a | None => None end.
  Notation "x <- e1 ; e2" := (bind e1 (fun x => e2)) (at level 61, e1 at next level, right associativity).
  Definition set (v : nat) (x : rv) (e : nat -> option rv) : nat -> option rv := fun u => if u =? v then Some x else e u.
  Fixpoint put {A} (l : list A) (i : nat) (x : A) : list A :=
    match l, i with [], _ => [] | _ :: l', 0 => x :: l' | y :: l', S i' => y :: put l' i' x end.
  Definition ptr (s : state) (v : nat) : option nat := match env s v with Some (Ptr l) => Some l | _ => None end.
  Definition vec (s : state) (v : nat) : option (list nat) := match env s v with Some (Vec ls) => Some ls | _ => None end.
  Definition buf (s : state) (v : nat) : option nat := match env s v with Some (Buf b) => Some b | _ => None end.
  Definition read (s : state) (v : nat) : option D := l <- ptr s v; option_map fst (nth_error (heap s) l).
  Fixpoint all {A B} (g : A -> option B) (l : list A) : option (list B) :=
    match l with [] => Some [] | a :: l' => b <- g a; bs <- all g l'; Some (b :: bs) end.
  Definition alloc (s : state) (r : nat) (c : cell) : state :=
    State (set r (Ptr (length (heap s))) (env s)) (heap s ++ [c]) (bufs s) (out s).
  Definition define (s : state) (r : nat) (x : rv) : state := State (set r x (env s)) (heap s) (bufs s) (out s).
  (** everything that can be read through a value *)
  Definition contents (s : state) (x : rv) : list (option cell) :=
    match x with
    | Ptr l => [nth_error (heap s) l]
    | Vec ls => map (nth_error (heap s)) ls
    | Buf b => map (fun o => l <- o; nth_error (heap s) l) (nth b (bufs s) [])
    end.

  Definition step (i : instr) (s : state) : option state :=
    match def i with
    | INew _ f args => xs <- all (read s) args; Some (alloc s (res i) (ev f xs, dep i))
    | IInPlace f args dst =>
        xs <- all (read s) args; l <- ptr s dst; c <- nth_error (heap s) l;
        if negb strict || (snd c <=? dep i)
        then Some (State (set (res i) (Ptr l) (env s)) (put (heap s) l (ev f xs, dep i)) (bufs s) (out s)) else None
    | IExtract t k => ls <- vec s t; l <- nth_error ls k; Some (define s (res i) (Ptr l))
    | IInsert c t k => l <- ptr s c; ls <- vec s t; Some (define s (res i) (Vec (put ls k l)))
    | IPack cs => ls <- all (ptr s) cs; Some (define s (res i) (Vec ls))
    | IAlloc n => Some (State (set (res i) (Buf (length (bufs s))) (env s)) (heap s) (bufs s ++ [repeat None n]) (out s))
    | ILoad m k => b <- buf s m; cs <- nth_error (bufs s) b; o <- nth_error cs k; l <- o; Some (define s (res i) (Ptr l))
    | IStore c m k => l <- ptr s c; b <- buf s m; cs <- nth_error (bufs s) b;
                      Some (State (env s) (heap s) (put (bufs s) b (put cs k (Some l))) (out s))
    | ILoop init trips f args =>
        xs <- all (read s) args; l <- ptr s init; c <- nth_error (heap s) l;
        match trips with
        | 0 => Some (define s (res i) (Ptr l))
        | _ => Some (alloc s (res i) (Nat.iter trips (fun x => ev f (x :: xs)) (fst c), dep i))
        end
    | IDebug v => x <- env s v; Some (State (env s) (heap s) (bufs s) (contents s x :: out s))
    end.
  Fixpoint steps (is : list instr) (s : state) : option state :=
    match is with [] => Some s | i :: is' => s' <- step i s; steps is' s' end.

  (** What the caller sees after the block has run from state [s]: the contents of the returned values, of
      all buffers, and of the cells that existed before the call. *)
  Record seen := Seen { returned : list (list (option cell)); buffers : list (list (option cell)); old : list cell }.
  Definition observe (n0 : nat) (s : state) (ret : list nat) : option seen :=
    xs <- all (env s) ret;
    Some (Seen (map (contents s) xs)
               (map (fun cs => map (fun o => l <- o; nth_error (heap s) l) cs) (bufs s))
               (firstn n0 (heap s))).
  Definition run (b : block) (s : state) : option seen :=
    s' <- steps (code b) s; observe (length (heap s)) s' (rets b).
  (** what the debug calls print *)
  Definition printed (b : block) (s : state) : option (list (list (option cell))) :=
    option_map out (steps (code b) s).
  (** a function with a loop *)
  Definition run_nest (p : nest) (s : state) : option seen :=
    s1 <- steps (pre p) s;
    s2 <- Nat.iter (trips p) (fun o => s' <- o; steps (body p) s') (Some s1);
    s3 <- steps (post p) s2; observe (length (heap s)) s3 (nrets p).
End Exec.
Arguments State {D}. Arguments env {D}. Arguments heap {D}. Arguments bufs {D}. Arguments out {D}.
Arguments Seen {D}. Arguments returned {D}. Arguments buffers {D}. Arguments old {D}.

(** Well-formed starting states: pointers of the arguments are allocated. *)
Definition good_rv {D} (s : state D) (x : rv) : Prop :=
  match x with
  | Ptr l => l < length (heap s)
  | Vec ls => Forall (fun l => l < length (heap s)) ls
  | Buf b => b < length (bufs s)
  end.
Definition good_state {D} (s : state D) : Prop :=
  (forall v x, env s v = Some x -> good_rv s x) /\
  Forall (Forall (fun o => match o with Some l => l < length (heap s) | None => True end)) (bufs s).

(** SSA: every number is defined once, and is no argument. *)
Definition ssa {D} (b : block) (s : state D) : Prop :=
  NoDup (map res (code b)) /\ forall i, In i (code b) -> env s (res i) = None.
(** the level analysis is right where it gives an answer *)
Definition levels_right (b : block) : Prop := forall i d, In i (code b) -> lev i = Some d -> dep i = d.

(** The blocks on which the Lattigo pass is proved right. *)
Definition made_here (b : block) (v : nat) : Prop :=
  exists i, In i (code b) /\ res i = v /\ match def i with INew _ _ _ | IInPlace _ _ _ => True | _ => False end.
Definition lattigo_fragment (b : block) : Prop :=
  forall i, In i (code b) ->
    match def i with
    | IPack cs => forall c, In c cs -> ~ made_here b c          (* no from_elements of computed ciphertexts *)
    | ILoop init trips _ _ => trips <> 0                        (* no loop that runs zero times *)
    | INew KBinary _ args =>                                    (* no operand loaded from a memref *)
        forall v j m k, In v args -> In j (code b) -> res j = v -> def j <> ILoad m k
    | _ => True
    end.

(** The blocks on which the OpenFHE pass is proved right: the operand that would be mutated was allocated in
    the block, and no other name for its storage is made. *)
Definition captured_by (v : nat) (d : rhs) : Prop :=
  match d with
  | IInsert c _ _ => c = v
  | IPack cs => In v cs
  | IStore c _ _ => c = v
  | ILoop init _ _ _ => init = v
  | IInPlace _ _ dst => dst = v
  | _ => False
  end.
Definition openfhe_fragment (b : block) : Prop :=
  forall i k f v args, In i (code b) -> def i = INew k f (v :: args) -> k <> KOther ->
    (exists j k' f' args', In j (code b) /\ res j = v /\ def j = INew k' f' args') /\
    (forall j, In j (code b) -> ~ captured_by v (def j)).

(** [b'] differs from [b] only in allocating operations that became in-place. *)
Definition inplace_of (i i' : instr) : Prop :=
  i' = i \/ exists k f args dst, def i = INew k f args /\ k <> KOther /\
            i' = Instr (res i) (IInPlace f args dst) (lev i) (dep i).
Definition allocations (b : block) : nat :=
  length (filter (fun i => match def i with INew _ _ _ => true | _ => false end) (code b)).
