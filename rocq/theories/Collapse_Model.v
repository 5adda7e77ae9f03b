(** The pattern that collapses chains of tensor insertions into a rotation.
    /repo/lib/Dialect/TensorExt/Transforms/CollapseInsertionChains.cpp.

    A block of tensor operations in SSA form.  Operation number k is an
    insertion into a tensor of rank one, or a rotation put in by the pattern;
    its operands are arguments or results of operations before it.  Extractions
    are part of the scalar they define: they have no effect, and the pattern
    looks at them only through the scalar operand.  Indices and shifts are
    mathematical integers (int64_t in the code); a program that is defined has
    indices below the length of the tensors.  Regions and dynamic lengths are
    not modelled. *)
From Coq Require Import ZArith List Bool.
From Verif Require Import Rotate_Spec.
Import ListNotations.
Open Scope Z_scope.

(** ** Programs *)
Inductive tref := Arg (x : nat) | Res (k : nat).
Inductive index := Cst (z : Z) | Dyn (x : nat).
Inductive scalar := Opaque (x : nat) | Extract (t : tref) (i : index).
Inductive op := Insert (s : scalar) (dest : tref) (i : index) | Rotate (t : tref) (shift : Z).
Notation program := (list op).

Definition tref_eqb (a b : tref) : bool :=
  match a, b with Arg x, Arg y | Res x, Res y => Nat.eqb x y | _, _ => false end.

Section Meaning.
Variable E : Type.
Variable args : nat -> list E.
Variable scal : nat -> E.
Variable idx : nat -> Z.

Definition tget (vals : list (list E)) (t : tref) : option (list E) :=
  match t with Arg x => Some (args x) | Res k => nth_error vals k end.
Definition iget (i : index) : Z := match i with Cst z => z | Dyn x => idx x end.
(** [None]: index out of bounds *)
Definition at_index (l : list E) (z : Z) : option E := if z <? 0 then None else nth_error l (Z.to_nat z).
Fixpoint set_nth (l : list E) (j : nat) (e : E) : list E :=
  match l, j with
  | [], _ => []
  | _ :: l', O => e :: l'
  | a :: l', S j' => a :: set_nth l' j' e
  end.
Definition sget (vals : list (list E)) (s : scalar) : option E :=
  match s with
  | Opaque x => Some (scal x)
  | Extract t i => match tget vals t with Some l => at_index l (iget i) | None => None end
  end.
Definition exec (vals : list (list E)) (o : op) : option (list E) :=
  match o with
  | Insert s d i =>
      match sget vals s, tget vals d with
      | Some e, Some l => match at_index l (iget i) with Some _ => Some (set_nth l (Z.to_nat (iget i)) e) | None => None end
      | _, _ => None
      end
  | Rotate t s => match tget vals t with Some l => Some (rot E s l) | None => None end
  end.
(** the values of all operations, in order *)
Fixpoint run (vals : list (list E)) (p : program) : option (list (list E)) :=
  match p with
  | [] => Some vals
  | o :: p' => match exec vals o with Some v => run (vals ++ [v]) p' | None => None end
  end.
End Meaning.

(** ** The pattern *)
Section Pattern.
(** the static lengths of the arguments *)
Variable alen : nat -> Z.
(** the length of a tensor: an insertion has the type of its destination *)
Fixpoint length_of (fuel : nat) (p : program) (t : tref) : option Z :=
  match fuel with
  | O => None
  | S f =>
      match t with
      | Arg x => Some (alen x)
      | Res k => match nth_error p k with
                 | Some (Insert _ d _) => length_of f p d
                 | Some (Rotate t' _) => length_of f p t'
                 | None => None
                 end
      end
  end.

(** /repo/lib/Dialect/Utils.h:23-40 *)
Definition get1DExtractionIndex (i : index) : option Z := match i with Cst z => Some z | Dyn _ => None end.

(** CollapseInsertionChains.cpp:39-65 *)
Definition calculateShift (p : program) (dest : tref) (i : index) (src : tref) (e : index) : option Z :=
  match get1DExtractionIndex i, get1DExtractionIndex e with
  | Some iz, Some ez =>
      match length_of (S (length p)) p dest, length_of (S (length p)) p src with
      | Some n, Some m =>
          if n =? m then let shift := ez - iz in Some (if shift <? 0 then shift + n else shift) else None
      | _, _ => None
      end
  | _, _ => None
  end.

(** DenseSet::insert *)
Definition set_insert (z : Z) (acc : list Z) : list Z := if existsb (Z.eqb z) acc then acc else z :: acc.

(** the body of the loop over the users (112-137): the state is the indices
    accessed, the current operation and whether a next one was found; [None]
    is a match failure *)
Definition visit_user (p : program) (src : tref) (shift : Z) (user : nat) (st : list Z * nat * bool) : option (list Z * nat * bool) :=
  match nth_error p user with
  | Some (Insert (Extract t e) d i) =>
      if tref_eqb t src then
        match calculateShift p d i t e with
        | Some s =>
            if s =? shift then
              match get1DExtractionIndex i with
              | Some z => Some (set_insert z (fst (fst st)), user, true)
              | None => None
              end
            else None
        | None => None
        end
      else None
  | _ => Some st
  end.
Fixpoint visit_users (p : program) (src : tref) (shift : Z) (us : list nat) (st : list Z * nat * bool) : option (list Z * nat * bool) :=
  match us with
  | [] => Some st
  | u :: us' => match visit_user p src shift u st with Some st' => visit_users p src shift us' st' | None => None end
  end.
(** the while loop (109-143); the outer [None] is running out of fuel *)
Fixpoint follow (users : nat -> list nat) (fuel : nat) (p : program) (src : tref) (shift : Z) (acc : list Z) (cur : nat) : option (option (list Z * nat)) :=
  match fuel with
  | O => None
  | S f =>
      match visit_users p src shift (users cur) (acc, cur, false) with
      | None => Some None
      | Some (acc', cur', true) => follow users f p src shift acc' cur'
      | Some (acc', cur', false) => Some (Some (acc', cur'))
      end
  end.
Fixpoint replace_op (p : program) (k : nat) (o : op) : program :=
  match p, k with
  | [], _ => []
  | _ :: p', O => o :: p'
  | a :: p', S k' => a :: replace_op p' k' o
  end.
(** matchAndRewrite (67-178) on operation [k]; [users] lists the users of a
    result in the order of its use list; [None] when the pattern does not
    apply *)
Definition collapse (users : nat -> list nat) (p : program) (k : nat) : option program :=
  match nth_error p k with
  | Some (Insert (Extract src e) d i) =>
      match calculateShift p d i src e, get1DExtractionIndex i with
      | Some shift, Some z =>
          match follow users (S (length p)) p src shift (set_insert z []) k with
          | Some (Some (acc, cur)) =>
              match length_of (S (length p)) p src with
              | Some n => if Z.of_nat (length acc) =? n then Some (replace_op p cur (Rotate src shift)) else None
              | None => None
              end
          | _ => None
          end
      | _, _ => None
      end
  | _ => None
  end.

(** ** Use lists *)
Definition users_of (p : program) (users : nat -> list nat) : Prop :=
  forall k, NoDup (users k) /\ forall j, In j (users k) <-> exists s i, nth_error p j = Some (Insert s (Res k) i).
(** the pattern applied any number of times *)
Inductive collapses : program -> program -> Prop :=
| c_refl p : collapses p p
| c_step p users k p' p'' : users_of p users -> collapse users p k = Some p' -> collapses p' p'' -> collapses p p''.
End Pattern.

(** ** Conditions on programs *)
(** operands come before their uses *)
Definition ref_ok (k : nat) (t : tref) : Prop := match t with Arg _ => True | Res j => (j < k)%nat end.
Definition op_ok (k : nat) (o : op) : Prop :=
  match o with
  | Insert (Extract t _) d _ => ref_ok k t /\ ref_ok k d
  | Insert (Opaque _) d _ => ref_ok k d
  | Rotate t _ => ref_ok k t
  end.
Definition ssa (p : program) : Prop := forall k o, nth_error p k = Some o -> op_ok k o.
(** no result is the destination of two insertions of extracted elements *)
Definition unforked (p : program) : Prop :=
  forall k j1 j2 t1 e1 i1 t2 e2 i2, nth_error p j1 = Some (Insert (Extract t1 e1) (Res k) i1) ->
    nth_error p j2 = Some (Insert (Extract t2 e2) (Res k) i2) -> j1 = j2.
