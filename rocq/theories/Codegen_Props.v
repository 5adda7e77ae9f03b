(** Theorems about the loop nests generated from isl trees (lib/Utils/Layout/Codegen.cpp). *)
From Coq Require Import String ZArith List Bool Lia.
From Verif Require Import Codegen_Spec Codegen_Model Codegen_Proofs Codegen_Nodes.
Import ListNotations.
Open Scope Z_scope.

(** The generated operations run the body of the caller for exactly the statements of the tree, in their order, passing the iteration
    arguments from one to the next; the loop that is returned yields the final values.  [f] is what the body does. *)
Theorem C74_loop_nest A (f : list Z -> list A -> list A) t inits n :
  (forall zs xs, length (f zs xs) = length xs) ->
  isl_tree [] t -> is_loop t -> inits <> [] -> Forall (fun v => snd v = Data /\ (fst v < n)%nat) inits ->
  exists prog outs, generate false t inits n = Some (prog, outs) /\ length outs = length inits /\
    forall env xs tr, Forall2 (fun v x => env (fst v) = Some (DT x)) inits xs -> runs [] t tr ->
      exists env', execs A f prog env = Some env' /\ (forall k, (k < n)%nat -> env' k = env k) /\
        Forall2 (fun v x => env' (fst v) = Some (DT x)) outs (fold_left (fun xs zs => f zs xs) tr xs).
Proof.
  intros Hf W Lp Ne B.
  destruct (visit_ok A f Hf false t [] (mk [] inits [] n)) as (is & ys & s' & E & _ & _ & N & _ & (more & M & Hl) & X); auto; [discriminate| |].
  { split; [|split; [|split]]; cbn; auto; [intros y []|intros y v; discriminate]. }
  destruct (Hl Lp) as (rest & ->). cbn [app created] in M. unfold generate. rewrite E, M. exists is, ys. split; [reflexivity|]. split; [exact N|].
  intros env xs tr C R. destruct (X [] env xs tr) as (e' & Q & G & C'); auto. { intros y z; discriminate. }
  exists e'. auto.
Qed.
Print Assumptions C74_loop_nest.

(** Reversed, the same statements run in the opposite order. *)
Theorem C74_reversed A (f : list Z -> list A -> list A) t inits n :
  (forall zs xs, length (f zs xs) = length xs) ->
  isl_tree [] t -> is_loop t -> unblocked t -> inits <> [] -> Forall (fun v => snd v = Data /\ (fst v < n)%nat) inits ->
  exists prog outs, generate true t inits n = Some (prog, outs) /\ length outs = length inits /\
    forall env xs tr, Forall2 (fun v x => env (fst v) = Some (DT x)) inits xs -> runs [] t tr ->
      exists env', execs A f prog env = Some env' /\ (forall k, (k < n)%nat -> env' k = env k) /\
        Forall2 (fun v x => env' (fst v) = Some (DT x)) outs (fold_left (fun xs zs => f zs xs) (rev tr) xs).
Proof.
  intros Hf W Lp Ub Ne B.
  destruct (visit_ok A f Hf true t [] (mk [] inits [] n)) as (is & ys & s' & E & _ & _ & N & _ & (more & M & Hl) & X); auto.
  { split; [|split; [|split]]; cbn; auto; [intros y []|intros y v; discriminate]. }
  destruct (Hl Lp) as (rest & ->). cbn [app created] in M. unfold generate. rewrite E, M. exists is, ys. split; [reflexivity|]. split; [exact N|].
  intros env xs tr C R. destruct (X [] env xs tr) as (e' & Q & G & C'); auto. { intros y z; discriminate. }
  exists e'. auto.
Qed.
Print Assumptions C74_reversed.

(** The expressions: operations computed with 32 bits, of the type that belongs to the kind of the expression. *)
Theorem C74_expression A (f : list Z -> list A -> list A) names e k ivs n :
  kinded names e = Some k -> (forall y, In y names -> exists i, find y ivs = Some (i, I32) /\ (i < n)%nat) ->
  exists prog v n', build ivs e n = Some (prog, v, n') /\ snd v = (match k with KInt => I32 | KBool => I1 end) /\
    forall s env x, (forall y z, find y s = Some z -> exists i, find y ivs = Some (i, I32) /\ (i < n)%nat /\ env i = Some (DI z)) ->
      eval s e = Some x ->
      exists env', execs A f prog env = Some env' /\ (forall j, (j < n)%nat -> env' j = env j) /\
        env' (fst v) = Some (match x with IInt z => DI z | IBool b => DB b end).
Proof.
  intros K Sc. destruct (build_ok A f names e ivs n k K Sc) as (is & v & n' & E & _ & _ & T & X). exists is, v, n'. split; [exact E|]. split; [now destruct k|].
  intros s env x H Ex. destruct (X s env x H Ex) as (e' & Q & G & V & _). exists e'. auto.
Qed.
Print Assumptions C74_expression.

(** ** A nest as isl creates it: a loop with a guarded inner loop and arithmetic in the statement.
    for (c0 = 0; c0 <= 2; c0 += 1) if (c0 % 2 == 0) for (c1 = c0; c1 < 4 + c0; c1 += 2) S(c0, c1 floordiv 2) *)
Definition nest : node :=
  NFor "c0" (EInt 0) (EOp OLe [EId "c0"; EInt 2]) (EInt 1)
    (NIf (EOp OEq [EOp OPdivR [EId "c0"; EInt 2]; EInt 0])
       (NFor "c1" (EId "c0") (EOp OLt [EId "c1"; EOp OAdd [EInt 4; EId "c0"]]) (EInt 2)
          (NUser [EId "c0"; EOp OFdivQ [EId "c1"; EInt 2]])) None).
(** a body that writes down its indices *)
Definition note (zs : list Z) (xs : list (list (list Z))) : list (list (list Z)) := map (fun l => l ++ [zs]) xs.
Definition start : env (list (list Z)) := fun k => if Nat.eqb k 0 then Some (DT []) else None.
Definition outcome (rev : bool) (t : node) : option (list (option (datum (list (list Z))))) :=
  let* (prog, outs) := generate rev t [(0%nat, Data)] 1 in
  let* e := execs (list (list Z)) note prog start in Some (map (fun v => e (fst v)) outs).

Example C74_nonvacuous :
  isl_tree [] nest /\ is_loop nest /\ unblocked nest /\ runs [] nest [[0; 0]; [0; 1]; [2; 1]; [2; 2]] /\
  outcome false nest = Some [Some (DT [[0; 0]; [0; 1]; [2; 1]; [2; 2]])] /\ outcome true nest = Some [Some (DT [[2; 2]; [2; 1]; [0; 1]; [0; 0]])].
Proof.
  split; [|split; [|split; [|split; [|split]]]]; try reflexivity.
  - cbn [isl_tree nest]. split; [easy|]. split; [reflexivity|]. split; [exists OLe, (EInt 2); auto|]. split; [exists 1; easy|].
    split; [reflexivity|]. split; [|exact I]. split; [intros [H|[]]; discriminate|]. split; [reflexivity|].
    split; [exists OLt, (EOp OAdd [EInt 4; EId "c0"]); auto|]. split; [exists 2; easy|]. repeat constructor.
  - cbn. auto.
  - apply runs_for with (v := 0); [reflexivity|].
    change [[0; 0]; [0; 1]; [2; 1]; [2; 2]] with ([[0; 0]; [0; 1]] ++ [] ++ [[2; 1]; [2; 2]] ++ []).
    apply loops_step with (d := 1); [reflexivity| |reflexivity|].
    { apply runs_then; [reflexivity|]. apply runs_for with (v := 0); [reflexivity|].
      change [[0; 0]; [0; 1]] with ([[0; 0]] ++ [[0; 1]] ++ []).
      apply loops_step with (d := 2); [reflexivity|now apply runs_user|reflexivity|]. apply loops_step with (d := 2); [reflexivity|now apply runs_user|reflexivity|]. now apply loops_done. }
    apply loops_step with (d := 1); [reflexivity|now apply runs_skip|reflexivity|].
    apply loops_step with (d := 1); [reflexivity| |reflexivity|].
    { apply runs_then; [reflexivity|]. apply runs_for with (v := 2); [reflexivity|].
      change [[2; 1]; [2; 2]] with ([[2; 1]] ++ [[2; 2]] ++ []).
      apply loops_step with (d := 2); [reflexivity|now apply runs_user|reflexivity|]. apply loops_step with (d := 2); [reflexivity|now apply runs_user|reflexivity|]. now apply loops_done. }
    now apply loops_done.
Qed.

(** ** Where the generator falls short of what isl may hand over *)
Definition count (n : Z) (name : string) (body : node) : node := NFor name (EInt 0) (EOp OLt [EId name; EInt n]) (EInt 1) body.
Lemma count_runs s name body ts : small (Z.of_nat (length ts)) = true -> (forall i, (i < length ts)%nat -> runs ((name, Z.of_nat i) :: s) body (nth i ts [])) ->
  runs s (count (Z.of_nat (length ts)) name body) (concat ts).
Proof.
  intros Sm H. apply runs_for with (v := 0); [reflexivity|]. pose proof (proj1 (small_iff _) Sm) as B.
  assert (G : forall us k, (k + length us = length ts)%nat -> (forall i, (i < length us)%nat -> runs ((name, Z.of_nat (k + i)) :: s) body (nth i us [])) ->
    loops s name (EOp OLt [EId name; EInt (Z.of_nat (length ts))]) (EInt 1) body (Z.of_nat k) (concat us)).
  { induction us as [|u us IH]; intros k E Hr.
    - apply loops_done. cbn [eval map all find]. rewrite String.eqb_refl. unfold int. rewrite Sm. cbn [length] in E. rewrite (proj2 (small_iff _)) by lia.
      cbn [apply]. do 2 f_equal. apply Z.ltb_ge. lia.
    - cbn [concat]. cbn [length] in E. apply loops_step with (d := 1).
      + cbn [eval map all find]. rewrite String.eqb_refl. unfold int. rewrite Sm, (proj2 (small_iff _)) by lia. cbn [apply]. do 2 f_equal. apply Z.ltb_lt. lia.
      + specialize (Hr 0%nat). rewrite Nat.add_0_r in Hr. apply Hr. cbn. lia.
      + reflexivity.
      + replace (Z.of_nat k + 1) with (Z.of_nat (S k)) by lia. apply IH; [lia|]. intros i Hi. specialize (Hr (S i)). replace (S k + i)%nat with (k + S i)%nat by lia. apply Hr. cbn. lia. }
  apply (G ts 0%nat); [reflexivity|exact H].
Qed.

(** The loop that is returned is the first that was created: when the tree starts with a block of two loops the effect of the second is lost. *)
Theorem C74_block_refuted : exists t tr, isl_tree [] t /\ runs [] t tr /\ outcome false t <> None /\ outcome false t <> Some [Some (DT tr)].
Proof.
  exists (NBlock [count 2 "c0" (NUser [EId "c0"]); count 1 "c0" (NUser [EOp OAdd [EId "c0"; EInt 2]])]), [[0]; [1]; [2]].
  split; [|split; [|split; vm_compute; discriminate]].
  - assert (C : forall n e, 0 < n -> kinded ["c0"%string] e = Some KInt -> isl_tree [] (count n "c0" (NUser [e]))).
    { intros n e Hn K. split; [easy|]. split; [reflexivity|]. split; [exists OLt, (EInt n); auto|]. split; [exists 1; easy|]. now constructor. }
    split; [|split; [|exact I]]; apply C; try lia; reflexivity.
  - apply runs_block. change [[0]; [1]; [2]] with ([[0]; [1]] ++ [[2]] ++ []). apply runs_cons; [|apply runs_cons; [|constructor]].
    + apply (count_runs [] "c0" _ [[[0]]; [[1]]]); [reflexivity|]. intros [|[|i]] Hi; cbn in Hi; [| |lia]; now apply runs_user.
    + apply (count_runs [] "c0" _ [[[2]]]); [reflexivity|]. intros [|i] Hi; cbn in Hi; [|lia]; now apply runs_user.
Qed.
Print Assumptions C74_block_refuted.

(** A tree without any loop, for a relation of one point, has no loop to return. *)
Theorem C74_no_loop_refuted : exists t tr, isl_tree [] t /\ runs [] t tr /\ generate false t [(0%nat, Data)] 1 = None.
Proof. exists (NUser [EInt 0; EInt 0]), [[0; 0]]. split; [repeat constructor|]. split; [now apply runs_user|reflexivity]. Qed.
Print Assumptions C74_no_loop_refuted.

(** Reversal keeps the order of the children of a block. *)
Theorem C74_reversed_block_refuted : exists t tr,
  isl_tree [] t /\ is_loop t /\ runs [] t tr /\ outcome true t <> None /\ outcome true t <> Some [Some (DT (rev tr))].
Proof.
  exists (count 2 "c0" (NBlock [NUser [EId "c0"; EInt 0]; NUser [EId "c0"; EInt 1]])), [[0; 0]; [0; 1]; [1; 0]; [1; 1]].
  split; [|split; [exact I|split; [|split; vm_compute; discriminate]]].
  - split; [easy|]. split; [reflexivity|]. split; [exists OLt, (EInt 2); auto|]. split; [exists 1; easy|]. split; [repeat constructor|split; [repeat constructor|exact I]].
  - apply (count_runs [] "c0" _ [[[0; 0]; [0; 1]]; [[1; 0]; [1; 1]]]); [reflexivity|]. intros [|[|i]] Hi; cbn in Hi; [| |lia]; cbn [nth];
      apply runs_block; (match goal with |- runs_list _ _ [?a; ?b] => change [a; b] with ([a] ++ [b] ++ []) end);
      (apply runs_cons; [now apply runs_user|apply runs_cons; [now apply runs_user|constructor]]).
Qed.
Print Assumptions C74_reversed_block_refuted.
