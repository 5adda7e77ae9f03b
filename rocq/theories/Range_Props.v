(** C92: ranges bound the values. *)
From Coq Require Import List Bool ZArith QArith Qabs Lia Lqa.
From Verif Require Import Range_Spec Range_Model Range_Proofs.
Import ListNotations.
Local Open Scope Q_scope.

(** When the solver has stopped, in whatever order it visited the operations, every value that the program may compute is
    bounded by its range. The conditions: dense integers are not negative; values that are merged have ranges; and every other
    operation gives elements that are not larger than those of its first operand with a range. *)
Theorem C92_sound_partial input program (other : nat -> list value -> value -> Prop) st :
  visited input program st -> stable input program st ->
  (forall v c, nth_error program v = Some (Const c) -> harmless c) ->
  (forall v l a, nth_error program v = Some (Merge l) -> In a l -> st a <> None) ->
  (forall v pre a post xs z b, nth_error program v = Some (Other (pre ++ a :: post)) -> (forall p, In p pre -> st p = None) -> st a <> None ->
     other v xs z -> bounded b (nth (length pre) xs []) -> bounded b z) ->
  forall e, reached program input other e -> forall v x b, e v = Some x -> st v = Some b -> bounded b x.
Proof. intros. now apply (sound input program other st) with (e := e) (v := v). Qed.
Print Assumptions C92_sound_partial.

(** Without loops one pass in the order of the program is enough. *)
Theorem C92_one_pass input program st : in_order program -> pass input (fun _ => None) 0 program = Some st ->
  visited input program st /\ stable input program st.
Proof.
  intros O P. apply (pass_ok input program O program [] (fun _ => None) st); [easy|constructor|easy| |easy]. intros v o L. cbn in L. lia.
Qed.
Print Assumptions C92_one_pass.
(** It gives ranges to all values of programs of arguments, constants, sums, products, insertions and operations with operands. *)
Definition no_crash (c : constant) : Prop :=
  match c with CInt z => z <> (- 2 ^ 63)%Z | CFloats l => l <> [] | CInts _ l => l <> [] | CResource _ => False | CFloat _ => True end.
Lemma max_float_some l : forall a, exists m, max_float (Some a) l = Some m.
Proof. induction l as [|q l IH]; intros a; cbn; [now exists a|]. destruct (Qle_bool (Qabs q) a); apply IH. Qed.
Lemma max_int_some w l : forall a, exists m, max_int w (Some a) l = Some m.
Proof. induction l as [|q l IH]; intros a; cbn; [now exists a|]. destruct (a <=? clear_sign_bit w q)%Z; apply IH. Qed.
Lemma constant_some c : no_crash c -> exists q, constant_range c = Range q.
Proof.
  destruct c as [f|z|l|w l|l]; cbn [no_crash constant_range]; intros H.
  - now eexists.
  - destruct (Z.eqb_spec z (- 2 ^ 63)); [easy|now eexists].
  - destruct l as [|q l]; [easy|]. cbn. destruct (max_float_some l (Qabs q)) as (m & ->). now exists m.
  - destruct l as [|z l]; [easy|]. cbn. destruct (max_int_some w l (clear_sign_bit w z)) as (m & ->). now eexists.
  - easy.
Qed.
Theorem C92_all_known input program : in_order program ->
  (forall v o, nth_error program v = Some o -> match o with Const c => no_crash c | Other l | Merge l => l <> [] | _ => True end) ->
  exists st, pass input (fun _ => None) 0 program = Some st /\ forall v, (v < length program)%nat -> st v <> None.
Proof.
  intros O W.
  assert (A : forall l done st, program = done ++ l -> (forall v, (v < length done)%nat -> st v <> None) ->
    exists st', pass input st (length done) l = Some st' /\ forall v, (v < length program)%nat -> st' v <> None).
  { induction l as [|o l IH]; intros done st E H.
    - exists st. split; [easy|]. rewrite E, app_nil_r. easy.
    - assert (En : nth_error program (length done) = Some o) by (rewrite E, nth_error_app2, Nat.sub_diag by lia; reflexivity).
      assert (T : exists q, transfer input st o = Range q).
      { specialize (O _ _ En). specialize (W _ _ En). destruct o as [|a b|a b|c|a|a b|m|m]; cbn [transfer operands] in *.
        - now eexists.
        - pose proof (H a (O a (or_introl eq_refl))). pose proof (H b (O b (or_intror (or_introl eq_refl)))). destruct (st a), (st b); try easy. now eexists.
        - pose proof (H a (O a (or_introl eq_refl))). pose proof (H b (O b (or_intror (or_introl eq_refl)))). destruct (st a), (st b); try easy. now eexists.
        - now apply constant_some.
        - pose proof (H a (O a (or_introl eq_refl))). destruct (st a); [now eexists|easy].
        - pose proof (H a (O a (or_introl eq_refl))). pose proof (H b (O b (or_intror (or_introl eq_refl)))). destruct (st a), (st b); try easy. now eexists.
        - destruct m as [|a m]; [easy|]. cbn. pose proof (H a (O a (or_introl eq_refl))). destruct (st a); [now eexists|easy].
        - destruct m as [|a m]; [easy|]. pose proof (H a (O a (or_introl eq_refl))) as Ha.
          pose proof (proj2 (fold_join_none st (a :: m) None) (or_intror (ex_intro _ a (conj (or_introl eq_refl) Ha)))) as N.
          destruct (fold_left (fun (s0 : state) (v : nat) => join s0 (st v)) (a :: m) None); [now eexists|easy]. }
      destruct T as (q & T). cbn [pass]. unfold visit. rewrite T.
      replace (S (length done)) with (length (done ++ [o])) by (rewrite app_length; cbn; lia).
      apply IH; [now rewrite <- app_assoc|]. intros v L. rewrite app_length in L. cbn in L. cbn.
      destruct (Nat.eqb_spec v (length done)) as [->|N]; [destruct (st (length done)); discriminate|]. apply H. lia. }
  apply (A program [] (fun _ => None)); [easy|]. intros v L. cbn in L. lia.
Qed.
Print Assumptions C92_all_known.

(** x * c + y with c a table, and a rotation of it. *)
Definition example : list op := [Argument; Argument; Const (CFloats [1 # 2; - (3 # 1); 2 # 1]); Mul 0 2; Add 3 1; Other [4%nat; 1%nat]; Insert 1 5].
Example C92_nonvacuous : in_order example /\
  (exists st, pass 2 (fun _ => None) 0 example = Some st /\
     map st [3; 4; 5; 6]%nat = [Some 6; Some 8; Some 8; Some 8]) /\
  reached example 2 (fun _ xs z => forall q, In q z -> In q (nth 0 xs []))
    (store (store (store (fun _ => None) 0 [1; 2; - (2)]) 2 [1 # 2; - (3 # 1); 2 # 1]) 3 [1 * (1 # 2); 2 * - (3 # 1); - (2) * (2 # 1)]).
Proof.
  split; [|split].
  - intros v o E w I. do 7 (destruct v as [|v]; [cbn in E; injection E as <-; cbn in I; repeat (destruct I as [<-|I]; [lia|]); destruct I|]). destruct v; discriminate E.
  - eexists. split; [vm_compute; reflexivity|]. vm_compute. reflexivity.
  - eapply reached_step with (o := Mul 0 2); [eapply reached_step with (o := Const _); [eapply reached_step with (o := Argument); [constructor|reflexivity|]|reflexivity|constructor 4]|reflexivity|].
    + constructor. intros q [<-|[<-|[<-|[]]]]; vm_compute; intros E; discriminate E.
    + apply (gives_mul _ _ _ _ 0 2 [1; 2; - (2)] [1 # 2; - (3 # 1); 2 # 1]); reflexivity.
Qed.

(** A difference gets the range of its first operand: arith.subf and arith.subi have no case of their own. *)
Definition difference (v : nat) (xs : list value) (z : value) : Prop := z = zip_with Qminus (nth 0 xs []) (nth 1 xs []).
Theorem C92_subtraction_refuted : exists program st e x b,
  pass 1 (fun _ => None) 0 program = Some st /\ in_order program /\ program = [Argument; Argument; Other [0; 1]%nat] /\
  reached program 1 difference e /\ e 2%nat = Some x /\ st 2%nat = Some b /\ ~ bounded b x.
Proof.
  exists [Argument; Argument; Other [0; 1]%nat]. eexists. exists (store (store (store (fun _ => None) 0 [1]) 1 [- (1)]) 2 [1 - - (1)]), [1 - - (1)], 1.
  split; [vm_compute; reflexivity|]. split.
  { intros v o E w I. do 3 (destruct v as [|v]; [cbn in E; injection E as <-; cbn in I; repeat (destruct I as [<-|I]; [lia|]); destruct I|]). destruct v; discriminate E. }
  split; [reflexivity|]. split.
  { assert (B : forall q, q = 1 \/ q = - (1) -> bounded 1 [q]) by (intros q [->| ->] r [<-|[]]; vm_compute; intros E; discriminate E).
    eapply reached_step with (o := Other _); [eapply reached_step with (o := Argument); [eapply reached_step with (o := Argument); [constructor|reflexivity|]|reflexivity|]|reflexivity|].
    - constructor. apply B. now left.
    - constructor. apply B. now right.
    - apply (gives_other _ _ _ _ [0; 1]%nat [[1]; [- (1)]]); reflexivity. }
  split; [reflexivity|]. split; [reflexivity|]. intros B. specialize (B _ (or_introl eq_refl)). vm_compute in B. now apply B.
Qed.
Print Assumptions C92_subtraction_refuted.

(** Dense integers lose their sign bit instead of their sign: -127 of 8 bits gets the range 1, a tensor of i1 the range 0. *)
Theorem C92_dense_integers_refuted :
  constant_range (CInts 8 [-127]%Z) = Range 1 /\ ~ bounded 1 (constant_value (CInts 8 [-127]%Z)) /\
  constant_range (CInts 8 [-128]%Z) = Range 0 /\ ~ bounded 0 (constant_value (CInts 8 [-128]%Z)) /\
  constant_range (CInts 1 [-1]%Z) = Range 0 /\ ~ bounded 0 (constant_value (CInts 1 [-1]%Z)).
Proof.
  repeat split; intros B; specialize (B _ (or_introl eq_refl)); vm_compute in B; now apply B.
Qed.
Print Assumptions C92_dense_integers_refuted.

(** A value without a range counts as not yet reached: merged with one that has a range, it is not bounded by it. *)
Theorem C92_unknown_refuted : exists program st e x b,
  pass 1 (fun _ => None) 0 program = Some st /\ in_order program /\ program = [Argument; Const (CResource [5]); Merge [0; 1]%nat] /\
  reached program 1 difference e /\ e 2%nat = Some x /\ st 2%nat = Some b /\ ~ bounded b x.
Proof.
  exists [Argument; Const (CResource [5]); Merge [0; 1]%nat]. eexists. exists (store (store (fun _ => None) 1 [5]) 2 [5]), [5], 1.
  split; [vm_compute; reflexivity|]. split.
  { intros v o E w I. do 3 (destruct v as [|v]; [cbn in E; injection E as <-; cbn in I; repeat (destruct I as [<-|I]; [lia|]); destruct I|]). destruct v; discriminate E. }
  split; [reflexivity|]. split.
  { eapply reached_step with (o := Merge _); [eapply reached_step with (o := Const _); [constructor|reflexivity|constructor 4]|reflexivity|].
    apply (gives_merge _ _ _ _ [0; 1]%nat 1%nat); [right; now left|reflexivity]. }
  split; [reflexivity|]. split; [reflexivity|]. intros B. specialize (B _ (or_introl eq_refl)). vm_compute in B. now apply B.
Qed.
Print Assumptions C92_unknown_refuted.

(** With a sum that is carried around a loop there is nothing for the solver to stop at. *)
Theorem C92_loop_refuted input st : 0 < input -> ~ stable input [Argument; Merge [0; 2]%nat; Add 1 0] st.
Proof.
  intros Hi S. destruct (stable_bound input _ st 0 Argument input S eq_refl eq_refl) as (r & E0 & L0).
  assert (F : fold_left (fun s v => join s (st v)) [0; 2]%nat None <> None).
  { apply fold_join_none. right. exists 0%nat. split; [now left|now rewrite E0]. }
  destruct (fold_left (fun s v => join s (st v)) [0; 2]%nat None) as [m|] eqn:M; [|easy].
  destruct (stable_bound input _ st 1 (Merge [0; 2]%nat) m S eq_refl) as (b & E1 & L1); [unfold transfer; rewrite M; reflexivity|].
  destruct (stable_bound input _ st 2 (Add 1 0) (0 + b + r) S eq_refl) as (c & E2 & L2); [cbn [transfer]; now rewrite E1, E0|].
  apply fold_join_bound in M. destruct M as [_ M]. pose proof (M 2%nat c ltac:(right; now left) E2). lra.
Qed.
Print Assumptions C92_loop_refuted.
