(** Lemmas about operation balancing. *)

From Coq Require Import List Bool Arith Lia Permutation.
From Verif Require Import Balance_Model.
Import ListNotations.

(** * The tree *)

Fixpoint leaves (t : tree) : list nat :=
  match t with Leaf v => [v] | Node l r => leaves l ++ leaves r end.
(** Number of operations on the longest path. *)
Fixpoint height (t : tree) : nat :=
  match t with Leaf _ => 0 | Node l r => S (max (height l) (height r)) end.

Lemma firstn_skipn_len {A} (l : list A) n :
  length (firstn n l) = min n (length l) /\ length (skipn n l) = length l - n.
Proof. split; [apply firstn_length|apply skipn_length]. Qed.

Lemma balanced_tree_aux_ok fuel : forall l,
  2 <= length l -> length l <= fuel ->
  exists t, balanced_tree_aux fuel l = Some t /\ leaves t = l /\
            height t = Nat.log2_up (length l).
Proof.
  induction fuel as [|fuel IH]; intros l H2 Hf; [lia|].
  destruct l as [|a [|b [|c [|d l]]]]; try (cbn in H2; lia).
  - exists (Node (Leaf a) (Leaf b)). repeat split.
  - cbn [balanced_tree_aux].
    destruct (IH [a; b]) as (t & E & L & H); [cbn; lia|cbn in *; lia|].
    rewrite E. exists (Node t (Leaf c)). split; [reflexivity|]. split.
    + cbn. now rewrite L.
    + cbn [height]. rewrite H. reflexivity.
  - set (l0 := a :: b :: c :: d :: l) in *.
    change (balanced_tree_aux (S fuel) l0) with
      (let n := length l0 / 2 in
       match balanced_tree_aux fuel (firstn n l0), balanced_tree_aux fuel (skipn n l0) with
       | Some l, Some r => Some (Node l r)
       | _, _ => None
       end).
    cbv zeta. set (n := length l0 / 2).
    assert (Hl : 4 <= length l0) by (unfold l0; cbn; lia).
    assert (Hn : 2 * n <= length l0 /\ length l0 <= 2 * n + 1).
    { unfold n. generalize (Nat.div_mod (length l0) 2 ltac:(lia)).
      generalize (Nat.mod_upper_bound (length l0) 2 ltac:(lia)). lia. }
    destruct (firstn_skipn_len l0 n) as [E1 E2].
    destruct (IH (firstn n l0)) as (t1 & A1 & L1 & H1); [lia|lia|].
    destruct (IH (skipn n l0)) as (t2 & A2 & L2 & H2'); [lia|lia|].
    rewrite A1, A2. exists (Node t1 t2). split; [reflexivity|]. split.
    + cbn. rewrite L1, L2. apply firstn_skipn.
    + cbn [height]. rewrite H1, H2', E1, E2.
      rewrite Nat.min_l by lia.
      rewrite Nat.max_r by (apply Nat.log2_up_le_mono; lia).
      destruct (Nat.eq_dec (length l0) (2 * n)) as [E|E].
      * rewrite E. replace (2 * n - n) with n by lia.
        rewrite Nat.log2_up_double by lia. reflexivity.
      * assert (Eo : length l0 = S (2 * n)) by lia. rewrite Eo.
        replace (S (2 * n) - n) with (S n) by lia.
        rewrite <- (Nat.log2_up_double (S n)) by lia.
        (* log2_up (2n+2) = log2_up (2n+1) *)
        apply Nat.le_antisymm; [|apply Nat.log2_up_le_mono; lia].
        set (k := Nat.log2_up (S (2 * n))).
        generalize (Nat.log2_up_spec (S (2 * n)) ltac:(lia)). fold k. intros [_ Hk].
        assert (Hk0 : k <> 0).
        { intros K0. rewrite K0, Nat.pow_0_r in Hk. lia. }
        destruct k as [|k']; [lia|].
        apply Nat.log2_up_le_pow2; [lia|].
        change (2 ^ S k') with (2 * 2 ^ k') in *. lia.
Qed.

Lemma balanced_tree_ok l :
  2 <= length l ->
  exists t, balanced_tree l = Some t /\ leaves t = l /\ height t = Nat.log2_up (length l).
Proof. intros H. apply balanced_tree_aux_ok; [assumption|lia]. Qed.

Lemma group_public_perm p l : Permutation (group_public p l) l.
Proof.
  unfold group_public. induction l as [|x l IH]; [constructor|].
  cbn [filter]. destruct (p x); cbn [negb app].
  - now constructor.
  - etransitivity; [apply Permutation_sym, Permutation_middle|]. now constructor.
Qed.

(** * Evaluation *)

Section Eval.
Context {V : Type} (op : V -> V -> V).
Hypothesis op_assoc : forall a b c, op a (op b c) = op (op a b) c.
Hypothesis op_comm : forall a b, op a b = op b a.

(** Fold of a non-empty list. *)
Definition fold1 (l : list V) (d : V) : V :=
  match l with [] => d | x :: l' => fold_left op l' x end.

Lemma fold_left_op l a b : fold_left op l (op a b) = op a (fold_left op l b).
Proof.
  revert a b. induction l as [|x l IH]; intros a b; [reflexivity|].
  cbn. rewrite <- op_assoc. apply IH.
Qed.

Lemma fold1_app l1 l2 d : l1 <> [] -> l2 <> [] ->
  fold1 (l1 ++ l2) d = op (fold1 l1 d) (fold1 l2 d).
Proof.
  destruct l1 as [|x l1]; [congruence|]. destruct l2 as [|y l2]; [congruence|]. intros _ _.
  cbn. rewrite fold_left_app. cbn. apply fold_left_op.
Qed.

Lemma fold1_perm l1 l2 d : Permutation l1 l2 -> fold1 l1 d = fold1 l2 d.
Proof.
  induction 1 as [|x l1 l2 Hp IH|x y l|l1 l2 l3 _ IH1 _ IH2].
  - reflexivity.
  - destruct l1 as [|a l1].
    + apply Permutation_nil in Hp. now subst.
    + destruct l2 as [|b l2]; [symmetry in Hp; apply Permutation_nil in Hp; discriminate|].
      change (x :: a :: l1) with ([x] ++ a :: l1). change (x :: b :: l2) with ([x] ++ b :: l2).
      rewrite !fold1_app by discriminate. now rewrite IH.
  - cbn. now rewrite (op_comm y x).
  - congruence.
Qed.

Fixpoint eval_tree (e : nat -> V) (t : tree) : V :=
  match t with Leaf v => e v | Node l r => op (eval_tree e l) (eval_tree e r) end.

Lemma leaves_ne t : leaves t <> [].
Proof. induction t; cbn; [discriminate|]. destruct (leaves t1); [congruence|discriminate]. Qed.

Lemma eval_tree_leaves e t d : eval_tree e t = fold1 (map e (leaves t)) d.
Proof.
  induction t as [v|l IHl r IHr]; [reflexivity|].
  cbn. rewrite map_app, fold1_app, <- IHl, <- IHr; [reflexivity| |];
    intros E; apply map_eq_nil in E; exact (leaves_ne _ E).
Qed.
End Eval.

(** * Blocks *)

(** Operands are defined earlier in the block. *)
Definition ssa (b : block) : Prop :=
  (forall i o a, nth_error (ops b) i = Some o -> In a (args_of o) -> a < i) /\
  (forall a, In a (outs b) -> a < length (ops b)).

Section Blocks.
Context {V : Type} (op : V -> V -> V) (other : nat -> list V -> V).

(** [e] gives the values computed by the block; [other i] is the function
    computed by the operation [i] when it is not of the balanced type. *)
Definition computes (b : block) (e : nat -> V) : Prop :=
  forall i o, nth_error (ops b) i = Some o ->
    e i = match o with
          | Bin l r => op (e l) (e r)
          | Other args => other i (map e args)
          end.

Definition lift2 (a b : option V) : option V :=
  match a, b with Some x, Some y => Some (op x y) | _, _ => None end.
Fixpoint all_some (l : list (option V)) : option (list V) :=
  match l with
  | [] => Some []
  | Some x :: l' => match all_some l' with Some r => Some (x :: r) | None => None end
  | None :: _ => None
  end.
Fixpoint tree_value (e : nat -> option V) (t : tree) : option V :=
  match t with Leaf v => e v | Node l r => lift2 (tree_value e l) (tree_value e r) end.

(** The values computed by the new block; an erased operation has none, and
    an operation with an operand without value has none. *)
Definition new_computes (ds : list (option new_def)) (e : nat -> option V) : Prop :=
  forall i d, nth_error ds i = Some d ->
    e i = match d with
          | Some (Keep (Bin l r)) => lift2 (e l) (e r)
          | Some (Keep (Other args)) =>
              match all_some (map e args) with
              | Some vs => Some (other i vs)
              | None => None
              end
          | Some (Rebuilt t) => tree_value e t
          | Some Erased => None
          | None => None
          end.

Hypothesis op_assoc : forall a b c, op a (op b c) = op (op a b) c.
Hypothesis op_comm : forall a b, op a b = op b a.

Variable b : block.
Hypothesis Hssa : ssa b.
Variable e : nat -> V.
Hypothesis He : computes b e.

Lemma inner_spec v l r : inner b v = Some (l, r) ->
  nth_error (ops b) v = Some (Bin l r) /\ has_one_use b v = true.
Proof.
  unfold inner. destruct (nth_error (ops b) v) as [[l' r'|args]|]; try discriminate.
  destruct (has_one_use b v); [|discriminate]. intros H. injection H as <- <-. auto.
Qed.

Lemma collect_ok fuel : forall v os ds d,
  v <= fuel -> collect b fuel v = (os, ds) ->
  os <> [] /\ fold1 op (map e os) d = e v /\
  (forall x, In x os -> x <= v /\ inner b x = None) /\
  (forall x, In x ds -> inner b x <> None /\ 
     (x = v \/ exists p o, In p ds /\ nth_error (ops b) p = Some o /\ In x (args_of o))) /\
  (ds <> [] -> In v ds).
Proof.
  induction fuel as [|fuel IH]; intros v os ds d Hv Hc.
  - cbn in Hc. injection Hc as <- <-.
    assert (v = 0) as -> by lia.
    split; [discriminate|]. split; [reflexivity|]. split; [|split; [intros x []|congruence]].
    intros x [<-|[]]. split; [lia|].
    destruct (inner b 0) as [[l r]|] eqn:E; [|reflexivity].
    destruct (inner_spec _ _ _ E) as [H _].
    destruct Hssa as [H1 _]. specialize (H1 0 (Bin l r) l H (or_introl eq_refl)). lia.
  - cbn [collect] in Hc. destruct (inner b v) as [[l r]|] eqn:E.
    + destruct (inner_spec _ _ _ E) as [Hn _].
      assert (Hl : l < v) by (apply (proj1 Hssa v (Bin l r)); [assumption|now left]).
      assert (Hr : r < v) by (apply (proj1 Hssa v (Bin l r)); [assumption|right; now left]).
      destruct (collect b fuel l) as [ol dl] eqn:El.
      destruct (collect b fuel r) as [or dr] eqn:Er.
      injection Hc as <- <-.
      destruct (IH l ol dl d ltac:(lia) El) as (A1 & A2 & A3 & A4 & A5).
      destruct (IH r or dr d ltac:(lia) Er) as (B1 & B2 & B3 & B4 & B5).
      split; [destruct ol; [congruence|discriminate]|].
      split.
      { rewrite map_app, fold1_app; [|assumption| |];
          [|intros X; now apply map_eq_nil in X|intros X; now apply map_eq_nil in X].
        rewrite A2, B2. symmetry. exact (He v (Bin l r) Hn). }
      split.
      { intros x Hx. apply in_app_or in Hx. destruct Hx as [Hx|Hx].
        - destruct (A3 x Hx). split; [lia|assumption].
        - destruct (B3 x Hx). split; [lia|assumption]. }
      split.
      { intros x [<-|Hx]; [split; [congruence|now left]|].
        apply in_app_or in Hx. destruct Hx as [Hx|Hx].
        - destruct (A4 x Hx) as [C1 [-> |(p & o & P1 & P2 & P3)]].
          + split; [assumption|right]. exists v, (Bin l r). split; [now left|].
            split; [assumption|now left].
          + split; [assumption|right]. exists p, o. split; [|split; assumption].
            right. apply in_or_app. now left.
        - destruct (B4 x Hx) as [C1 [-> |(p & o & P1 & P2 & P3)]].
          + split; [assumption|right]. exists v, (Bin l r). split; [now left|].
            split; [assumption|right; now left].
          + split; [assumption|right]. exists p, o. split; [|split; assumption].
            right. apply in_or_app. now right. }
      intros _. now left.
    + injection Hc as <- <-.
      split; [discriminate|]. split; [reflexivity|]. split; [|split; [intros x []|congruence]].
      intros x [<-|[]]. split; [lia|assumption].
Qed.

Lemma collect_root_ok v l r os ds d :
  nth_error (ops b) v = Some (Bin l r) ->
  collect_root b v l r = (os, ds) ->
  fold1 op (map e os) d = e v /\
  (forall x, In x os -> x < v /\ inner b x = None) /\
  exists ds', ds = v :: ds' /\
  forall x, In x ds' -> inner b x <> None /\
     exists p o, In p ds /\ nth_error (ops b) p = Some o /\ In x (args_of o).
Proof.
  intros Hn Hc. unfold collect_root in Hc.
  assert (Hl : l < v) by (apply (proj1 Hssa v (Bin l r)); [assumption|now left]).
  assert (Hr : r < v) by (apply (proj1 Hssa v (Bin l r)); [assumption|right; now left]).
  destruct (collect b v l) as [ol dl] eqn:El.
  destruct (collect b v r) as [or dr] eqn:Er.
  injection Hc as <- <-.
  destruct (collect_ok v l ol dl d ltac:(lia) El) as (A1 & A2 & A3 & A4 & _).
  destruct (collect_ok v r or dr d ltac:(lia) Er) as (B1 & B2 & B3 & B4 & _).
  split.
  { rewrite map_app, fold1_app; [|assumption| |];
      [|intros X; now apply map_eq_nil in X|intros X; now apply map_eq_nil in X].
    rewrite A2, B2. symmetry. exact (He v (Bin l r) Hn). }
  split.
  { intros x Hx. apply in_app_or in Hx. destruct Hx as [Hx|Hx].
    - destruct (A3 x Hx). split; [lia|assumption].
    - destruct (B3 x Hx). split; [lia|assumption]. }
  exists (dl ++ dr). split; [reflexivity|].
  intros x Hx. apply in_app_or in Hx. destruct Hx as [Hx|Hx].
  - destruct (A4 x Hx) as [C1 [-> |(p & o & P1 & P2 & P3)]].
    + split; [assumption|]. exists v, (Bin l r). split; [now left|].
      split; [assumption|now left].
    + split; [assumption|]. exists p, o. split; [|split; assumption].
      right. apply in_or_app. now left.
  - destruct (B4 x Hx) as [C1 [-> |(p & o & P1 & P2 & P3)]].
    + split; [assumption|]. exists v, (Bin l r). split; [now left|].
      split; [assumption|right; now left].
    + split; [assumption|]. exists p, o. split; [|split; assumption].
      right. apply in_or_app. now right.
Qed.

Lemma find_roots_In todo visited f :
  In f (find_roots b todo visited) ->
  exists l r, nth_error (ops b) (root f) = Some (Bin l r) /\
              collect_root b (root f) l r = (operands f, deleted f).
Proof.
  revert visited. induction todo as [|v todo IH]; intros visited H; [destruct H|].
  cbn [find_roots] in H.
  destruct (nth_error (ops b) v) as [[l r|args]|] eqn:E; try (now apply IH in H).
  destruct (existsb (Nat.eqb v) visited); [now apply IH in H|].
  destruct (collect_root b v l r) as [os ds] eqn:Ec.
  destruct H as [<-|H]; [|now apply IH in H].
  exists l, r. cbn. auto.
Qed.

(** * Counting uses *)

Lemma count_app (l1 l2 : list nat) x :
  count_occ Nat.eq_dec (l1 ++ l2) x = count_occ Nat.eq_dec l1 x + count_occ Nat.eq_dec l2 x.
Proof. apply count_occ_app. Qed.

Lemma count_flat l p o x :
  nth_error l p = Some o -> In x (args_of o) -> 1 <= count_occ Nat.eq_dec (flat_map args_of l) x.
Proof.
  intros Hn Hx. apply nth_error_In in Hn.
  assert (In x (flat_map args_of l)) by (apply in_flat_map; eauto).
  apply (count_occ_In Nat.eq_dec) in H. lia.
Qed.

Lemma count_two l : forall p q o o' x,
  p < q -> nth_error l p = Some o -> nth_error l q = Some o' ->
  In x (args_of o) -> In x (args_of o') ->
  2 <= count_occ Nat.eq_dec (flat_map args_of l) x.
Proof.
  induction l as [|a l IH]; intros p q o o' x Hpq Hp Hq Ho Ho'; [destruct p; discriminate|].
  cbn [flat_map]. rewrite count_app.
  destruct q as [|q]; [lia|]. cbn in Hq.
  destruct p as [|p].
  - injection Hp as ->. generalize (count_flat l q o' x Hq Ho').
    apply (count_occ_In Nat.eq_dec) in Ho. lia.
  - cbn in Hp. generalize (IH p q o o' x ltac:(lia) Hp Hq Ho Ho'). lia.
Qed.

Lemma one_use_unique x p q o o' :
  has_one_use b x = true ->
  nth_error (ops b) p = Some o -> nth_error (ops b) q = Some o' ->
  In x (args_of o) -> In x (args_of o') -> p = q.
Proof.
  unfold has_one_use, uses. intros H Hp Hq Ho Ho'. apply Nat.eqb_eq in H. rewrite count_app in H.
  destruct (Nat.lt_trichotomy p q) as [L|[L|L]]; [|assumption|].
  - generalize (count_two (ops b) p q o o' x L Hp Hq Ho Ho'). lia.
  - generalize (count_two (ops b) q p o' o x L Hq Hp Ho' Ho). lia.
Qed.

Lemma one_use_not_out x p o :
  has_one_use b x = true ->
  nth_error (ops b) p = Some o -> In x (args_of o) -> ~ In x (outs b).
Proof.
  unfold has_one_use, uses. intros H Hp Ho Hx. apply Nat.eqb_eq in H. rewrite count_app in H.
  generalize (count_flat (ops b) p o x Hp Ho).
  apply (count_occ_In Nat.eq_dec) in Hx. lia.
Qed.

(** An erased operation has exactly one use, in an operation of the same tree. *)
Lemma erased_spec x :
  In x (erased (roots b)) ->
  inner b x <> None /\
  exists f p o, In f (roots b) /\ 2 < length (operands f) /\ In p (deleted f) /\
    nth_error (ops b) p = Some o /\ In x (args_of o).
Proof.
  unfold erased. intros H. apply in_flat_map in H. destruct H as (f & Hf & Hx).
  apply filter_In in Hf. destruct Hf as [Hf Hlen]. apply Nat.ltb_lt in Hlen.
  destruct (find_roots_In _ _ _ Hf) as (l & r & Hn & Hc).
  destruct (collect_root_ok _ _ _ _ _ (e 0) Hn Hc) as (_ & _ & ds' & Ed & Hd).
  rewrite Ed in Hx. cbn in Hx. destruct (Hd x Hx) as [H1 (p & o & H2 & H3 & H4)].
  split; [assumption|]. exists f, p, o. auto.
Qed.

Lemma inner_one_use x : inner b x <> None -> has_one_use b x = true.
Proof. destruct (inner b x) as [[l r]|] eqn:E; [|congruence]. intros _. now apply inner_spec in E. Qed.

Lemma erased_deleted f p :
  In f (roots b) -> 2 < length (operands f) -> In p (deleted f) ->
  p = root f \/ In p (erased (roots b)).
Proof.
  intros Hf Hlen Hp.
  destruct (find_roots_In _ _ _ Hf) as (l & r & Hn & Hc).
  destruct (collect_root_ok _ _ _ _ _ (e 0) Hn Hc) as (_ & _ & ds' & Ed & _).
  rewrite Ed in Hp. destruct Hp as [<-|Hp]; [now left|right].
  unfold erased. apply in_flat_map. exists f. split; [|now rewrite Ed].
  apply filter_In. split; [assumption|]. now apply Nat.ltb_lt.
Qed.

Lemma erased_not_out x : In x (erased (roots b)) -> ~ In x (outs b).
Proof.
  intros H. destruct (erased_spec x H) as [H1 (f & p & o & _ & _ & _ & H2 & H3)].
  exact (one_use_not_out x p o (inner_one_use x H1) H2 H3).
Qed.

(** * Evaluating the new block *)

Lemma tree_value_ok (e' : nat -> option V) t :
  (forall x, In x (leaves t) -> e' x = Some (e x)) -> tree_value e' t = Some (eval_tree op e t).
Proof.
  induction t as [v|l IHl r IHr]; intros H; cbn.
  - apply H. now left.
  - rewrite IHl, IHr; [reflexivity| |]; intros x Hx; apply H; cbn; apply in_or_app; auto.
Qed.

Lemma all_some_ok (e' : nat -> option V) l :
  (forall x, In x l -> e' x = Some (e x)) -> all_some (map e' l) = Some (map e l).
Proof.
  induction l as [|x l IH]; intros H; [reflexivity|].
  cbn. rewrite (H x) by (now left). rewrite IH; [reflexivity|]. intros y Hy. apply H. now right.
Qed.

Lemma nth_error_combine_seq {A} (l : list A) : forall k i,
  nth_error (combine (seq k (length l)) l) i =
  match nth_error l i with Some x => Some (k + i, x) | None => None end.
Proof.
  induction l as [|x l IH]; intros k i; [destruct i; reflexivity|].
  cbn [length seq combine]. destruct i as [|i]; [cbn; now rewrite Nat.add_0_r|].
  cbn [nth_error]. rewrite IH. destruct (nth_error l i); [|reflexivity].
  now replace (S k + i) with (k + S i) by lia.
Qed.

Lemma nth_error_balance public i o :
  nth_error (ops b) i = Some o ->
  nth_error (balance b public) i = Some (balance_def b public i o).
Proof.
  intros H. unfold balance. rewrite nth_error_map, nth_error_combine_seq, H. reflexivity.
Qed.

Lemma new_values_ok public e' :
  new_computes (balance b public) e' ->
  forall i, i < length (ops b) -> ~ In i (erased (roots b)) -> e' i = Some (e i).
Proof.
  intros Hnew i. induction i as [i IH] using lt_wf_ind. intros Hi Hne.
  destruct (nth_error (ops b) i) as [o|] eqn:Eo.
  2:{ apply nth_error_None in Eo. lia. }
  rewrite (Hnew i _ (nth_error_balance public i o Eo)).
  unfold balance_def.
  destruct (find _ _) as [[j ot]|] eqn:Ef.
  - apply find_some in Ef. destruct Ef as [Hin Ej]. cbn in Ej. apply Nat.eqb_eq in Ej. subst j.
    unfold rebuilt in Hin. apply in_map_iff in Hin. destruct Hin as (f & Ep & Hf).
    injection Ep as Er Et. apply filter_In in Hf. destruct Hf as [Hf Hlen]. apply Nat.ltb_lt in Hlen.
    generalize (group_public_perm public (operands f)). intros Hperm.
    destruct (balanced_tree_ok (group_public public (operands f))) as (t & E1 & E2 & _).
    { rewrite (Permutation_length Hperm). lia. }
    rewrite E1 in Et. subst ot.
    destruct (find_roots_In _ _ _ Hf) as (l & r & Hn & Hc).
    destruct (collect_root_ok _ _ _ _ _ (e 0) Hn Hc) as (H1 & H2 & _).
    rewrite Er in *.
    rewrite tree_value_ok.
    + f_equal. rewrite (eval_tree_leaves op op_assoc e t (e 0)), E2.
      rewrite <- H1. apply fold1_perm; [assumption|assumption|].
      now apply Permutation_map.
    + intros x Hx. rewrite E2 in Hx. apply (Permutation_in _ Hperm) in Hx.
      destruct (H2 x Hx) as [H3 H4]. apply IH; [assumption|lia|].
      intros Hx'. destruct (erased_spec x Hx') as [H5 _]. congruence.
  - destruct (existsb (Nat.eqb i) (erased (roots b))) eqn:Ee.
    { apply existsb_exists in Ee. destruct Ee as (x & Hx & Ex). apply Nat.eqb_eq in Ex. now subst. }
    assert (Hargs : forall a, In a (args_of o) -> e' a = Some (e a)).
    { intros a Ha. assert (Hai : a < i) by (exact (proj1 Hssa i o a Eo Ha)).
      apply IH; [assumption|lia|]. intros Hae.
      destruct (erased_spec a Hae) as [H1 (f & p & o' & H2 & H3 & H4 & H5 & H6)].
      assert (p = i) as -> by exact (one_use_unique a p i o' o (inner_one_use a H1) H5 Eo H6 Ha).
      destruct (erased_deleted f i H2 H3 H4) as [H7|H7]; [|contradiction].
      (* i is a rebuilt root *)
      assert (Hin : In (i, balanced_tree (group_public public (operands f)))
                      (rebuilt public (roots b))).
      { unfold rebuilt. apply in_map_iff. exists f. split; [now rewrite H7|].
        apply filter_In. split; [assumption|now apply Nat.ltb_lt]. }
      generalize (find_none _ _ Ef _ Hin). cbn. rewrite Nat.eqb_refl. discriminate. }
    destruct o as [l r|args]; cbn [args_of] in Hargs.
    + rewrite (Hargs l), (Hargs r) by (cbn; auto).
      cbn. f_equal. symmetry. exact (He i _ Eo).
    + rewrite all_some_ok by assumption. f_equal. symmetry. exact (He i _ Eo).
Qed.

Lemma outs_ok public e' :
  new_computes (balance b public) e' ->
  forall x, In x (outs b) -> e' x = Some (e x).
Proof.
  intros Hnew x Hx. apply (new_values_ok public); [assumption|exact (proj2 Hssa x Hx)|].
  intros H. exact (erased_not_out x H Hx).
Qed.

(** Depth of the rebuilt trees. *)
Lemma rebuilt_spec public i t :
  nth_error (balance b public) i = Some (Some (Rebuilt t)) ->
  exists os, 3 <= length os /\ Permutation (leaves t) os /\
             fold1 op (map e os) (e 0) = e i /\ height t = Nat.log2_up (length os) /\
             forall x, In x os -> inner b x = None.
Proof.
  intros H. unfold balance in H. rewrite nth_error_map, nth_error_combine_seq in H.
  destruct (nth_error (ops b) i) as [o|]; [|discriminate H]. cbn in H. injection H as H.
  unfold balance_def in H.
  destruct (find _ _) as [[j ot]|] eqn:Ef.
  - apply find_some in Ef. destruct Ef as [Hin Ej]. cbn in Ej. apply Nat.eqb_eq in Ej. subst j.
    unfold rebuilt in Hin. apply in_map_iff in Hin. destruct Hin as (f & Ep & Hf).
    injection Ep as Er Et. apply filter_In in Hf. destruct Hf as [Hf Hlen]. apply Nat.ltb_lt in Hlen.
    generalize (group_public_perm public (operands f)). intros Hperm.
    destruct (balanced_tree_ok (group_public public (operands f))) as (t' & E1 & E2 & E3).
    { rewrite (Permutation_length Hperm). lia. }
    rewrite E1 in Et. subst ot. injection H as <-.
    destruct (find_roots_In _ _ _ Hf) as (l & r & Hn & Hc).
    destruct (collect_root_ok _ _ _ _ _ (e 0) Hn Hc) as (H1 & H2 & _).
    exists (operands f). split; [lia|]. split; [now rewrite E2|]. split; [now rewrite H1, Er|].
    split; [now rewrite E3, (Permutation_length Hperm)|].
    intros x Hx. now apply H2.
  - destruct (existsb _ _); discriminate H.
Qed.
End Blocks.
