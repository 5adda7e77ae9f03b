(** * The rotation analysis: proofs *)
From Coq Require Import ZArith List Bool Lia Arith.
From Verif Require Import RotKeys_Spec RotKeys_Model.
Import ListNotations.
Open Scope Z_scope.

Scheme op_mut := Induction for op Sort Prop
with block_mut := Induction for block Sort Prop.
Combined Scheme op_block_ind from op_mut, block_mut.

Ltac inv_opt H :=
  repeat match type of H with
  | match ?x with _ => _ end = Some _ =>
      let E := fresh "E" in destruct x eqn:E; try discriminate H
  | option_map _ ?x = Some _ =>
      let E := fresh "E" in destruct x eqn:E; cbn [option_map] in H; try discriminate H
  end.

(** ** Lists *)

Lemma nodup_app {A} (l m : list A) :
  NoDup (l ++ m) -> NoDup l /\ NoDup m /\ (forall x, In x l -> ~ In x m).
Proof.
  induction l as [|a l IH]; cbn; intros H.
  - repeat split; auto. constructor.
  - inversion H as [|? ? H1 H2]; subst. destruct (IH H2) as (I1 & I2 & I3).
    repeat split; auto.
    + constructor; auto. intros C. apply H1, in_or_app. auto.
    + intros x [->|Hx] Hm; [apply H1, in_or_app; auto | eapply I3; eauto].
Qed.

Lemma nodup_app_intro {A} (l m : list A) :
  NoDup l -> NoDup m -> (forall x, In x l -> ~ In x m) -> NoDup (l ++ m).
Proof.
  induction l as [|a l IH]; cbn; intros H1 H2 H3; auto.
  inversion H1; subst. constructor.
  - rewrite in_app_iff. intros [C|C]; [auto | exact (H3 a (or_introl eq_refl) C)].
  - apply IH; auto.
Qed.

Lemma all_in {A B} (f : A -> option B) l bs a :
  all f l = Some bs -> In a l -> exists b, f a = Some b /\ In b bs.
Proof.
  revert bs. induction l as [|c l IH]; cbn; intros bs H Ha; [destruct Ha|].
  inv_opt H. injection H as <-. destruct Ha as [->|Ha].
  - exists b. cbn; auto.
  - destruct (IH _ eq_refl Ha) as (b' & H1 & H2). exists b'. cbn; auto.
Qed.

Lemma all_back {A B} (f : A -> option B) l bs b :
  all f l = Some bs -> In b bs -> exists a, In a l /\ f a = Some b.
Proof.
  revert bs. induction l as [|c l IH]; cbn; intros bs H Hb.
  - injection H as <-. destruct Hb.
  - inv_opt H. injection H as <-. destruct Hb as [->|Hb].
    + exists c. auto.
    + destruct (IH _ eq_refl Hb) as (a & H1 & H2). exists a. auto.
Qed.

Lemma in_names x l : In x (names l) <-> In (X x) l.
Proof.
  unfold names. rewrite in_flat_map. split.
  - intros ([z|y] & H1 & H2); [destruct H2|]. destruct H2 as [<-|[]]. auto.
  - intros H. exists (X x). cbn; auto.
Qed.

Lemma serves_incl n l m a : serves n l a -> incl l m -> serves n m a.
Proof. intros (k & H1 & H2) H. exists k. auto. Qed.

(** ** Numbers *)

Lemma wrap64_small z : - 2 ^ 31 <= z < 2 ^ 31 -> wrap64 z = z.
Proof. intros H. unfold wrap64. rewrite Z.mod_small; lia. Qed.

Lemma int32_some z w : int32 z = Some w -> w = z /\ - 2 ^ 31 <= z < 2 ^ 31.
Proof.
  unfold int32. destruct (_ && _) eqn:E; [|discriminate].
  apply andb_prop in E. rewrite Z.leb_le, Z.ltb_lt in E. intros H. injection H as <-. auto.
Qed.

Lemma eval_bin_run o a b z :
  match o with Cmp p => signed_pred p | _ => true end = true ->
  eval_bin (dag_bin o) a b = Some z -> z = run_bin o a b.
Proof.
  destruct o as [| | |p]; cbn; intros Hs H;
    try (apply int32_some in H as [-> H]; rewrite wrap64_small; auto; fail).
  injection H as <-. destruct p; try discriminate Hs; reflexivity.
Qed.

Lemma eval_div_run a d z :
  eval_div a d = Some z -> d <> 0 /\ z = wrap64 (Z.quot a d).
Proof.
  unfold eval_div. intros H. inv_opt H. apply int32_some in E0 as [-> _].
  apply int32_some in H as [-> H]. rewrite wrap64_small; auto.
  apply Z.eqb_neq in E1. auto.
Qed.

Lemma normalize_mod z n : 0 < n -> normalize z n mod n = z mod n.
Proof.
  intros Hn. unfold normalize.
  assert (H := Z.rem_bound_abs z n ltac:(lia)).
  rewrite (Z.rem_mod_nonneg (Z.rem z n + n) n) by lia.
  rewrite Z.mod_mod by lia.
  rewrite <- (Z.mul_1_l n) at 2. rewrite Z.mod_add by lia.
  rewrite (Z.quot_rem' z n) at 2.
  rewrite Z.add_comm, Z.mul_comm, Z.mod_add by lia. reflexivity.
Qed.

(** ** Static facts *)

Lemma put_results_frame t n k rs x : ~ In x rs -> put_results t n k rs x = t x.
Proof.
  revert t k. induction rs as [|r rs IH]; cbn; intros t k H; auto.
  rewrite IH by tauto. unfold put. destruct (Nat.eqb_spec x r); [subst; tauto|auto].
Qed.

Lemma put_results_in t n k rs r : NoDup rs -> In r rs ->
  exists j, nth_error rs j = Some r /\ put_results t n k rs r = Some (NAt n (k + j)).
Proof.
  revert t k. induction rs as [|y rs IH]; cbn; intros t k H Hr; [destruct Hr|].
  inversion H; subst. destruct (Nat.eq_dec y r) as [->|Hn].
  - exists 0%nat. split; auto. rewrite put_results_frame by auto.
    unfold put. rewrite Nat.eqb_refl. f_equal. f_equal. lia.
  - destruct Hr as [?|Hr]; [congruence|].
    destruct (IH (put t y (NAt n k)) (S k) H3 Hr) as (j & H4 & H5).
    exists (S j). split; auto. rewrite H5. f_equal. f_equal. lia.
Qed.

Lemma put_vars_frame t xs x : ~ In x xs -> put_vars t xs x = t x.
Proof.
  unfold put_vars. revert t. induction xs as [|y xs IH]; cbn; intros t H; auto.
  rewrite IH by tauto. unfold put. destruct (Nat.eqb_spec x y); [subst; tauto|auto].
Qed.

Lemma put_vars_in t xs x : In x xs -> put_vars t xs x = Some (NVar x).
Proof.
  unfold put_vars. revert t. induction xs as [|y xs IH]; cbn; intros t H; [destruct H|].
  destruct (in_dec Nat.eq_dec x xs) as [Hx|Hx]; auto.
  destruct H as [->|H]; [|tauto].
  fold (put_vars (put t x (NVar x)) xs). rewrite put_vars_frame by auto.
  unfold put. rewrite Nat.eqb_refl. auto.
Qed.

Lemma build_frame :
  (forall o t t' x, build_op t o = Some t' -> ~ In x (defs o) -> t' x = t x) /\
  (forall b t t' x, build t b = Some t' -> ~ In x (defsb b) -> t' x = t x).
Proof.
  apply op_block_ind.
  - cbn. intros r o a b t t' x H Hx. injection H as <-. unfold put.
    destruct (Nat.eqb_spec x r); [subst; tauto|auto].
  - cbn. intros r a b t t' x H Hx. inv_opt H. injection H as <-. unfold put.
    destruct (Nat.eqb_spec x r); [subst; tauto|auto].
  - cbn. intros r y shifts t t' x H Hx. injection H as <-. unfold put.
    destruct (Nat.eqb_spec x r); [subst; tauto|auto].
  - cbn. intros. congruence.
  - cbn. intros r args t t' x H Hx. inv_opt H; injection H as <-; auto. unfold put.
    destruct (Nat.eqb_spec x r); [subst; tauto|auto].
  - cbn [build_op defs]. intros rs lb ub step iv args inits body IH ys t t' x H Hx.
    inv_opt H. injection H as <-. cbn in Hx. rewrite !in_app_iff in Hx.
    rewrite put_results_frame by tauto. rewrite (IH _ _ x E2) by tauto.
    rewrite put_vars_frame by tauto. unfold put.
    destruct (Nat.eqb_spec x iv); [subst; tauto|auto].
  - cbn [build_op defs]. intros rs c th IH1 yt el IH2 ye t t' x H Hx.
    inv_opt H. injection H as <-. rewrite !in_app_iff in Hx.
    rewrite put_results_frame by tauto. rewrite (IH2 _ _ x E0) by tauto.
    apply (IH1 _ _ x E). tauto.
  - discriminate.
  - cbn. congruence.
  - cbn [build defsb]. intros o IH1 b IH2 t t' x H Hx. inv_opt H.
    rewrite in_app_iff in Hx. rewrite (IH2 _ _ x H) by tauto. apply (IH1 _ _ x E). tauto.
Qed.

Lemma results_defs o x : In x (results o) -> In x (defs o).
Proof. destruct o; cbn; auto; rewrite ?in_app_iff; tauto. Qed.

Section Sim.
  Variable ty : nat -> bool.
  Variable n : Z.
  Hypothesis n_pos : 0 < n.

  (** ** Running *)

  Lemma set_some r x v r' : set ty r x v = Some r' ->
    is_ct v = ty x /\ r' x = Some v /\ forall y, y <> x -> r' y = r y.
  Proof.
    unfold set. destruct (Bool.eqb _ _) eqn:E; [|discriminate]. intros H. injection H as <-.
    apply eqb_prop in E. repeat split; auto.
    - rewrite Nat.eqb_refl. auto.
    - intros y Hy. destruct (Nat.eqb_spec y x); [tauto|auto].
  Qed.

  Lemma sets_frame r xs vs r' x : sets ty r xs vs = Some r' -> ~ In x xs -> r' x = r x.
  Proof.
    revert r vs. induction xs as [|y xs IH]; intros r [|v vs] H Hx; cbn in H; try discriminate H.
    - congruence.
    - inv_opt H. cbn in Hx. rewrite (IH _ _ H) by tauto. apply set_some in E as (_ & _ & E).
      apply E. intros ->. tauto.
  Qed.

  Lemma sets_in r xs vs r' j x : NoDup xs -> sets ty r xs vs = Some r' ->
    nth_error xs j = Some x -> r' x = nth_error vs j.
  Proof.
    revert r vs j. induction xs as [|y xs IH]; intros r [|v vs] j Hn H Hj; cbn in H; try discriminate H.
    - destruct j; discriminate Hj.
    - inv_opt H. inversion Hn; subst. destruct j as [|j]; cbn in Hj |- *.
      + injection Hj as ->. rewrite (sets_frame _ _ _ _ _ H) by auto.
        apply set_some in E as (_ & E & _). auto.
      + eapply IH; eauto.
  Qed.

  Lemma run_op_frame o r r' L x : run_op ty r o = Some (r', L) ->
    ~ In x (results o) -> r' x = r x.
  Proof.
    destruct o; cbn [run_op results]; intros H Hx.
    6: { inv_opt H. injection H as <- _. eapply sets_frame; eauto. }
    6: { inv_opt H. injection H as <- _. eapply sets_frame; eauto. }
    6: { inv_opt H; injection H as <- _; auto. }
    all: inv_opt H; injection H as <- _;
      match goal with E : set _ _ _ _ = Some _ |- _ => apply set_some in E as (_ & _ & E); apply E end;
      intros ->; apply Hx; cbn; auto.
  Qed.

  Lemma repeat_silent f step k i vs ws L :
    (forall i vs ws l, f i vs = Some (ws, l) -> l = []) ->
    repeat_body f step k i vs = Some (ws, L) -> L = [].
  Proof.
    intros Hf. revert i vs ws L. induction k as [|k IH]; cbn; intros i vs ws L H.
    - congruence.
    - inv_opt H. injection H as _ <-. apply Hf in E. apply IH in E1. subst. auto.
  Qed.

  Lemma run_silent :
    (forall o r r' L, run_op ty r o = Some (r', L) -> rotates o = false -> L = []) /\
    (forall b r r' L, run ty r b = Some (r', L) -> rotatesb b = false -> L = []).
  Proof.
    apply op_block_ind; try (cbn; intros; discriminate).
    - cbn [run_op]. intros. inv_opt H. congruence.
    - cbn [run_op]. intros. inv_opt H. congruence.
    - cbn [run_op]. intros. inv_opt H. congruence.
    - cbn [run_op]. intros. inv_opt H. congruence.
    - cbn [run_op rotates]. intros rs lb ub step iv args inits body IH ys r r' L H Hr.
      inv_opt H. injection H as _ <-. eapply repeat_silent; [|eassumption].
      intros i vs ws lq Hq. cbv beta in Hq. inv_opt Hq. injection Hq as _ <-. eapply IH; eauto.
    - cbn [run_op rotates]. intros rs c th IH1 yt el IH2 ye r r' L H Hr.
      apply orb_false_iff in Hr as [Hr1 Hr2].
      inv_opt H. injection H as _ <-. destruct (z =? 0); eauto.
    - cbn [run_op rotates]. intros c th IH r r' L H Hr. inv_opt H.
      + congruence.
      + injection H as _ <-. destruct p. cbn. eauto.
    - cbn. intros. congruence.
    - cbn [run rotatesb]. intros o IH1 b IH2 r r' L H Hr.
      apply orb_false_iff in Hr as [Hr1 Hr2]. inv_opt H. injection H as _ <-.
      apply IH1 in E; auto. apply IH2 in E1; auto. subst. auto.
  Qed.

  Lemma int_value_value r o z : int_value r o = Some z -> value r o = Some (VInt z).
  Proof. unfold int_value. intros H. inv_opt H. congruence. Qed.

  Lemma all_bound r l vs x : all (value r) l = Some vs -> In x (names l) -> r x <> None.
  Proof.
    intros H Hx. apply in_names in Hx. destruct (all_in _ _ _ _ H Hx) as (v & Hv & _).
    cbn in Hv. congruence.
  Qed.

  Lemma all_int r l zs : all (int_value r) l = Some zs -> all (value r) l = Some (map VInt zs).
  Proof.
    revert zs. induction l as [|a l IH]; cbn [all]; intros zs H.
    - injection H as <-. auto.
    - inv_opt H. injection H as <-. rewrite (int_value_value _ _ _ E). rewrite (IH _ eq_refl). auto.
  Qed.

  Lemma operands_bound o r r' L x : run_op ty r o = Some (r', L) -> In x (operands o) -> r x <> None.
  Proof.
    destruct o; cbn [run_op operands]; intros H Hx; try (destruct Hx; fail).
    - inv_opt H. apply int_value_value in E, E0. apply in_names in Hx.
      destruct Hx as [->|[->|[]]]; cbn in *; congruence.
    - inv_opt H. apply int_value_value in E, E0. apply in_names in Hx.
      destruct Hx as [->|[]]; cbn in *; congruence.
    - inv_opt H. destruct Hx as [<-|Hx]; [congruence|].
      apply all_int in E1. eapply all_bound; eauto.
    - inv_opt H. rewrite forallb_forall in E. specialize (E _ Hx). destruct (r x); congruence.
    - inv_opt H. eapply all_bound; eauto.
    - inv_opt H. apply int_value_value in E. apply in_names in Hx.
      destruct Hx as [->|[]]; cbn in *; congruence.
  Qed.

  (** ** Evaluating *)

  Lemma single_some q v l : single q = Some (v, l) -> q = Some ([v], l).
  Proof. destruct q as [[[|u [|? ?]] m]|]; cbn; congruence. Qed.

  Lemma scalar_some q z l : scalar q = Some (z, l) -> q = Some ([VInt z], l).
  Proof. destruct q as [[[|[u|] [|? ?]] m]|]; cbn; congruence. Qed.

  Lemma evals_in e l vs L m : evals ty n e (nodes_of l) = Some (vs, L) -> In m l ->
    exists v l', eval ty n e m = Some ([v], l') /\ incl l' L.
  Proof.
    revert vs L. induction l as [|a l IH]; cbn [nodes_of evals]; intros vs L H Hm; [destruct Hm|].
    inv_opt H. injection H as <- <-. apply single_some in E.
    destruct Hm as [->|Hm].
    - exists v, l0. split; auto. apply incl_appl, incl_refl.
    - destruct (IH _ _ eq_refl Hm) as (w & l' & H1 & H2). exists w, l'. split; auto.
      apply incl_appr; auto.
  Qed.

  Lemma loops_agree f g step k i vs ws L us l :
    (forall i vs ws L us l, f i vs = Some (ws, L) -> g i vs = Some (us, l) ->
       us = ws /\ forall a, In a L -> serves n l a) ->
    repeat_body f step k i vs = Some (ws, L) -> eval_loop g step k i vs = Some (us, l) ->
    us = ws /\ forall a, In a L -> serves n l a.
  Proof.
    intros Hfg. revert i vs ws L us l. induction k as [|k IH]; cbn; intros i vs ws L us l H1 H2.
    - injection H1 as <- <-. injection H2 as <- <-. split; auto. intros a [].
    - inv_opt H1. inv_opt H2. injection H1 as <- <-. injection H2 as <- <-.
      apply int32_some in E6 as [-> _].
      destruct (Hfg _ _ _ _ _ _ E E3) as [-> Hs].
      destruct (IH _ _ _ _ _ _ E1 E7) as [-> Hs'].
      split; auto. intros a Ha. apply in_app_iff in Ha as [Ha|Ha].
      + eapply serves_incl; eauto. apply incl_appl, incl_refl.
      + eapply serves_incl; eauto. apply incl_appr, incl_refl.
  Qed.

  (** ** The invariant *)
  Variable G : nat -> Prop.

  Definition typed (e : vars_env) := forall x v, e x = Some v -> is_ct v = ty x.

  Definition agree (D : list nat) (e e' : vars_env) := forall y, ~ In y D -> e' y = e y.

  Definition inv (r : env) (t : table) (e : vars_env) (D : list nat) : Prop :=
    typed e /\ (forall x, In x D -> r x = None /\ t x = None) /\
    forall e', typed e' -> agree D e e' ->
      forall x v vs l, G x -> r x = Some v -> eval ty n e' (find t x) = Some (vs, l) -> vs = [v].

  Lemma inv_change r t e D e' : inv r t e D -> typed e' -> agree D e e' -> inv r t e' D.
  Proof.
    intros (I1 & I2 & I3) H1 H2. split; [auto|split; [auto|]].
    intros e'' T A. apply I3; auto. intros y Hy. rewrite A, H2; auto.
  Qed.

  Lemma inv_table r t t' e C D : inv r t e (C ++ D) -> NoDup (C ++ D) ->
    (forall x, ~ In x C -> t' x = t x) -> inv r t' e D.
  Proof.
    intros (I1 & I2 & I3) HN Ht. apply nodup_app in HN as (_ & _ & HN).
    split; [auto|split].
    - intros x Hx. rewrite Ht by (intros Q; eapply HN; eauto). apply I2, in_or_app. auto.
    - intros e' T A x v vs l Gx Hx. unfold find. rewrite Ht.
      + apply (I3 e'); auto. intros y Hy. apply A. intros Q. apply Hy, in_or_app. auto.
      + intros Q. rewrite (proj1 (I2 x (in_or_app _ _ _ (or_introl Q)))) in Hx. discriminate.
  Qed.

  Lemma value_ok r t e D o v vs l : inv r t e D -> value r o = Some v ->
    (forall x, In x (names [o]) -> G x) ->
    eval ty n e (find_operand t o) = Some (vs, l) -> vs = [v].
  Proof.
    intros (I1 & I2 & I3) Hv Ho H. destruct o as [z|x]; cbn in *.
    - inv_opt H. apply int32_some in E as [-> _]. congruence.
    - eapply (I3 e); eauto. intros y _. auto.
  Qed.

  Lemma int_ok r t e D o z w l : inv r t e D -> int_value r o = Some z ->
    (forall x, In x (names [o]) -> G x) ->
    scalar (eval ty n e (find_operand t o)) = Some (w, l) -> w = z.
  Proof.
    intros I Hv Ho H. apply int_value_value in Hv. apply scalar_some in H.
    assert (E := value_ok _ _ _ _ _ _ _ _ I Hv Ho H). congruence.
  Qed.

  Lemma names_cons o l x : In x (names (o :: l)) <-> In x (names [o]) \/ In x (names l).
  Proof. rewrite !in_names. cbn. tauto. Qed.

  Lemma values_ok r t e D os vs ws l : inv r t e D -> all (value r) os = Some vs ->
    (forall x, In x (names os) -> G x) ->
    evals ty n e (yield_nodes t os) = Some (ws, l) -> ws = vs.
  Proof.
    intros I. unfold yield_nodes. revert vs ws l.
    induction os as [|o os IH]; cbn [all map nodes_of evals]; intros vs ws l H HG He.
    - congruence.
    - inv_opt H. inv_opt He. injection H as <-. injection He as <- <-.
      apply single_some in E1.
      assert (Q := value_ok _ _ _ _ _ _ _ _ I E (fun x Hx => HG x (proj2 (names_cons _ _ _) (or_introl Hx))) E1).
      injection Q as ->. f_equal. eapply IH; eauto.
      intros x Hx. apply HG, names_cons. auto.
  Qed.

  (** ** One operation *)

  Definition dependent (t : table) (e : vars_env) (x : nat) (l : list Z) : Prop :=
    exists vs l', eval ty n e (find t x) = Some (vs, l') /\ incl l' l.

  Definition op_facts (r : env) (t : table) (r' : env) (t' : table) (L : list Z)
      (o : op) (e : vars_env) : Prop :=
    forall x vs l, In x (results o) -> eval ty n e (find t' x) = Some (vs, l) ->
      (G x -> exists v, r' x = Some v /\ vs = [v]) /\
      (forall a, In a L -> serves n l a) /\
      (forall y, In y (operands o) -> dependent t e y l).

  (** The results of further integer operations. *)
  Fixpoint opq (o : op) : list nat :=
    match o with
    | OtherInt r _ _ => [r]
    | For _ _ _ _ _ _ _ body _ => opqb body
    | If _ _ th _ el _ => opqb th ++ opqb el
    | IfThen _ th => opqb th
    | _ => []
    end
  with opqb (b : block) : list nat :=
    match b with Nil => [] | Cons o b => opq o ++ opqb b end.

  Definition side (o : op) : Prop :=
    (forall x, In x (uses o) -> G x) /\ (forall x, In x (known o) -> G x) /\
    (forall x, In x (opq o) -> ty x = false -> ~ G x) /\ signed o = true /\ all_used o.

  Definition sideb (b : block) : Prop :=
    (forall x, In x (usesb b) -> G x) /\ (forall x, In x (knownb b) -> G x) /\
    (forall x, In x (opqb b) -> ty x = false -> ~ G x) /\ signedb b = true /\ all_usedb b.

  Definition op_ok (o : op) : Prop := forall r t e D r' t' L,
    NoDup (defs o ++ D) -> inv r t e (defs o ++ D) -> side o ->
    run_op ty r o = Some (r', L) -> build_op t o = Some t' ->
    op_facts r t r' t' L o e.

  Lemma op_inv o r t e D r' t' L : op_ok o ->
    NoDup (defs o ++ D) -> inv r t e (defs o ++ D) -> side o ->
    run_op ty r o = Some (r', L) -> build_op t o = Some t' -> inv r' t' e D.
  Proof.
    intros Hok HN I S Hr Hb. pose proof I as (I1 & I2 & I3). split; [auto|split].
    - intros x Hx. pose proof HN as HN'. apply nodup_app in HN' as (_ & _ & HN').
      assert (Hd : ~ In x (defs o)) by (intros C; eapply HN'; eauto).
      rewrite (run_op_frame _ _ _ _ _ Hr) by (intros C; apply Hd, results_defs; auto).
      rewrite (proj1 build_frame _ _ _ _ Hb) by auto. apply I2. apply in_or_app. auto.
    - intros e' T A x v vs l Gx Hx He.
      assert (A' : agree (defs o ++ D) e e').
      { intros y Hy. apply A. intros C. apply Hy, in_or_app. auto. }
      destruct (in_dec Nat.eq_dec x (results o)) as [Hi|Hi].
      + destruct (Hok r t e' D r' t' L) with (x := x) (vs := vs) (l := l) as (F & _); auto.
        * eapply inv_change; eauto.
        * destruct (F Gx) as (w & F1 & F2). congruence.
      + rewrite (run_op_frame _ _ _ _ _ Hr Hi) in Hx.
        apply (I3 e' T A' x v vs l Gx Hx).
        unfold find in He |- *. rewrite (proj1 build_frame _ _ _ _ Hb) in He; auto.
        intros C. rewrite (proj1 (I2 x (in_or_app _ _ _ (or_introl C)))) in Hx. discriminate.
  Qed.

  Definition block_ok (b : block) : Prop := forall r t e D r' t' L,
    NoDup (defsb b ++ D) -> inv r t e (defsb b ++ D) -> sideb b ->
    run ty r b = Some (r', L) -> build t b = Some t' ->
    inv r' t' e D /\
    (forall a, In a L -> exists o, In o (ops b) /\ rotates o = true /\
       forall x vs l, In x (results o) -> eval ty n e (find t' x) = Some (vs, l) -> serves n l a) /\
    (forall o x y vs l, In o (ops b) -> In x (results o) -> In y (operands o) ->
       eval ty n e (find t' x) = Some (vs, l) -> dependent t' e y l).

  (** What a block yields, and the rotations recorded for it. *)
  Lemma block_yield b ys r t e D r' t' L ws us l :
    block_ok b -> NoDup (defsb b ++ D) -> inv r t e (defsb b ++ D) -> sideb b ->
    used b ys -> (forall x, In x (names ys) -> G x) ->
    run ty r b = Some (r', L) -> build t b = Some t' ->
    all (value r') ys = Some ws -> evals ty n e (yield_nodes t' ys) = Some (us, l) ->
    us = ws /\ forall a, In a L -> serves n l a.
  Proof.
    intros Hok HN I S Hu HG Hr Hb Ha He.
    destruct (Hok r t e D r' t' L HN I S Hr Hb) as (J1 & J2 & J3).
    split; [eapply values_ok; eauto|].
    assert (R : forall x, reaches b ys x -> dependent t' e x l).
    { intros x HR. induction HR as [x Hx|x o y Ho Hx Hy HR IH].
      - apply in_names in Hx. unfold yield_nodes in He.
        destruct (evals_in _ _ _ _ _ He (in_map (find_operand t') _ _ Hx)) as (v & l' & H1 & H2).
        exists [v], l'. auto.
      - destruct IH as (vs & l' & H1 & H2).
        destruct (J3 o y x vs l' Ho Hy Hx H1) as (vs2 & l2 & H3 & H4).
        exists vs2, l2. split; auto. eapply incl_tran; eauto. }
    intros a Hin. destruct (J2 a Hin) as (o & Ho & Hrot & Hs).
    destruct (Hu o Ho Hrot) as (x & Hx & HR).
    destruct (R x HR) as (vs & l' & H1 & H2).
    eapply serves_incl; [|eassumption]. eapply Hs; eauto.
  Qed.

  Lemma vputs_sets r xs vs r' e e' :
    sets ty r xs vs = Some r' -> vputs e xs vs = Some e' -> NoDup xs -> typed e ->
    typed e' /\ (forall x, ~ In x xs -> e' x = e x) /\ (forall x, In x xs -> e' x = r' x).
  Proof.
    revert r vs e. induction xs as [|x xs IH]; intros r [|v vs] e H1 H2 HN T; cbn in H1, H2; try discriminate.
    - injection H2 as <-. repeat split; auto. intros x [].
    - inv_opt H1. inversion HN; subst.
      assert (T' : typed (vput e x v)).
      { intros y w. unfold vput. destruct (Nat.eqb_spec y x); [|apply T].
        intros Q. injection Q as <-. subst. apply set_some in E. tauto. }
      destruct (IH _ _ _ H1 H2 H4 T') as (J1 & J2 & J3). repeat split; auto.
      + intros y Hy. cbn in Hy. rewrite J2 by tauto. unfold vput.
        destruct (Nat.eqb_spec y x); [subst; tauto|auto].
      + intros y [->|Hy]; auto.
        rewrite J2 by auto. rewrite (sets_frame _ _ _ _ _ H1) by auto.
        unfold vput. rewrite Nat.eqb_refl. apply set_some in E as (_ & E & _). auto.
  Qed.

  Lemma loop_ok rs lb ub step iv args inits body ys r t e D t' :
    block_ok body -> side (For rs (K lb) (K ub) (K step) iv args inits body ys) ->
    NoDup (iv :: args ++ defsb body ++ rs ++ D) ->
    inv r t e (iv :: args ++ defsb body ++ rs ++ D) ->
    build (put_vars (put t iv (NVar iv)) args) body = Some t' ->
    forall i vs ws L us l,
      match set ty r iv (VInt i) with
      | Some r1 =>
          match sets ty r1 args vs with
          | Some r2 =>
              match run ty r2 body with
              | Some (r3, l) => option_map (fun ws => (ws, l)) (all (value r3) ys)
              | None => None
              end
          | None => None
          end
      | None => None
      end = Some (ws, L) ->
      match vputs (vput e iv (VInt i)) args vs with
      | Some e' => evals ty n e' (yield_nodes t' ys)
      | None => None
      end = Some (us, l) ->
      us = ws /\ forall a, In a L -> serves n l a.
  Proof.
    intros Hok S HN I Hb i vs ws L us l H1 H2.
    inv_opt H1. injection H1 as <- <-. inv_opt H2. rename e0 into r1, e1 into r2, e2 into r3, v into e2.
    pose proof I as (T & I2 & I3).
    inversion HN as [|? ? N1 N2]; subst. apply nodup_app in N2 as (N3 & N4 & N5).
    destruct S as (S1 & S2 & S3 & S4 & S5). cbn in S1, S2, S3, S4, S5.
    pose proof E as Eset. apply set_some in E as (F1 & F2 & F3).
    assert (T1 : typed (vput e iv (VInt i))).
    { intros y w. unfold vput. destruct (Nat.eqb_spec y iv); [|apply T].
      intros Q. injection Q as <-. subst. auto. }
    destruct (vputs_sets _ _ _ _ _ _ E0 E4 N3 T1) as (T2 & V1 & V2).
    assert (Niv : ~ In iv args) by (intros C; apply N1, in_or_app; auto).
    eapply (block_yield body ys r2 (put_vars (put t iv (NVar iv)) args) e2 (rs ++ D) r3 t'); eauto.
    - split; [auto|split].
      + intros x Hx.
        assert (Ha : ~ In x args) by (intros C; eapply N5; eauto).
        assert (Hi : x <> iv) by (intros ->; apply N1, in_or_app; auto).
        rewrite (sets_frame _ _ _ _ _ E0) by auto. rewrite F3 by auto.
        rewrite put_vars_frame by auto. unfold put.
        destruct (Nat.eqb_spec x iv); [tauto|].
        apply I2. right. apply in_or_app. auto.
      + intros e' T' A x v vs' l' Gx Hx He.
        destruct (in_dec Nat.eq_dec x args) as [Hxa|Hxa].
        * unfold find in He. rewrite put_vars_in in He by auto. cbn in He.
          rewrite A in He by (apply N5; auto). rewrite V2 in He by auto. rewrite Hx in He. congruence.
        * rewrite (sets_frame _ _ _ _ _ E0) in Hx by auto.
          unfold find in He. rewrite put_vars_frame in He by auto. unfold put in He.
          destruct (Nat.eqb_spec x iv) as [->|Hne].
          -- cbn in He. rewrite A in He by (intros C; apply N1, in_or_app; auto).
             rewrite V1 in He by auto. unfold vput in He. rewrite Nat.eqb_refl in He. congruence.
          -- rewrite F3 in Hx by auto. apply (I3 e') with (l := l') (x := x); auto.
             intros y Hy. cbn in Hy. rewrite in_app_iff in Hy.
             rewrite A by tauto. rewrite V1 by tauto. unfold vput.
             destruct (Nat.eqb_spec y iv); [subst; tauto|auto].
    - repeat split; auto; try tauto.
      + intros x Hx. apply S1. rewrite !in_app_iff. tauto.
      + intros x Hx. apply S2. right. rewrite !in_app_iff. tauto.
    - tauto.
    - intros x Hx. apply S1. rewrite !in_app_iff. tauto.
  Qed.

  Lemma trips_none lb ub step : 0 < step -> ub <= lb -> trips lb ub step = O.
  Proof.
    intros H1 H2. unfold trips.
    assert ((ub - lb + step - 1) / step <= 0).
    { apply Z.lt_succ_r. apply Z.div_lt_upper_bound; lia. }
    destruct ((ub - lb + step - 1) / step); try lia; auto.
  Qed.

  (** The node of a loop, evaluated where the loop is run. *)
  Lemma loop_node_ok rs lb ub step iv args inits body ys r t e D t' r' L vs l :
    block_ok body -> side (For rs (K lb) (K ub) (K step) iv args inits body ys) ->
    NoDup (iv :: args ++ defsb body ++ rs ++ D) ->
    inv r t e (iv :: args ++ defsb body ++ rs ++ D) ->
    build (put_vars (put t iv (NVar iv)) args) body = Some t' ->
    run_op ty r (For rs (K lb) (K ub) (K step) iv args inits body ys) = Some (r', L) ->
    eval ty n e (NLoop lb ub step iv args (yield_nodes t inits) (yield_nodes t' ys)) = Some (vs, l) ->
    sets ty r rs vs = Some r' /\ (forall a, In a L -> serves n l a) /\
    (forall y, In y (names inits) -> dependent t e y l).
  Proof.
    intros Hok S HN I Hb Hr He. cbn [run_op] in Hr. unfold int_value in Hr. cbn [value] in Hr.
    inv_opt Hr. injection Hr as <- <-. cbn [eval] in He.
    destruct (evals ty n e (yield_nodes t inits)) as [[us l1']|] eqn:Ei; [|discriminate].
    destruct (int32 lb) eqn:?, (int32 ub) eqn:?, (int32 step) eqn:?; try discriminate.
    assert (us = l0).
    { eapply values_ok; eauto. destruct S as (S1 & _). intros x Hx. apply S1. cbn. apply in_app_iff.
      left. auto. }
    subst us. apply Z.leb_gt in E. rewrite (proj2 (Z.leb_gt _ _)) in He by auto. cbn [andb] in He.
    replace (if lb <? ub then trips lb ub step else 0%nat) with (trips lb ub step) in He.
    2: { destruct (Z.ltb_spec lb ub); auto. apply trips_none; lia. }
    destruct (eval_loop _ _ _ _ _) as [[ws l2']|] eqn:El; [|discriminate].
    injection He as <- <-.
    destruct (loops_agree _ _ _ _ _ _ _ _ _ _
                (loop_ok rs lb ub step iv args inits body ys r t e D t' Hok S HN I Hb) E1 El) as [-> Hs].
    split; [assumption|]. split.
    - intros a Ha. eapply serves_incl; [eauto|]. apply incl_appr, incl_refl.
    - intros y Hy. apply in_names in Hy. unfold yield_nodes in Ei.
      destruct (evals_in _ _ _ _ _ Ei (in_map (find_operand t) _ _ Hy)) as (v & l' & H1 & H2).
      exists [v], l'. split; auto. apply incl_appl; auto.
  Qed.

  Lemma at_eval e m k vs l : eval ty n e (NAt m k) = Some (vs, l) ->
    exists ws v, eval ty n e m = Some (ws, l) /\ nth_error ws k = Some v /\ vs = [v].
  Proof.
    cbn [eval]. intros H. inv_opt H. injection H as <- <-. eauto.
  Qed.

  Lemma find_put t x m : find (put t x m) x = m.
  Proof. unfold find, put. rewrite Nat.eqb_refl. auto. Qed.

  Lemma operand_dependent t e o l vs l' y :
    In y (names [o]) -> eval ty n e (find_operand t o) = Some (vs, l') -> incl l' l -> dependent t e y l.
  Proof.
    intros Hy H Hi. apply in_names in Hy. destruct Hy as [->|[]]. exists vs, l'. auto.
  Qed.

  Theorem sim : (forall o, op_ok o) /\ (forall b, block_ok b).
  Proof.
    apply op_block_ind.
    - (* Bin *)
      intros r o a b rho t e D r' t' L HN I S Hr Hb x vs l Hx He.
      cbn [run_op build_op results operands] in *. destruct Hx as [<-|[]].
      inv_opt Hr. injection Hr as <- <-. injection Hb as <-. rewrite find_put in He.
      cbn [eval] in He. inv_opt He. injection He as <- <-.
      destruct S as (S1 & _ & _ & S4 & _). cbn [uses signed] in *.
      assert (Ga : forall x, In x (names [a]) -> G x) by (intros x Hx; apply S1, names_cons; auto).
      assert (Gb : forall x, In x (names [b]) -> G x) by (intros x Hx; apply S1, names_cons; auto).
      apply set_some in E1 as (_ & E1 & _).
      rewrite (int_ok _ _ _ _ _ _ _ _ I E Ga E2) in E6.
      rewrite (int_ok _ _ _ _ _ _ _ _ I E0 Gb E4) in E6.
      apply eval_bin_run in E6; auto. subst.
      apply scalar_some in E2, E4. split; [eauto|]. split; [intros q []|].
      intros y Hy. apply names_cons in Hy as [Hy|Hy].
      + eapply operand_dependent; eauto. apply incl_appl, incl_refl.
      + eapply operand_dependent; eauto. apply incl_appr, incl_refl.
    - (* Div *)
      intros r a b rho t e D r' t' L HN I S Hr Hb x vs l Hx He.
      cbn [run_op build_op results operands] in *. destruct Hx as [<-|[]].
      destruct b as [d|?]; [|discriminate].
      inv_opt Hr. injection Hr as <- <-. injection Hb as <-. rewrite find_put in He.
      cbn [eval] in He. inv_opt He. injection He as <- <-.
      destruct S as (S1 & _). cbn [uses] in *.
      assert (Ga : forall x, In x (names [a]) -> G x) by (intros x Hx; apply S1, names_cons; auto).
      apply set_some in E2 as (_ & E2 & _).
      rewrite (int_ok _ _ _ _ _ _ _ _ I E Ga E3) in E5.
      apply eval_div_run in E5 as [_ ->]. unfold int_value in E0. cbn in E0. injection E0 as <-.
      apply scalar_some in E3. split; [eauto|]. split; [intros q []|].
      intros y Hy. eapply operand_dependent; eauto. apply incl_refl.
    - (* Rot *)
      intros r y shifts rho t e D r' t' L HN I S Hr Hb x vs l Hx He.
      cbn [run_op build_op results operands] in *. destruct Hx as [<-|[]].
      inv_opt Hr. injection Hr as <- <-. injection Hb as <-. rewrite find_put in He.
      cbn [eval] in He. inv_opt He. injection He as <- <-.
      destruct S as (S1 & _). cbn [uses] in *.
      apply set_some in E2 as (_ & E2 & _). apply all_int in E1.
      assert (Q := values_ok _ _ _ _ _ _ _ _ I E1 (fun x Hx => S1 x (or_intror Hx)) E6). subst.
      assert (l4 = l0) as ->.
      { clear - E8. revert l4 E8. induction l0 as [|z l0 IH]; cbn; intros l4 H; [congruence|].
        inv_opt H. injection H as <-. f_equal. auto. }
      apply single_some in E3. split; [eauto|]. split.
      + intros a Ha. exists (normalize a n). split; [|apply normalize_mod; auto].
        apply in_or_app. right. apply in_or_app. right. apply in_map_iff. eauto.
      + intros z [<-|Hz].
        * exists [VCt], l1. split; auto. apply incl_appl, incl_refl.
        * apply in_names in Hz. unfold yield_nodes in E6.
          destruct (evals_in _ _ _ _ _ E6 (in_map (find_operand t) _ _ Hz)) as (v & l' & H1 & H2).
          exists [v], l'. split; auto. apply incl_appr, incl_appl; auto.
    - (* OtherInt *)
      intros r f args rho t e D r' t' L HN I S Hr Hb x vs l Hx He.
      cbn [run_op build_op results operands] in *. destruct Hx as [<-|[]].
      inv_opt Hr. injection Hr as <- <-. apply set_some in E0 as (E0 & _ & _).
      destruct S as (_ & _ & S3 & _). split.
      + intros C. exfalso. apply (S3 r); cbn; auto.
      + split; intros ? [].
    - (* OtherCt *)
      intros r args rho t e D r' t' L HN I S Hr Hb x vs l Hx He.
      cbn [run_op build_op results operands] in *. destruct Hx as [<-|[]].
      inv_opt Hr. injection Hr as <- <-. apply set_some in E0 as (E0 & E1 & _).
      cbn [is_ct] in E0. destruct args as [|a args].
      + injection Hb as <-. split; [|split; intros ? []].
        intros _. exists VCt. split; auto.
        destruct I as (I1 & I2 & _). unfold find in He.
        rewrite (proj2 (I2 r (or_introl eq_refl))) in He.
        cbn in He. rewrite <- E0 in He. destruct (e r) as [w|] eqn:Ew.
        * apply I1 in Ew. rewrite <- E0 in Ew. destruct w; [discriminate|]. congruence.
        * congruence.
      + injection Hb as <-. rewrite find_put in He.
        apply at_eval in He as (ws & v & H1 & H2 & ->). cbn [eval] in H1.
        split; [|split; [intros ? []|]].
        * intros _. exists VCt. split; auto. cbn [map nodes_of evals] in H1. inv_opt H1.
          injection H1 as <- <-. cbn in H2. injection H2 as <-. apply single_some in E2.
          cbn [forallb] in E. apply andb_prop in E as [E _].
          destruct (rho a) as [[?|]|] eqn:Ea; try discriminate.
          destruct I as (I1 & I2 & I3). destruct S as (S1 & _).
          apply (I3 e I1 (fun y _ => eq_refl) a VCt _ _ (S1 a (or_introl eq_refl)) Ea E2).
        * intros y Hy.
          destruct (evals_in _ (map (find t) (a :: args)) _ _ _ H1 (in_map (find t) _ _ Hy)) as (w & l' & H3 & H4).
          exists [w], l'. auto.
    - (* For *)
      intros rs lb ub step iv args inits body IH ys rho t e D r' t' L HN I S Hr Hb x vs l Hx He.
      cbn [build_op results operands] in *. inv_opt Hb. injection Hb as <-.
      cbn [defs] in HN, I. rewrite <- !app_comm_cons, <- !app_assoc in HN, I.
      assert (Nrs : NoDup rs).
      { inversion HN as [|? ? _ N2]; subst. apply nodup_app in N2 as (_ & N & _).
        apply nodup_app in N as (_ & N & _). apply nodup_app in N as (N & _). auto. }
      destruct (put_results_in t0 (NLoop z z0 z1 iv args (yield_nodes t inits) (yield_nodes t0 ys))
                  0 rs x Nrs Hx) as (j & J1 & J2).
      unfold find in He. rewrite J2 in He. apply at_eval in He as (ws & v & H1 & H2 & ->).
      destruct (loop_node_ok _ _ _ _ _ _ _ _ _ _ _ _ _ _ _ _ _ _ IH S HN I E2 Hr H1) as (K1 & K2 & K3).
      split; [|auto]. intros _. exists v. split; auto.
      rewrite (sets_in _ _ _ _ _ _ Nrs K1 J1). auto.
    - (* If *)
      intros rs c th IH1 yt el IH2 ye rho t e D r' t' L HN I S Hr Hb x vs l Hx He.
      cbn [run_op build_op results operands] in *. inv_opt Hb. injection Hb as <-.
      cbn [defs] in HN, I. rewrite <- !app_assoc in HN, I.
      pose proof HN as HN'. apply nodup_app in HN' as (N1 & N2 & N3).
      pose proof N2 as N2'. apply nodup_app in N2' as (N4 & N5 & N6).
      assert (Nrs : NoDup rs) by (apply nodup_app in N5; tauto).
      destruct (put_results_in t1 (NIf (find_operand t c) (yield_nodes t0 yt) (yield_nodes t1 ye))
                  0 rs x Nrs Hx) as (j & J1 & J2).
      unfold find in He. rewrite J2 in He. apply at_eval in He as (ws & v & H1 & H2 & ->).
      destruct S as (S1 & S2 & S3 & S4 & S5). cbn [uses known opq signed all_used] in *.
      apply andb_prop in S4 as [S4 S4']. destruct S5 as ((U1 & U2) & U3 & U4).
      cbn [eval] in H1. destruct (scalar _) as [[z l1]|] eqn:Ec; [|discriminate].
      destruct (int_value rho c) as [z0|] eqn:E1; [|discriminate].
      assert (Gc : forall x, In x (names [c]) -> G x).
      { intros y Hy. apply S1. apply in_or_app. auto. }
      rewrite (int_ok _ _ _ _ _ _ _ _ I E1 Gc Ec) in *.
      apply scalar_some in Ec.
      assert (Q : sets ty rho rs ws = Some r' /\ (exists l2, l = l1 ++ l2 /\
                  forall a, In a L -> serves n l2 a)).
      { destruct (z0 =? 0); inv_opt Hr; injection Hr as <- <-.
        - destruct (evals ty n e (yield_nodes t1 ye)) as [[us lq]|] eqn:Ee; [|discriminate].
          injection H1 as <- <-.
          match goal with
          | R : run ty rho el = Some (?r1, ?L1), A : all (value ?r1) ye = Some ?w |- _ =>
              destruct (block_yield el ye rho t0 e (rs ++ D) r1 t1 L1 w us lq) as (B1 & B2); auto
          end.
          + eapply inv_table; [exact I|auto|].
            intros y Hy. apply (proj2 build_frame _ _ _ _ E). auto.
          + repeat split; auto; intros y Hy; [apply S1|apply S2|apply S3]; rewrite !in_app_iff; tauto.
          + intros y Hy. apply S1. rewrite !in_app_iff. tauto.
          + subst. split; [eassumption|eauto].
        - destruct (evals ty n e (yield_nodes t0 yt)) as [[us lq]|] eqn:Ee; [|discriminate].
          injection H1 as <- <-.
          match goal with
          | R : run ty rho th = Some (?r1, ?L1), A : all (value ?r1) yt = Some ?w |- _ =>
              destruct (block_yield th yt rho t e (defsb el ++ rs ++ D) r1 t0 L1 w us lq) as (B1 & B2); auto
          end.
          + repeat split; auto; intros y Hy; [apply S1|apply S2|apply S3]; rewrite !in_app_iff; tauto.
          + intros y Hy. apply S1. rewrite !in_app_iff. tauto.
          + subst. split; [eassumption|eauto]. }
      destruct Q as (Q1 & l2 & -> & Q2). split; [|split].
      + intros _. exists v. split; auto. rewrite (sets_in _ _ _ _ _ _ Nrs Q1 J1). auto.
      + intros a Ha. eapply serves_incl; [eauto|]. apply incl_appr, incl_refl.
      + intros y Hy. eapply operand_dependent; eauto. apply incl_appl, incl_refl.
    - (* IfThen *)
      intros c th IH rho t e D r' t' L HN I S Hr Hb. discriminate Hb.
    - (* Nil *)
      intros r t e D r' t' L HN I S Hr Hb. cbn in *. injection Hr as <- <-. injection Hb as <-.
      split; [exact I|]. split; [intros a []|intros ? ? ? ? ? []].
    - (* Cons *)
      intros o IH1 b IH2 r t e D r' t' L HN I S Hr Hb. cbn [run build defsb] in *.
      inv_opt Hr. injection Hr as <- <-. inv_opt Hb.
      rewrite <- app_assoc in HN, I.
      assert (So : side o).
      { destruct S as (S1 & S2 & S3 & S4 & S5). cbn in S1, S2, S3, S4, S5. apply andb_prop in S4.
        repeat split; try tauto; intros x Hx; [apply S1|apply S2|apply S3]; rewrite in_app_iff; tauto. }
      assert (Sb : sideb b).
      { destruct S as (S1 & S2 & S3 & S4 & S5). cbn in S1, S2, S3, S4, S5. apply andb_prop in S4.
        repeat split; try tauto; intros x Hx; [apply S1|apply S2|apply S3]; rewrite in_app_iff; tauto. }
      match goal with
      | R : run_op ty r o = Some (?r1, ?L1), R2 : run ty ?r1 b = Some (?r2, ?L2),
        B : build_op t o = Some ?t1 |- _ =>
          assert (I' := op_inv o r t e (defsb b ++ D) r1 t1 L1 IH1 HN I So R B);
          assert (F := IH1 r t e (defsb b ++ D) r1 t1 L1 HN I So R B);
          destruct (IH2 r1 t1 e D r2 t' L2 (proj1 (proj2 (nodup_app _ _ HN))) I' Sb R2 Hb)
            as (J1 & J2 & J3);
          pose proof R as Ro; pose proof B as Bo
      end.
      pose proof HN as HN'. apply nodup_app in HN' as (N1 & N2 & N3).
      assert (Fr : forall x, In x (defs o) -> find t' x = find t0 x).
      { intros x Hx. unfold find. rewrite (proj2 build_frame _ _ _ _ Hb); auto.
        intros C. apply (N3 x Hx), in_or_app. auto. }
      assert (Fo : forall x, In x (operands o) -> find t' x = find t x).
      { intros x Hx. assert (Hd : ~ In x (defs o ++ defsb b ++ D)).
        { intros C. destruct I as (_ & I2 & _). apply (operands_bound _ _ _ _ _ Ro Hx).
          apply I2. auto. }
        rewrite !in_app_iff in Hd. unfold find. rewrite (proj2 build_frame _ _ _ _ Hb) by tauto.
        rewrite (proj1 build_frame _ _ _ _ Bo) by tauto. auto. }
      split; [auto|split].
      + intros a Ha. apply in_app_iff in Ha as [Ha|Ha].
        * exists o. split; [cbn; auto|]. split.
          -- destruct (rotates o) eqn:Er; auto. rewrite (proj1 run_silent _ _ _ _ Ro Er) in Ha. destruct Ha.
          -- intros x vs m Hx He. rewrite Fr in He by (apply results_defs; auto).
             apply (F x vs m Hx He). auto.
        * destruct (J2 a Ha) as (o' & H1 & H2 & H3). exists o'. split; [cbn; auto|]. auto.
      + intros o' x y vs m Ho Hx Hy He. cbn in Ho. destruct Ho as [<-|Ho].
        * rewrite Fr in He by (apply results_defs; auto).
          destruct (F x vs m Hx He) as (_ & _ & F3). unfold dependent. rewrite Fo by auto.
          apply (F3 y Hy).
        * eapply J3; eauto.
  Qed.
End Sim.

(** ** The whole analysis *)

Lemma known_defs :
  (forall o x, In x (known o) -> In x (defs o)) /\ (forall b x, In x (knownb b) -> In x (defsb b)).
Proof.
  apply op_block_ind; cbn; intros; auto; rewrite ?in_app_iff in *; try tauto.
  - destruct H0 as [H0|H0]; auto. rewrite ?in_app_iff in *. right.
    destruct H0 as [H0|[H0|H0]]; auto.
  - destruct H1 as [H1|[H1|H1]]; auto.
  - destruct H1 as [H1|H1]; auto.
Qed.

Lemma opq_defs :
  (forall o x, In x (opq o) -> In x (defs o)) /\ (forall b x, In x (opqb b) -> In x (defsb b)).
Proof.
  apply op_block_ind; cbn; intros; auto; rewrite ?in_app_iff in *; try tauto.
  - right. rewrite ?in_app_iff. auto.
  - destruct H1 as [H1|H1]; auto.
  - destruct H1 as [H1|H1]; auto.
Qed.

Lemma opq_known :
  (forall o x, NoDup (defs o) -> In x (opq o) -> ~ In x (known o)) /\
  (forall b x, NoDup (defsb b) -> In x (opqb b) -> ~ In x (knownb b)).
Proof.
  apply op_block_ind; try (cbn; tauto).
  - cbn [defs opq known]. intros rs lb ub step iv args inits body IH ys x HN Hx C.
    inversion HN as [|? ? N1 N2]; subst. apply nodup_app in N2 as (N3 & N4 & N5).
    apply nodup_app in N4 as (N6 & N7 & N8). assert (Hd := proj2 opq_defs _ _ Hx).
    destruct C as [<-|C]; [apply N1; rewrite !in_app_iff; auto|].
    rewrite !in_app_iff in C. destruct C as [C|[C|C]].
    + apply (N5 _ C). rewrite in_app_iff. auto.
    + eapply IH; eauto.
    + eapply N8; eauto.
  - cbn [defs opq known]. intros rs c th IH1 yt el IH2 ye x HN Hx C.
    apply nodup_app in HN as (N1 & N2 & N3). apply nodup_app in N2 as (N4 & N5 & N6).
    rewrite !in_app_iff in Hx. rewrite !in_app_iff in C. setoid_rewrite in_app_iff in N3.
    destruct Hx as [Hx|Hx]; assert (Hd := proj2 opq_defs _ _ Hx); destruct C as [C|[C|C]].
    + eapply IH1; eauto.
    + apply (N3 _ Hd). left. apply known_defs; auto.
    + apply (N3 _ Hd). auto.
    + apply (N3 x); [apply known_defs; auto|auto].
    + eapply IH2; eauto.
    + eapply N6; eauto.
  - cbn [defsb opqb knownb]. intros o IH1 b IH2 x HN Hx C.
    apply nodup_app in HN as (N1 & N2 & N3). rewrite in_app_iff in Hx, C.
    destruct Hx as [Hx|Hx], C as [C|C].
    + eapply IH1; eauto.
    + apply (N3 x); [apply opq_defs; auto|apply known_defs; auto].
    + apply (N3 x); [apply known_defs; auto|apply opq_defs; auto].
    + eapply IH2; eauto.
Qed.

Lemma constant_indices_in shifts l o : constant_indices shifts = Some l -> In o shifts ->
  exists z, o = K z /\ In z l.
Proof.
  unfold constant_indices. intros H Ho. destruct (all_in _ _ _ _ H Ho) as (z & H1 & H2).
  destruct o; [|discriminate]. injection H1 as ->. eauto.
Qed.

Lemma walk_loop_constant rots l : walk_loop rots = (l, true) ->
  forall shifts o, In shifts rots -> In o shifts -> exists z, o = K z /\ In z l.
Proof.
  revert l. induction rots as [|s rots IH]; cbn; intros l H shifts o Hs Ho; [destruct Hs|].
  destruct (constant_indices s) eqn:E; [|discriminate].
  destruct (walk_loop rots) as [l' c] eqn:Ew. injection H as <- ->.
  destruct Hs as [->|Hs].
  - destruct (constant_indices_in _ _ _ E Ho) as (z & H1 & H2). exists z. rewrite in_app_iff. auto.
  - destruct (IH _ eq_refl _ _ Hs Ho) as (z & H1 & H2). exists z. rewrite in_app_iff. auto.
Qed.

Lemma all_constant shifts : names shifts = [] -> exists l, constant_indices shifts = Some l.
Proof.
  unfold constant_indices. induction shifts as [|[z|x] s IH]; cbn; intros H; eauto.
  - destruct (IH H) as (l & ->). eauto.
  - discriminate.
Qed.

Lemma walk_loop_other rots l : walk_loop rots = (l, false) -> names (concat rots) <> [].
Proof.
  revert l. induction rots as [|s rots IH]; cbn; intros l H; [discriminate|].
  unfold names. rewrite flat_map_app. intros C. apply app_eq_nil in C as [C1 C2].
  destruct (all_constant s C1) as (m & Hm). rewrite Hm in H.
  destruct (walk_loop rots) as [l' c]. injection H as _ ->. eapply IH; eauto.
Qed.

Lemma rotations_shifts :
  (forall o, concat (rotations o) = shifts_of o) /\
  (forall b, concat (rotationsb b) = shifts_ofb b).
Proof.
  apply op_block_ind; cbn; intros; auto; rewrite ?app_nil_r, ?concat_app; auto; congruence.
Qed.

Lemma repeat_logs (P : Z -> Prop) f step k i vs ws L :
  (forall i vs ws l, f i vs = Some (ws, l) -> forall a, In a l -> P a) ->
  repeat_body f step k i vs = Some (ws, L) -> forall a, In a L -> P a.
Proof.
  intros Hf. revert i vs ws L. induction k as [|k IH]; cbn; intros i vs ws L H a Ha.
  - injection H as _ <-. destruct Ha.
  - inv_opt H. injection H as _ <-. apply in_app_iff in Ha as [Ha|Ha]; eauto.
Qed.

Lemma constant_logs ty S :
  (forall o r r' L, run_op ty r o = Some (r', L) ->
     (forall shifts q, In shifts (rotations o) -> In q shifts -> exists z, q = K z /\ In z S) ->
     forall a, In a L -> In a S) /\
  (forall b r r' L, run ty r b = Some (r', L) ->
     (forall shifts q, In shifts (rotationsb b) -> In q shifts -> exists z, q = K z /\ In z S) ->
     forall a, In a L -> In a S).
Proof.
  apply op_block_ind.
  - cbn [run_op]. intros. inv_opt H. injection H as _ <-. destruct H1.
  - cbn [run_op]. intros. inv_opt H. injection H as _ <-. destruct H1.
  - cbn [run_op rotations]. intros r t shifts rho r' L H HS a Ha. inv_opt H. injection H as _ <-.
    destruct (all_back _ _ _ _ E1 Ha) as (q & Hq & Hv).
    destruct (HS shifts q (or_introl eq_refl) Hq) as (z & -> & Hz). cbn in Hv. congruence.
  - cbn [run_op]. intros. inv_opt H. injection H as _ <-. destruct H1.
  - cbn [run_op]. intros. inv_opt H. injection H as _ <-. destruct H1.
  - cbn [run_op rotations]. intros rs lb ub step iv args inits body IH ys r r' L H HS.
    inv_opt H. injection H as _ <-. eapply repeat_logs; [|eassumption].
    intros i vs ws lq Hq. cbv beta in Hq. inv_opt Hq. injection Hq as _ <-. eapply IH; eauto.
  - cbn [run_op rotations]. intros rs c th IH1 yt el IH2 ye r r' L H HS.
    inv_opt H. injection H as _ <-. destruct (z =? 0).
    + eapply IH2; eauto. intros. eapply HS; eauto. apply in_or_app. auto.
    + eapply IH1; eauto. intros. eapply HS; eauto. apply in_or_app. auto.
  - cbn [run_op rotations]. intros c th IH r r' L H HS. inv_opt H.
    + injection H as _ <-. intros a [].
    + injection H as _ <-. destruct p. cbn. eapply IH; eauto.
  - cbn. intros r r' L H _ a Ha. injection H as _ <-. destruct Ha.
  - cbn [run rotationsb]. intros o IH1 b IH2 r r' L H HS a Ha. inv_opt H. injection H as _ <-.
    apply in_app_iff in Ha as [Ha|Ha].
    + eapply IH1; eauto. intros. eapply HS; eauto. apply in_or_app. auto.
    + eapply IH2; eauto. intros. eapply HS; eauto. apply in_or_app. auto.
Qed.

Lemma set_typed ty r x v r' : typed_env ty r -> set ty r x v = Some r' -> typed_env ty r'.
Proof.
  intros T H y w Hy. apply set_some in H as (H1 & H2 & H3).
  destruct (Nat.eq_dec y x) as [->|Hn]; [congruence|]. rewrite H3 in Hy by auto. auto.
Qed.

Lemma sets_typed ty xs : forall r vs r',
  typed_env ty r -> sets ty r xs vs = Some r' -> typed_env ty r'.
Proof.
  induction xs as [|x xs IH]; intros r [|v vs] r' T H; cbn in H; try discriminate H.
  - injection H as <-. auto.
  - inv_opt H. exact (IH _ _ _ (set_typed _ _ _ _ _ T E) H).
Qed.

Lemma run_op_typed ty o r r' L : typed_env ty r -> run_op ty r o = Some (r', L) -> typed_env ty r'.
Proof.
  intros T H. destruct o; cbn [run_op] in H.
  6,7: inv_opt H; injection H as <- _; eapply sets_typed; eauto.
  6: inv_opt H; injection H as <- _; auto.
  all: inv_opt H; injection H as <- _; eapply set_typed; eauto.
Qed.

Lemma keys_loop ty n rs lb ub step iv args inits body ys r r' L S :
  let o := For rs lb ub step iv args inits body ys in
  0 < n -> typed_env ty r -> NoDup (defs o) -> (forall x, In x (defs o) -> r x = None) ->
  self_contained ty o -> signed o = true -> all_used o ->
  run_op ty r o = Some (r', L) -> loop_rotations ty n o = Some S ->
  forall a, In a L -> serves n S a.
Proof.
  cbv zeta. intros Hn T HN Hd Hsc Hsg Hu Hr Ha. cbn [loop_rotations] in Ha.
  destruct lb as [lb|], ub as [ub|], step as [step|]; try discriminate Ha.
  destruct (build _ body) as [t'|] eqn:Eb; [|discriminate].
  destruct (eval ty n _ _) as [[vs l]|] eqn:Ee; [|discriminate]. injection Ha as <-. cbn [snd].
  set (o := For rs (K lb) (K ub) (K step) iv args inits body ys) in *.
  assert (W := loop_node_ok ty n (fun x => ty x = true \/ In x (known o))
                 rs lb ub step iv args inits body ys r (fun _ => None) (fun _ => None) []
                 t' r' L vs l).
  apply W; auto.
  - apply sim; auto.
  - repeat split; auto.
    + intros x Hx. destruct (ty x) eqn:Et; auto.
    + intros x Hx Ht [C|C]; [congruence|]. eapply (proj1 opq_known); eauto.
    + apply Hu.
    + apply Hu.
  - rewrite app_nil_r. exact HN.
  - rewrite app_nil_r. change (iv :: args ++ defsb body ++ rs) with (defs o). split; [|split].
    + intros x v Hx. discriminate.
    + intros x Hx. auto.
    + intros e' T' A x v ws l' Gx Hx He. cbn in He.
      assert (Hi : ~ In x (defs o)) by (intros C; rewrite Hd in Hx; [discriminate|auto]).
      rewrite A in He by auto. injection He as <- <-.
      destruct Gx as [Gx|Gx].
      * apply T in Hx as Hv. rewrite Gx in *. destruct v; [discriminate|auto].
      * exfalso. apply Hi. apply known_defs. auto.
Qed.

Lemma keys ty n : 0 < n ->
  (forall o r r' L S, typed_env ty r -> NoDup (defs o) ->
     (forall x, In x (defs o) -> r x = None) ->
     (forall lp, In lp (outer_loops o) -> simple_loop ty lp) ->
     run_op ty r o = Some (r', L) -> analyze_op ty (Some n) o = Some S ->
     forall a, In a L -> serves n S a) /\
  (forall b r r' L S, typed_env ty r -> NoDup (defsb b) ->
     (forall x, In x (defsb b) -> r x = None) ->
     (forall lp, In lp (outer_loopsb b) -> simple_loop ty lp) ->
     run ty r b = Some (r', L) -> analyze ty (Some n) b = Some S ->
     forall a, In a L -> serves n S a).
Proof.
  intros Hn. apply op_block_ind.
  1,2,4,5: cbn [run_op]; intros; inv_opt H3; injection H3 as _ <-;
    match goal with H : In _ [] |- _ => destruct H end.
  - intros r t shifts rho r' L S T HN Hd Hl Hr Ha a Hin.
    exists a. split; auto. cbn [analyze_op] in Ha.
    eapply (proj1 (constant_logs ty S)); eauto.
    intros s q [<-|[]] Hq. eapply constant_indices_in; eauto.
  - intros rs lb ub step iv args inits body IH ys r r' L S T HN Hd Hl Hr Ha a Hin.
    cbn [analyze_op] in Ha. destruct (walk_loop (rotationsb body)) as [l c] eqn:Ew.
    destruct c.
    + injection Ha as <-. exists a. split; auto.
      eapply (proj1 (constant_logs ty l)); eauto. cbn [rotations].
      apply walk_loop_constant; auto.
    + destruct (loop_rotations _ _ _) as [l'|] eqn:El; [|discriminate]. injection Ha as <-.
      destruct (Hl _ (or_introl eq_refl)) as [Hc|(H1 & H2 & H3)].
      * exfalso. apply (walk_loop_other _ _ Ew). rewrite (proj2 rotations_shifts). exact Hc.
      * eapply serves_incl; [|apply incl_appr, incl_refl].
        eapply keys_loop; eauto.
  - intros rs c th IH1 yt el IH2 ye r r' L S T HN Hd Hl Hr Ha a Hin.
    cbn [analyze_op run_op defs outer_loops] in *.
    destruct (analyze ty (Some n) th) as [l1|] eqn:E1; [|discriminate].
    destruct (analyze ty (Some n) el) as [l2|] eqn:E2; [|discriminate]. injection Ha as <-.
    apply nodup_app in HN as (N1 & N2 & N3). apply nodup_app in N2 as (N4 & N5 & N6).
    destruct (int_value r c) as [z|]; [|discriminate]. destruct (z =? 0).
    + inv_opt Hr. injection Hr as _ <-.
      eapply serves_incl; [eapply IH2; eauto|apply incl_appr, incl_refl].
      * intros x Hx. apply Hd. rewrite !in_app_iff. auto.
      * intros lp Hlp. apply Hl. rewrite in_app_iff. auto.
    + inv_opt Hr. injection Hr as _ <-.
      eapply serves_incl; [eapply IH1; eauto|apply incl_appl, incl_refl].
      * intros x Hx. apply Hd. rewrite !in_app_iff. auto.
      * intros lp Hlp. apply Hl. rewrite in_app_iff. auto.
  - intros c th IH r r' L S T HN Hd Hl Hr Ha a Hin. cbn [analyze_op run_op] in *.
    inv_opt Hr; injection Hr as _ <-; [destruct Hin|]. destruct p. eapply IH; eauto.
  - cbn. intros r r' L S _ _ _ _ H _ a Ha. injection H as _ <-. destruct Ha.
  - intros o IH1 b IH2 r r' L S T HN Hd Hl Hr Ha a Hin.
    cbn [analyze run defsb outer_loopsb] in *.
    destruct (analyze_op ty (Some n) o) as [l1|] eqn:E1; [|discriminate].
    destruct (analyze ty (Some n) b) as [l2|] eqn:E2; [|discriminate]. injection Ha as <-.
    apply nodup_app in HN as (N1 & N2 & N3).
    destruct (run_op ty r o) as [[r1 L1]|] eqn:Ro; [|discriminate].
    destruct (run ty r1 b) as [[r2 L2]|] eqn:Rb; [|discriminate]. injection Hr as _ <-.
    apply in_app_iff in Hin as [Hin|Hin].
    + eapply serves_incl; [eapply IH1; eauto|apply incl_appl, incl_refl].
      * intros x Hx. apply Hd. rewrite in_app_iff. auto.
      * intros lp Hlp. apply Hl. rewrite in_app_iff. auto.
    + eapply serves_incl; [|apply incl_appr, incl_refl].
      apply (IH2 r1 r2 L2 l2 (run_op_typed _ _ _ _ _ T Ro) N2); auto.
      * intros x Hx.
        assert (Hx' : ~ In x (results o)).
        { intros C. exact (N3 x (results_defs _ _ C) Hx). }
        rewrite (run_op_frame _ _ _ _ _ _ Ro Hx'). apply Hd. rewrite in_app_iff. auto.
      * intros lp Hlp. apply Hl. rewrite in_app_iff. auto.
Qed.

Lemma names_app l m : names (l ++ m) = [] -> names l = [] /\ names m = [].
Proof. unfold names. rewrite flat_map_app. apply app_eq_nil. Qed.

Lemma walk_loop_all rots : names (concat rots) = [] -> exists l, walk_loop rots = (l, true).
Proof.
  destruct (walk_loop rots) as [l [|]] eqn:E; eauto.
  intros H. exfalso. eapply walk_loop_other; eauto.
Qed.

Lemma constant_analysis ty slots :
  (forall o, names (shifts_of o) = [] ->
     exists S, analyze_op ty slots o = Some S /\
       forall shifts q, In shifts (rotations o) -> In q shifts -> exists z, q = K z /\ In z S) /\
  (forall b, names (shifts_ofb b) = [] ->
     exists S, analyze ty slots b = Some S /\
       forall shifts q, In shifts (rotationsb b) -> In q shifts -> exists z, q = K z /\ In z S).
Proof.
  apply op_block_ind; try (intros; exists []; split; [reflexivity|intros ? ? []]; fail).
  - intros r t shifts H. destruct (all_constant _ H) as (l & Hl). exists l. split; auto.
    intros s q [<-|[]] Hq. eapply constant_indices_in; eauto.
  - intros rs lb ub step iv args inits body IH ys H.
    destruct (walk_loop_all (rotationsb body)) as (l & Hl).
    { rewrite (proj2 rotations_shifts). exact H. }
    exists l. cbn [analyze_op rotations]. rewrite Hl. split; auto.
    apply walk_loop_constant. auto.
  - intros rs c th IH1 yt el IH2 ye H. cbn [shifts_of] in H. apply names_app in H as [H1 H2].
    destruct (IH1 H1) as (S1 & A1 & B1). destruct (IH2 H2) as (S2 & A2 & B2).
    exists (S1 ++ S2). cbn [analyze_op rotations]. rewrite A1, A2. split; auto.
    intros s q Hs Hq. apply in_app_iff in Hs as [Hs|Hs].
    + destruct (B1 s q Hs Hq) as (z & ? & ?). exists z. rewrite in_app_iff. auto.
    + destruct (B2 s q Hs Hq) as (z & ? & ?). exists z. rewrite in_app_iff. auto.
  - intros c th IH H. exact (IH H).
  - intros o IH1 b IH2 H. cbn [shifts_ofb] in H. apply names_app in H as [H1 H2].
    destruct (IH1 H1) as (S1 & A1 & B1). destruct (IH2 H2) as (S2 & A2 & B2).
    exists (S1 ++ S2). cbn [analyze rotationsb]. rewrite A1, A2. split; auto.
    intros s q Hs Hq. apply in_app_iff in Hs as [Hs|Hs].
    + destruct (B1 s q Hs Hq) as (z & ? & ?). exists z. rewrite in_app_iff. auto.
    + destruct (B2 s q Hs Hq) as (z & ? & ?). exists z. rewrite in_app_iff. auto.
Qed.
