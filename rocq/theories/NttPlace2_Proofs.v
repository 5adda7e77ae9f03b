(** Proofs about the placement of transforms: simulation. *)
From Coq Require Import ZArith List Bool Arith Lia.
From Verif Require Import Words NTT_Model NTT_Props NttPlace_Model NttPlace_Proofs.
Import ListNotations.
Open Scope Z_scope.

Lemma form_eqb_eq f g : form_eqb f g = true <-> f = g.
Proof. destruct f, g; cbn; split; congruence. Qed.
Lemma form_eqb_refl f : form_eqb f f = true.
Proof. destruct f; auto. Qed.
Lemma eqbT b : Bool.eqb b true = b.
Proof. destruct b; auto. Qed.
Definition flip (f : form) : form := match f with COEFF => EVAL | EVAL => COEFF end.

Lemma F2_one {A B} (R : A -> B -> Prop) a l : Forall2 R [a] l -> exists a', l = [a'] /\ R a a'.
Proof. inversion 1 as [|? a' ? r H1 H2]; subst. inversion H2; subst. eauto. Qed.
Lemma F2_two {A B} (R : A -> B -> Prop) a b l : Forall2 R [a; b] l -> exists a' b', l = [a'; b'] /\ R a a' /\ R b b'.
Proof. inversion 1 as [|? a' ? r H1 H2]; subst. apply F2_one in H2 as (b' & -> & H2). eauto. Qed.

Section Sim.
Variable csem : coeff_op -> list val -> option (list val).
Variable osem : nat -> list val -> option (list val).
Variable root : Z -> nat -> Z.

Definition goodv (x : val) : Prop := match x with VP _ d => good root d | VO _ => True end.
Definition src (x : val) : Prop := match x with VP f _ => f = COEFF | VO _ => True end.
(** [y] is the source value [x] in form [f] *)
Definition rep (f : form) (x y : val) : Prop :=
  match x with
  | VO _ => y = x
  | VP _ d => match f with COEFF => y = VP COEFF d | EVAL => exists e, y = VP EVAL e /\ R root d e end
  end.

Hypothesis Cgood : forall c l ys, Forall goodv l -> csem c l = Some ys -> Forall goodv ys.
Hypothesis Oother : forall nm l ys, osem nm l = Some ys -> Forall (fun x => is_poly x = false) ys.

(** ** Evaluation form computes the same *)
Lemma rep_eval_lists l l' : Forall src l -> Forall2 (rep EVAL) l l' ->
  forallb (operand_form EVAL) l' = true /\ others l' = others l /\ Forall2 (R root) (polys l) (polys l').
Proof.
  intros S H. induction H as [|x y l l' E H IH]; [cbn; auto|].
  inversion S as [|? ? Sx Sl]; subst. destruct (IH Sl) as (A & B & C).
  destruct x as [f d|z]; cbn in E.
  - destruct E as (e & -> & E). cbn. split; auto.
  - subst y. cbn. split; auto. split; [f_equal; auto|auto].
Qed.
Lemma polys_good l : Forall goodv l -> Forall (good root) (polys l).
Proof. induction 1 as [|[f d|z] l G H IH]; cbn; auto. Qed.

(** the operations that the pass may run in evaluation form *)
Definition linear (k : kind) : Prop :=
  match k with Mul | Add | Sub | MulScalar | ExtractSlice _ _ | TensorSelect _ | FromElements => True | _ => False end.

Lemma sem_linear k l ys : linear k -> Forall src l -> Forall goodv l -> sem csem osem root k COEFF l = Some ys ->
  exists d, ys = [VP COEFF d] /\ good root d /\
  forall l', Forall2 (rep EVAL) l l' -> exists e, sem csem osem root k EVAL l' = Some [VP EVAL e] /\ R root d e.
Proof.
  intros K S G E.
  assert (HL : forall l', Forall2 (rep EVAL) l l' ->
     forallb (operand_form EVAL) l' = true /\ others l' = others l /\ Forall2 (R root) (polys l) (polys l'))
    by (intros; apply rep_eval_lists; auto).
  pose proof (polys_good l G) as GP.
  destruct k; try destruct K; unfold sem in E |- *;
    destruct (negb (forallb (operand_form COEFF) l)); try discriminate.
  - (* Mul *)
    destruct (polys l) as [|a [|b [|]]]; try discriminate. destruct (others l) as [|]; try discriminate.
    destruct (tensor_op2 ring_mul a b) as [z|] eqn:E1; [cbn [bind] in E|discriminate]. injection E as <-.
    inversion GP as [|? ? Ga GP']; subst. inversion GP' as [|? ? Gb _]; subst.
    exists z. split; auto.
    assert (X : forall a' b', R root a a' -> R root b b' -> good root z /\ exists z', tensor_op2 (pointwise Z.mul) a' b' = Some z' /\ R root z z').
    { intros a' b' Ra Rb. apply (tensor_hom2 root _ _ (hom2_mul root) a b a' b' z); auto. }
    split. { destruct (R_ex root a Ga) as (a' & _ & Ra). destruct (R_ex root b Gb) as (b' & _ & Rb). eapply X; eauto. }
    intros l' H. destruct (HL l' H) as (A & -> & C). rewrite A. cbn [negb].
    apply F2_two in C as (a' & b' & -> & C1 & C2). destruct (X _ _ C1 C2) as (_ & z' & Z1 & Z2). rewrite Z1. cbn [bind]. eauto.
  - (* Add *)
    destruct (polys l) as [|a [|b [|]]]; try discriminate. destruct (others l) as [|]; try discriminate.
    destruct (tensor_op2 (pointwise Z.add) a b) as [z|] eqn:E1; [cbn [bind] in E|discriminate]. injection E as <-.
    inversion GP as [|? ? Ga GP']; subst. inversion GP' as [|? ? Gb _]; subst.
    exists z. split; auto.
    assert (X : forall a' b', R root a a' -> R root b b' -> good root z /\ exists z', tensor_op2 (pointwise Z.add) a' b' = Some z' /\ R root z z').
    { intros a' b' Ra Rb. apply (tensor_hom2 root _ _ (hom2_add root) a b a' b' z); auto. }
    split. { destruct (R_ex root a Ga) as (a' & _ & Ra). destruct (R_ex root b Gb) as (b' & _ & Rb). eapply X; eauto. }
    intros l' H. destruct (HL l' H) as (A & -> & C). rewrite A. cbn [negb].
    apply F2_two in C as (a' & b' & -> & C1 & C2). destruct (X _ _ C1 C2) as (_ & z' & Z1 & Z2). rewrite Z1. cbn [bind]. eauto.
  - (* Sub *)
    destruct (polys l) as [|a [|b [|]]]; try discriminate. destruct (others l) as [|]; try discriminate.
    destruct (tensor_op2 (pointwise Z.sub) a b) as [z|] eqn:E1; [cbn [bind] in E|discriminate]. injection E as <-.
    inversion GP as [|? ? Ga GP']; subst. inversion GP' as [|? ? Gb _]; subst.
    exists z. split; auto.
    assert (X : forall a' b', R root a a' -> R root b b' -> good root z /\ exists z', tensor_op2 (pointwise Z.sub) a' b' = Some z' /\ R root z z').
    { intros a' b' Ra Rb. apply (tensor_hom2 root _ _ (hom2_sub root) a b a' b' z); auto. }
    split. { destruct (R_ex root a Ga) as (a' & _ & Ra). destruct (R_ex root b Gb) as (b' & _ & Rb). eapply X; eauto. }
    intros l' H. destruct (HL l' H) as (A & -> & C). rewrite A. cbn [negb].
    apply F2_two in C as (a' & b' & -> & C1 & C2). destruct (X _ _ C1 C2) as (_ & z' & Z1 & Z2). rewrite Z1. cbn [bind]. eauto.
  - (* MulScalar *)
    destruct (polys l) as [|a [|]]; try discriminate. destruct (others l) as [|s [|]]; try discriminate.
    destruct (omap (rns_scale s) a) as [z|] eqn:E1; [cbn [bind] in E|discriminate]. injection E as <-.
    inversion GP as [|? ? Ga _]; subst. exists z. split; auto.
    assert (X : forall a', R root a a' -> good root z /\ exists z', omap (rns_scale s) a' = Some z' /\ R root z z').
    { intros a' Ra. apply (omap_hom root (rns_scale s) (rns_scale s) (rns_scale_hom root s) a a' z); auto. }
    split. { destruct (R_ex root a Ga) as (a' & _ & Ra). eapply X; eauto. }
    intros l' H. destruct (HL l' H) as (A & -> & C). rewrite A. cbn [negb].
    apply F2_one in C as (a' & -> & C1). destruct (X _ C1) as (_ & z' & Z1 & Z2). rewrite Z1. cbn [bind]. eauto.
  - (* ExtractSlice *)
    destruct (polys l) as [|a [|]]; try discriminate. destruct (others l) as [|]; try discriminate.
    match type of E with (r <- omap ?F a ;; _) = _ => set (f := F) in * end.
    destruct (omap f a) as [z|] eqn:E1; [cbn [bind] in E|discriminate]. injection E as <-.
    inversion GP as [|? ? Ga _]; subst. exists z. split; auto.
    assert (X : forall a', R root a a' -> good root z /\ exists z', omap f a' = Some z' /\ R root z z').
    { intros a' Ra. apply (omap_hom root f f (slice_hom root start size) a a' z); auto. }
    split. { destruct (R_ex root a Ga) as (a' & _ & Ra). eapply X; eauto. }
    intros l' H. destruct (HL l' H) as (A & -> & C). rewrite A. cbn [negb].
    apply F2_one in C as (a' & -> & C1). destruct (X _ C1) as (_ & z' & Z1 & Z2). fold f. rewrite Z1. cbn [bind]. eauto.
  - (* TensorSelect *)
    destruct (polys l) as [|a [|]]; try discriminate.
    destruct (omap (fun i => nth_error a i) (g (others l))) as [z|] eqn:E1; [cbn [bind] in E|discriminate].
    injection E as <-. inversion GP as [|? ? Ga _]; subst. exists z. split; auto.
    assert (X : forall a', R root a a' -> good root z /\ exists z', omap (fun i => nth_error a' i) (g (others l)) = Some z' /\ R root z z').
    { intros a' Ra. apply (select_hom root a a'); auto. }
    split. { destruct (R_ex root a Ga) as (a' & _ & Ra). eapply X; eauto. }
    intros l' H. destruct (HL l' H) as (A & B & C). rewrite A. cbn [negb].
    apply F2_one in C as (a' & -> & C1). rewrite B. destruct (X _ C1) as (_ & z' & Z1 & Z2). rewrite Z1. cbn [bind]. eauto.
  - (* FromElements *)
    destruct (others l) as [|] eqn:EO; [|destruct (polys l); discriminate].
    assert (E1 : Some [VP COEFF (concat (polys l))] = Some ys) by (destruct (polys l); exact E).
    injection E1 as <-. eexists. split; [reflexivity|]. split; [apply F_concat; auto|].
    intros l' H. destruct (HL l' H) as (A & B & C). rewrite A, B. cbn [negb].
    exists (concat (polys l')). split; [destruct (polys l'); auto|]. apply F2_concat; auto.
Qed.

(** ** The function being rewritten *)
Variable p : prog.
Variable N : nat.
Variable s : assignment.
Notation poly_of := (p_poly p).
Hypothesis HN : forall v, In v (p_args p ++ flat_map o_results (p_ops p)) -> (v < N)%nat.
Hypothesis ND : NoDup (p_args p ++ flat_map o_results (p_ops p)).
Hypothesis Fa : forall v, In v (p_args p) -> p_argform p v = COEFF.
Hypothesis Fo : forall o, In o (p_ops p) -> o_form o = COEFF.
Hypothesis Two : forall o, In o (p_ops p) -> (length (poly_results p o) <= 1)%nat.
Hypothesis Live : forall pre o post v, p_ops p = pre ++ o :: post -> In v (poly_results p o) ->
  In v (p_ret p) \/ exists o', In o' post /\ In v (o_args o').
Hypothesis NoSwitch : forall o ms, In o (p_ops p) -> o_kind o <> ModSwitch ms.
Hypothesis Cst : forall o d, In o (p_ops p) -> o_kind o = Constant d ->
  good root d /\ forall v, In v (o_results o) -> s (Ve v) = false.
Hypothesis Sat : forall cs, constraints p = Some cs -> forallb (holds s) cs = true.

Definition defined (v : nat) : Prop := In v (p_args p ++ flat_map o_results (p_ops p)).
Definition Inv (e : env) : Prop := forall v x, e v = Some x -> typed poly_of COEFF v x = true /\ goodv x /\ defined v.

Lemma bind_all_spec poly f vs xs e e' : NoDup vs -> bind_all poly f vs xs e = Some e' ->
  Forall2 (fun v x => typed poly (f v) v x = true /\ e' v = Some x) vs xs /\
  forall w, ~ In w vs -> e' w = e w.
Proof.
  revert xs e. induction vs as [|v vs IH]; intros [|x xs] e HD E; cbn [bind_all] in E; try discriminate.
  - injection E as <-. split; auto.
  - inversion HD; subst. destruct (typed poly (f v) v x) eqn:T; [|discriminate].
    destruct (IH xs _ H2 E) as [A B]. split.
    + constructor; auto. split; auto. rewrite B by auto. unfold set. rewrite Nat.eqb_refl. auto.
    + intros w Hw. rewrite B by (intros ?; apply Hw; right; auto). unfold set.
      destruct (Nat.eqb_spec w v); auto. subst. exfalso. apply Hw. left; auto.
Qed.
Lemma bind_all_ok poly f vs xs e : Forall2 (fun v x => typed poly (f v) v x = true) vs xs ->
  exists e', bind_all poly f vs xs e = Some e'.
Proof.
  intros H. revert e. induction H as [|v x vs xs T H IH]; intros e; cbn [bind_all]; eauto.
  rewrite T. apply IH.
Qed.

Lemma typed_src v x : typed poly_of COEFF v x = true -> src x /\ poly_of v = is_poly x.
Proof.
  destruct x as [f d|z]; cbn.
  - intros H. apply andb_true_iff in H as [A B]. destruct f; [auto|discriminate].
  - rewrite negb_true_iff. auto.
Qed.

Lemma nodup_app_l {A} (a b : list A) : NoDup (a ++ b) -> NoDup a.
Proof. induction a; cbn; intros H; [constructor|]. inversion H; subst. constructor; auto. intros X; apply H2, in_or_app; auto. Qed.
Lemma nodup_app_r {A} (a b : list A) : NoDup (a ++ b) -> NoDup b.
Proof. induction a; cbn; auto. inversion 1; auto. Qed.
Lemma nodup_app_disj {A} (a b : list A) x : NoDup (a ++ b) -> In x a -> In x b -> False.
Proof.
  induction a; cbn; intros H; [tauto|]. inversion H; subst. intros [->|Ha] Hb; [|eauto].
  apply H2, in_or_app; auto.
Qed.
Lemma nodup_flat {A B} (f : A -> list B) l a b x : NoDup (flat_map f l) -> In a l -> In b l ->
  In x (f a) -> In x (f b) -> a = b.
Proof.
  induction l as [|c l IH]; cbn; intros H Ha Hb Xa Xb; [tauto|].
  destruct Ha as [->|Ha], Hb as [->|Hb]; auto.
  - exfalso. eapply (nodup_app_disj _ _ x H); auto. apply in_flat_map. eauto.
  - exfalso. eapply (nodup_app_disj _ _ x H); auto. apply in_flat_map. eauto.
  - apply IH; auto. eapply nodup_app_r; eauto.
Qed.
Lemma nodup_results o : In o (p_ops p) -> NoDup (o_results o).
Proof.
  pose proof (nodup_app_r _ _ ND) as H. clear - H. induction (p_ops p) as [|c l IH]; [intros []|].
  cbn in H. intros [->|Hi]; [eapply nodup_app_l; eauto|]. apply IH; auto. eapply nodup_app_r; eauto.
Qed.
Lemma op_defined o v : In o (p_ops p) -> In v (o_results o) -> defined v.
Proof. intros A B. apply in_or_app. right. apply in_flat_map. eauto. Qed.
Lemma op_lt o v : In o (p_ops p) -> In v (o_results o) -> (v < N)%nat.
Proof. intros A B. apply HN. eapply op_defined; eauto. Qed.

(** ** One operation of the source *)
Lemma kind_cases k : linear k \/ (exists c, k = Coeff c) \/ (exists d, k = Constant d) \/ (exists n, k = Other n) \/
  (exists ms, k = ModSwitch ms) \/ k = Ntt \/ k = Intt.
Proof. destruct k; cbn; eauto 10. Qed.

Definition src_step (e : env) (o : op) (xs ys : list val) (e' : env) : Prop :=
  Inv e /\ Inv e' /\ omap e (o_args o) = Some xs /\ sem csem osem root (o_kind o) COEFF xs = Some ys /\
  bind_all poly_of (fun _ => COEFF) (o_results o) ys e = Some e' /\
  Forall src xs /\ Forall goodv xs /\ Forall goodv ys /\
  Forall2 (fun v x => poly_of v = is_poly x /\ defined v) (o_args o) xs.

Lemma sem_good o xs ys : In o (p_ops p) -> Forall src xs -> Forall goodv xs ->
  sem csem osem root (o_kind o) COEFF xs = Some ys -> Forall goodv ys.
Proof.
  intros Hi S G E. destruct (kind_cases (o_kind o)) as [K|[[c K]|[[d K]|[[nm K]|[[ms K]|[K|K]]]]]].
  - destruct (sem_linear _ _ _ K S G E) as (d & -> & Gd & _). constructor; auto.
  - rewrite K in E. unfold sem in E. destruct (negb _); [discriminate|].
    assert (E' : csem c xs = Some ys) by (destruct (polys xs), (others xs); exact E). eauto.
  - rewrite K in E. unfold sem in E. destruct (negb _); [discriminate|].
    destruct (polys xs); [|discriminate]. destruct (others xs); [|discriminate]. injection E as <-.
    constructor; auto. cbn. apply (Cst o); auto.
  - rewrite K in E. cbn in E. destruct (forallb _ xs); [|discriminate]. apply Oother in E.
    clear - E. induction E as [|x l H E IH]; constructor; auto. destruct x; [discriminate|exact I].
  - exfalso. eapply NoSwitch; eauto.
  - rewrite K in E. cbn in E. destruct xs as [|[[|] d|] [|]]; discriminate.
  - rewrite K in E. cbn in E. destruct xs as [|[[|] d|] [|]]; try discriminate.
    inversion S as [|? ? X _]; discriminate.
Qed.
Lemma src_step_ok e o e' : Inv e -> In o (p_ops p) -> step csem osem root poly_of e o = Some e' ->
  exists xs ys, src_step e o xs ys e'.
Proof.
  intros HI Hi. unfold step. rewrite (Fo o Hi).
  destruct (omap e (o_args o)) as [xs|] eqn:E1; [cbn [bind]|discriminate].
  destruct (sem csem osem root (o_kind o) COEFF xs) as [ys|] eqn:E2; [cbn [bind]|discriminate]. intros E3.
  exists xs, ys.
  assert (X : Forall src xs /\ Forall goodv xs /\ Forall2 (fun v x => poly_of v = is_poly x /\ defined v) (o_args o) xs).
  { apply omap_F2 in E1. clear - E1 HI. induction E1 as [|v x vs xs E E1 (A & B & C)]; auto.
    destruct (HI _ _ E) as (T & G & D). apply typed_src in T as [T1 T2]. auto. }
  destruct X as (X1 & X2 & X3). pose proof (sem_good o xs ys Hi X1 X2 E2) as X4.
  assert (HI' : Inv e').
  { destruct (bind_all_spec _ _ _ _ _ _ (nodup_results o Hi) E3) as [A B]. intros v x Hv.
    destruct (in_dec Nat.eq_dec v (o_results o)) as [Hin|Hout].
    - assert (Y : exists y, typed poly_of COEFF v y = true /\ e' v = Some y /\ In y ys).
      { clear - A Hin. induction A as [|w y vs ys [T E] A IH]; [destruct Hin|].
        destruct Hin as [->|Hin]; [exists y; cbn; auto|]. destruct (IH Hin) as (z & Z1 & Z2 & Z3).
        exists z. cbn. auto. }
      destruct Y as (y & Y1 & Y2 & Y3). rewrite Hv in Y2. injection Y2 as <-. split; auto. split.
      + rewrite Forall_forall in X4. auto.
      + eapply op_defined; eauto.
    - rewrite B in Hv by auto. apply HI; auto. }
  unfold src_step. do 8 (split; [assumption|]). assumption.
Qed.

(** shape of the results *)
Lemma one_result e o xs ys e' d : In o (p_ops p) -> src_step e o xs ys e' -> ys = [VP COEFF d] ->
  exists v, o_results o = [v] /\ poly_of v = true /\ poly_results p o = [v].
Proof.
  intros Hi (_ & _ & _ & _ & E & _) ->.
  destruct (bind_all_spec _ _ _ _ _ _ (nodup_results o Hi) E) as [A _].
  inversion A as [|v ? vs ? [T _] A' E1 E2]; subst. inversion A'; subst. exists v. cbn in T.
  rewrite andb_true_r in T. split; auto. split; auto. unfold poly_results. rewrite <- E1. cbn. rewrite T. auto.
Qed.
Lemma operands_of_polys vs xs : Forall2 (fun v x => poly_of v = is_poly x /\ defined v) vs xs ->
  polys xs = [] -> filter poly_of vs = [].
Proof.
  induction 1 as [|v x vs xs [E _] H IH]; cbn; auto. destruct x; cbn in *; [discriminate|].
  rewrite E. auto.
Qed.

(** the form in which the pass runs an operation *)
Definition main_form (o : op) : form :=
  match op_form_class (o_kind o) with
  | CEval => EVAL
  | CEither => match poly_results p o with v :: _ => get_mode s v | [] => COEFF end
  | _ => COEFF
  end.

(** everything known about an operation that ran *)
Definition ran (o : op) : Prop := exists e xs ys e', src_step e o xs ys e'.
Lemma ran_shape o : In o (p_ops p) -> ran o ->
  (linear (o_kind o) /\ exists v, o_results o = [v] /\ poly_results p o = [v] /\ poly_of v = true) \/
  ((exists c, o_kind o = Coeff c) /\ (poly_results p o = [] \/ exists v, poly_results p o = [v])) \/
  ((exists d, o_kind o = Constant d) /\ poly_operands p o = [] /\
     exists v, o_results o = [v] /\ poly_results p o = [v] /\ poly_of v = true) \/
  ((exists n, o_kind o = Other n) /\ poly_operands p o = [] /\ poly_results p o = []).
Proof.
  intros Hi (e & xs & ys & e' & H). pose proof H as (I1 & I2 & E1 & E2 & E3 & S & G & G' & F).
  destruct (kind_cases (o_kind o)) as [K|[[c K]|[[d K]|[[nm K]|[[ms K]|[K|K]]]]]].
  - left. split; auto. destruct (sem_linear _ _ _ K S G E2) as (d & -> & Gd & _).
    destruct (one_result _ _ _ _ _ d Hi H eq_refl) as (v & A & B & C). eauto.
  - right; left. split; [eauto|]. pose proof (Two o Hi) as T.
    destruct (poly_results p o) as [|v [|]]; eauto. cbn in T. lia.
  - do 2 right; left. split; [eauto|]. rewrite K in E2. unfold sem in E2. destruct (negb _); [discriminate|].
    destruct (polys xs) eqn:EP; [|discriminate]. destruct (others xs); [|discriminate]. injection E2 as <-.
    destruct (one_result _ _ _ _ _ _ Hi H eq_refl) as (v & A & B & C). split; [|eauto].
    apply (operands_of_polys _ _ F EP).
  - do 3 right. split; [eauto|]. rewrite K in E2. cbn in E2.
    destruct (forallb (fun x => negb (is_poly x)) xs) eqn:FB; [|discriminate]. apply Oother in E2. split.
    + apply (operands_of_polys _ _ F). clear - FB. induction xs as [|[|] xs IH]; cbn in *; auto. discriminate.
    + destruct (bind_all_spec _ _ _ _ _ _ (nodup_results o Hi) E3) as [A _]. unfold poly_results.
      clear - A E2. induction A as [|v y vs ys [T _] A IH]; auto. inversion E2; subst. cbn.
      apply typed_src in T as [_ T]. rewrite T, H1. auto.
  - exfalso. eapply NoSwitch; eauto.
  - rewrite K in E2. cbn in E2. destruct xs as [|[[|] d|] [|]]; discriminate.
  - rewrite K in E2. cbn in E2. destruct xs as [|[[|] d|] [|]]; try discriminate.
    inversion S as [|? ? X _]; discriminate.
Qed.

(** ** The constraints *)
Hypothesis AllRan : forall o, In o (p_ops p) -> ran o.

Lemma order_in o : In o (order p) <-> In o (p_ops p) /\ in_order p o = true.
Proof. unfold order. apply filter_In. Qed.
Lemma op_constraints_some o : In o (order p) -> exists cs, op_constraints p o = Some cs.
Proof.
  rewrite order_in. intros [Hi Ho].
  destruct (ran_shape o Hi (AllRan o Hi)) as [(K & v & _ & E & _)|[([c K] & [E|[v E]])|[([d K] & E' & v & _ & E & _)|([n K] & E' & E)]]];
    unfold op_constraints; rewrite E.
  - destruct (o_kind o); try destruct K; cbn; eauto.
  - rewrite K. cbn. eauto.
  - rewrite K. cbn. eauto.
  - rewrite K. cbn. eauto.
  - unfold in_order in Ho. rewrite E, E' in Ho. discriminate.
Qed.
Lemma omap_some {A B} (f : A -> option B) l : (forall a, In a l -> exists b, f a = Some b) -> exists l', omap f l = Some l'.
Proof.
  induction l as [|a l IH]; intros H; [exists []; auto|].
  destruct (H a) as [b E]; [left; auto|]. destruct IH as [r Er]; [intros; apply H; right; auto|].
  cbn [omap]. rewrite E. cbn [bind]. rewrite Er. cbn [bind]. eauto.
Qed.
Lemma F2_in_l {A B} (R : A -> B -> Prop) l l' a : Forall2 R l l' -> In a l -> exists b, In b l' /\ R a b.
Proof. induction 1; cbn; [tauto|]. intros [->|Hin]; [eauto|]. destruct (IHForall2 Hin) as (b & ? & ?). eauto. Qed.
Lemma constraints_hold : exists cs, constraints p = Some cs /\
  (forall v, In v (p_args p) -> poly_of v = true -> forallb (holds s) (conversion_if_both v) = true) /\
  (forall o c, In o (order p) -> op_constraints p o = Some c -> forallb (holds s) c = true) /\
  (forall v, In v (p_ret p) -> poly_of v = true -> s (Vc v) || s (Ve v) = true).
Proof.
  destruct (omap_some (op_constraints p) (order p) op_constraints_some) as [l E].
  unfold constraints in Sat |- *. rewrite E in Sat |- *. cbn [bind] in Sat |- *.
  specialize (Sat _ eq_refl). eexists. split; [reflexivity|].
  rewrite !forallb_app, !andb_true_iff in Sat. destruct Sat as (S1 & S2 & S3).
  rewrite forallb_forall in S1, S2, S3. split; [|split].
  - intros v Hv Pv. apply forallb_forall. intros c Hc. apply S1. apply in_flat_map. exists v. split; auto.
    apply filter_In; auto.
  - intros o c Ho Hc. apply forallb_forall. intros x Hx. apply S2. apply in_concat.
    apply omap_F2 in E. destruct (F2_in_l _ _ _ _ E Ho) as (c' & Hin & Ec). exists c'. split; auto. congruence.
  - intros v Hv Pv. specialize (S3 (BoolOr [(true, Vc v); (true, Ve v)])). cbn in S3.
    rewrite orb_false_r in S3. rewrite !eqbT in S3. apply S3. apply in_flat_map. exists v. split.
    + apply filter_In; auto.
    + left. auto.
Qed.

(** operations whose results are demanded *)
Definition demanded (v : nat) : Prop := s (Vc v) || s (Ve v) = true.
Lemma op_demand o : In o (order p) -> (forall v, In v (poly_results p o) -> demanded v) ->
  (forall x, In x (poly_operands p o) -> s (var_form x (main_form o)) = true) /\
  (forall v, In v (poly_results p o) -> s (var_form v (main_form o)) = true /\
     s (Vconv v) = s (var_form v (flip (main_form o)))).
Proof.
  intros Ho D. destruct constraints_hold as (_ & _ & _ & HC & _).
  destruct (op_constraints_some o Ho) as [c Ec]. specialize (HC o c Ho Ec).
  apply order_in in Ho as [Hi Ho].
  assert (HF : forall (f : nat -> list constr) x, In x (poly_operands p o) -> forallb (holds s) (flat_map f (poly_operands p o)) = true ->
     forallb (holds s) (f x) = true).
  { intros f x Hx H. rewrite forallb_forall in H. apply forallb_forall. intros y Hy. apply H. apply in_flat_map. eauto. }
  unfold op_constraints in Ec. unfold main_form.
  destruct (ran_shape o Hi (AllRan o Hi)) as [(K & v & _ & E & _)|[([cc K] & [E|[v E]])|[([d K] & E' & v & Er & E & _)|([n K] & E' & E)]]];
    rewrite E in *.
  - assert (Dv : demanded v) by (apply D; left; auto). unfold demanded in Dv.
    assert (X : op_form_class (o_kind o) = CEval \/ op_form_class (o_kind o) = CEither)
      by (destruct (o_kind o); try destruct K; auto).
    destruct X as [X|X]; rewrite X in *; injection Ec as <-.
    + cbn [forallb holds] in HC. rewrite !andb_true_iff in HC. destruct HC as (A & B & C).
      assert (Se : s (Ve v) = true) by (destruct (s (Vc v)), (s (Ve v)); auto).
      split.
      * intros x Hx. specialize (HF _ _ Hx C). cbn in HF. rewrite Se in HF. cbn in HF. rewrite andb_true_r in HF. auto.
      * intros w [<-|[]]. cbn. split; auto. apply eqb_prop; auto.
    + cbn [forallb holds] in HC. rewrite forallb_app, !andb_true_iff in HC. destruct HC as (A1 & A2 & B & C).
      cbn in A1, A2, C.
      unfold get_mode. split.
      * intros x Hx. specialize (HF _ _ Hx B). cbn in HF. clear B A1 A2 C.
        destruct (s (Vmode v)), (s (Vc v)), (s (Ve v)), (s (Vc x)) eqn:E1, (s (Ve x)) eqn:E2; cbn in *; try discriminate; auto.
      * intros w [<-|[]]. clear B HF; destruct (s (Vmode v)), (s (Vc v)) eqn:E1, (s (Ve v)) eqn:E2, (s (Vconv v)) eqn:E3; cbn in *; try discriminate; rewrite ?E1, ?E2; auto.
  - rewrite K in *. cbn in Ec |- *. injection Ec as <-. split; [|intros ? []].
    intros x Hx. specialize (HF _ _ Hx HC). cbn in HF. rewrite andb_true_r, eqbT in HF. auto.
  - rewrite K in *. cbn in Ec |- *. injection Ec as <-.
    assert (Dv : demanded v) by (apply D; left; auto). unfold demanded in Dv.
    cbn in HC. rewrite !andb_true_iff in HC. destruct HC as (A & B & C).
    assert (Sc : s (Vc v) = true) by (destruct (s (Vc v)), (s (Ve v)); auto).
    split.
    + intros x Hx. specialize (HF _ _ Hx C). cbn in HF. rewrite Sc, andb_true_r in HF. auto.
    + intros w [<-|[]]. split; auto. apply eqb_prop; auto.
  - rewrite K in *. cbn in Ec |- *. injection Ec as <-. rewrite E'. split; [intros ? []|].
    intros w [<-|[]]. assert (Dv : demanded v) by (apply D; left; auto). unfold demanded in Dv.
    destruct (Cst o d Hi K) as [_ Ce]. rewrite (Ce v) in * by (rewrite Er; left; auto).
    rewrite orb_false_r in Dv. cbn in HC. rewrite andb_true_r in HC. split; auto. apply eqb_prop; auto.
  - unfold in_order in Ho. rewrite E, E' in Ho. discriminate.
Qed.
Lemma in_order_res o v : In v (poly_results p o) -> in_order p o = true.
Proof. unfold in_order. destruct (poly_results p o); [intros []|]. intros _. cbn. apply orb_true_r. Qed.
Lemma in_order_arg o v : In v (poly_operands p o) -> in_order p o = true.
Proof. unfold in_order. destruct (poly_operands p o); [intros []|]. intros _. auto. Qed.
Lemma demand_post post pre : p_ops p = pre ++ post ->
  forall o, In o post -> forall v, In v (poly_results p o) -> demanded v.
Proof.
  revert pre. induction post as [|o post IH]; intros pre E o' Ho v Hv; [destruct Ho|].
  specialize (IH (pre ++ [o])). rewrite <- app_assoc in IH. specialize (IH E).
  destruct Ho as [<-|Ho]; [|eauto]. unfold demanded.
  assert (Pv : poly_of v = true) by (unfold poly_results in Hv; apply filter_In in Hv; tauto).
  destruct (Live pre o post v E Hv) as [Hr|(o2 & Ho2 & Ha)].
  - destruct constraints_hold as (_ & _ & _ & _ & HR). auto.
  - assert (Hx : In v (poly_operands p o2)) by (apply filter_In; auto).
    assert (Ho' : In o2 (order p)).
    { apply order_in. split; [rewrite E; apply in_or_app; right; right; auto|]. eapply in_order_arg; eauto. }
    destruct (op_demand o2 Ho' (IH o2 Ho2)) as [A _]. specialize (A v Hx).
    destruct (main_form o2); cbn in A; rewrite A; auto. apply orb_true_r.
Qed.
Lemma op_forms o : In o (p_ops p) ->
  (forall x, In x (poly_operands p o) -> s (var_form x (main_form o)) = true) /\
  (forall v, In v (poly_results p o) -> s (var_form v (main_form o)) = true /\
     s (Vconv v) = s (var_form v (flip (main_form o)))).
Proof.
  intros Hi. pose proof (demand_post (p_ops p) [] eq_refl o Hi) as D.
  assert (X : in_order p o = true -> In o (order p)) by (intros; apply order_in; auto).
  split; intros x Hx.
  - apply (proj1 (op_demand o (X (in_order_arg o x Hx)) D)); auto.
  - apply (proj2 (op_demand o (X (in_order_res o x Hx)) D)); auto.
Qed.
Definition arg_form (v : nat) : form := if s (Vc v) then COEFF else EVAL.
Lemma arg_conv v : In v (p_args p) -> poly_of v = true -> s (Vconv v) = s (var_form v (flip (arg_form v))) .
Proof.
  intros Hv Pv. destruct constraints_hold as (_ & _ & HA & _). specialize (HA v Hv Pv). unfold arg_form.
  cbn in HA. destruct (s (Vc v)) eqn:E1, (s (Ve v)) eqn:E2, (s (Vconv v)) eqn:E3; cbn in *; try discriminate; rewrite ?E1, ?E2; auto.
Qed.

(** ** Steps 3 and 4 *)
Definition vconvs (f : form) (v : nat) : list op :=
  if s (var_form v (flip f)) then [add_conversion N v (flip f)] else [].
Definition vents (f : form) (v : nat) : list entry :=
  (f, v, v) :: if s (var_form v (flip f)) then [(flip f, v, conv_id N v)] else [].

Lemma fix_arg_shape v : fix_arg s N v = (arg_form v, vconvs (arg_form v) v, vents (arg_form v) v).
Proof.
  unfold fix_arg, arg_form, vconvs, vents, needs_form. cbn [var_form]. destruct (s (Vc v)) eqn:E; cbn; auto.
  rewrite E. auto.
Qed.
Lemma step3_shape o : In o (p_ops p) ->
  step3 p s N o = Some (Op (o_results o) (o_kind o) (o_args o) (main_form o),
    flat_map (vconvs (main_form o)) (poly_results p o), flat_map (vents (main_form o)) (poly_results p o)).
Proof.
  intros Hi. destruct (op_forms o Hi) as [_ HV]. pose proof (Fo o Hi) as HF. unfold step3.
  assert (NoRes : poly_results p o = [] -> (if in_order p o then fix_output p s N o else Some (o, [], [])) = Some (o, [], [])).
  { intros E. unfold fix_output. rewrite E. destruct (in_order p o); auto. }
  assert (Same : COEFF = main_form o -> Op (o_results o) (o_kind o) (o_args o) (main_form o) = o).
  { intros <-. rewrite <- HF. destruct o; auto. }
  destruct (ran_shape o Hi (AllRan o Hi)) as [(K & v & _ & E & _)|[([cc K] & [E|[v E]])|[([d K] & E' & v & Er & E & _)|([n K] & E' & E)]]].
  - rewrite (in_order_res o v) by (rewrite E; left; auto). destruct (HV v) as [A B]; [rewrite E; left; auto|].
    unfold fix_output. rewrite E. cbn [flat_map]. rewrite !app_nil_r. unfold vconvs, vents.
    unfold needs_form, needs_conversion. rewrite B.
    assert (X : op_form_class (o_kind o) = CEval \/ op_form_class (o_kind o) = CEither)
      by (destruct (o_kind o); try destruct K; auto).
    destruct X as [X|X]; rewrite X.
    + assert (M : main_form o = EVAL) by (unfold main_form; rewrite X; auto). rewrite M in *. cbn [var_form flip] in *.
      rewrite A. cbn [negb]. rewrite andb_false_r, eqb_reflx. cbn [negb]. auto.
    + assert (M : main_form o = get_mode s v) by (unfold main_form; rewrite X, E; auto).
      rewrite <- M. destruct (main_form o) eqn:EM; cbn [var_form flip] in *; rewrite A; cbn [andb].
      * rewrite eqb_reflx. cbn [negb form_eqb]. rewrite andb_false_r.
        destruct (s (Ve v)); cbn; rewrite Same; auto.
      * rewrite andb_true_r, eqb_reflx. cbn [negb form_eqb]. rewrite andb_false_r.
        destruct (s (Vc v)); cbn; auto.
  - assert (M : main_form o = COEFF) by (unfold main_form; rewrite K; auto).
    rewrite NoRes, E, Same by auto. auto.
  - assert (M : main_form o = COEFF) by (unfold main_form; rewrite K; auto).
    rewrite (in_order_res o v) by (rewrite E; left; auto). destruct (HV v) as [A B]; [rewrite E; left; auto|].
    unfold fix_output. rewrite E, Same by auto. rewrite K. cbn [op_form_class flat_map]. rewrite !app_nil_r.
    unfold vconvs, vents, needs_form, needs_conversion. rewrite B. rewrite M in *. cbn [var_form flip] in *.
    rewrite A, eqb_reflx. auto.
  - assert (M : main_form o = COEFF) by (unfold main_form; rewrite K; auto).
    rewrite (in_order_res o v) by (rewrite E; left; auto). destruct (HV v) as [A B]; [rewrite E; left; auto|].
    unfold fix_output. rewrite E. rewrite K at 1. cbn [op_form_class flat_map]. rewrite !app_nil_r.
    unfold vconvs, vents, needs_form, needs_conversion. rewrite B. rewrite M in *. cbn [var_form flip] in *.
    destruct (Cst o d Hi K) as [_ Ce]. assert (Se : s (Ve v) = false) by (apply Ce; rewrite Er; left; auto).
    rewrite Se, A. cbn. auto.
  - assert (M : main_form o = COEFF) by (unfold main_form; rewrite K; auto).
    rewrite NoRes, E, Same by auto. auto.
Qed.

(** ** The caches *)
Definition cache : list entry :=
  flat_map (fun v => vents (arg_form v) v) (filter poly_of (p_args p)) ++
  flat_map (fun o => flat_map (vents (main_form o)) (poly_results p o)) (p_ops p).

Lemma vents_in f g v w u : In (g, w, u) (vents f v) ->
  w = v /\ ((g = f /\ u = v) \/ (g = flip f /\ u = conv_id N v /\ s (var_form v (flip f)) = true)).
Proof.
  unfold vents. intros [E|E]; [injection E as -> -> ->; auto|].
  destruct (s (var_form v (flip f))) eqn:X; [|destruct E].
  destruct E as [E|[]]. injection E as -> -> ->. auto.
Qed.
Lemma vents_has f g v : s (var_form v g) = true -> exists u, In (g, v, u) (vents f v).
Proof.
  intros H. unfold vents. destruct f, g; cbn [flip] in *; try (exists v; left; reflexivity);
    rewrite H; exists (conv_id N v); right; left; auto.
Qed.
(** the form in which a value is computed *)
Definition computed_in (v : nat) (f : form) : Prop :=
  (In v (p_args p) /\ f = arg_form v) \/ exists o, In o (p_ops p) /\ In v (o_results o) /\ f = main_form o.
Lemma computed_unique v f g : computed_in v f -> computed_in v g -> f = g.
Proof.
  intros [[A ->]|(o & A & B & ->)] [[A' ->]|(o' & A' & B' & ->)]; auto.
  - exfalso. eapply (nodup_app_disj _ _ v ND); auto. apply in_flat_map. eauto.
  - exfalso. eapply (nodup_app_disj _ _ v ND); auto. apply in_flat_map. eauto.
  - f_equal. eapply (nodup_flat o_results (p_ops p) o o' v); eauto. eapply nodup_app_r; eauto.
Qed.
Lemma cache_in g v u : In (g, v, u) cache -> poly_of v = true /\ exists f, computed_in v f /\ In (g, v, u) (vents f v).
Proof.
  unfold cache. intros H. apply in_app_or in H as [H|H].
  - apply in_flat_map in H as (w & Hw & H). apply filter_In in Hw as [Hw Pw].
    pose proof (proj1 (vents_in _ _ _ _ _ H)). subst w. split; auto. exists (arg_form v). split; auto. left; auto.
  - apply in_flat_map in H as (o & Ho & H). apply in_flat_map in H as (w & Hw & H).
    apply filter_In in Hw as [Hw Pw]. pose proof (proj1 (vents_in _ _ _ _ _ H)). subst w. split; auto.
    exists (main_form o). split; auto. right. eauto.
Qed.
Lemma cache_has v g : defined v -> poly_of v = true -> s (var_form v g) = true -> exists u, In (g, v, u) cache.
Proof.
  unfold defined, cache. intros D P S. apply in_app_or in D as [D|D].
  - destruct (vents_has (arg_form v) g v S) as [u Hu]. exists u. apply in_or_app. left. apply in_flat_map.
    exists v. split; auto. apply filter_In; auto.
  - apply in_flat_map in D as (o & Ho & D). destruct (vents_has (main_form o) g v S) as [u Hu].
    exists u. apply in_or_app. right. apply in_flat_map. exists o. split; auto. apply in_flat_map. exists v. split; auto.
    apply filter_In; auto.
Qed.
Lemma ftv_in v f u : form_to_value cache v f = Some u -> In (f, v, u) cache.
Proof.
  unfold form_to_value. match goal with |- context [find ?h ?l] => destruct (find h l) as [[[g w] u']|] eqn:E end; [|discriminate].
  cbn. intros [= <-]. apply find_some in E as [H1 H2]. cbn in H2. apply andb_true_iff in H2 as [A B].
  apply form_eqb_eq in A. apply Nat.eqb_eq in B. subst. apply in_rev; auto.
Qed.
Lemma ftv_ex v f u : In (f, v, u) cache -> exists u', form_to_value cache v f = Some u'.
Proof.
  intros H. unfold form_to_value. match goal with |- context [find ?h ?l] => destruct (find h l) as [e|] eqn:E end; [cbn; eauto|].
  exfalso. apply in_rev in H. apply (find_none _ _ E) in H. cbn in H. rewrite form_eqb_refl, Nat.eqb_refl in H. discriminate.
Qed.

Definition new_args (o : op) (args' : list nat) : Prop :=
  Forall2 (fun v u => if poly_of v then form_to_value cache v (main_form o) = Some u else u = v) (o_args o) args'.
Lemma ran_args o : In o (p_ops p) -> forall v, In v (o_args o) -> defined v.
Proof.
  intros Hi v Hv. destruct (AllRan o Hi) as (e & xs & ys & e' & H). destruct H as (_ & _ & _ & _ & _ & _ & _ & _ & F).
  destruct (F2_in_l _ _ _ _ F Hv) as (x & _ & _ & D). auto.
Qed.
Lemma step4_shape o out : In o (p_ops p) -> step3 p s N o = Some out ->
  exists args', new_args o args' /\ step4 p s cache (o, out) =
    Some (Op (o_results o) (o_kind o) args' (main_form o) :: flat_map (vconvs (main_form o)) (poly_results p o)).
Proof.
  intros Hi E. rewrite (step3_shape o Hi) in E. injection E as <-. unfold step4.
  assert (X : exists args', set_operands p cache (main_form o) (o_args o) = Some args' /\ new_args o args').
  { destruct (omap_some (fun v => if p_poly p v then form_to_value cache v (main_form o) else Some v) (o_args o)) as [a' Ea].
    - intros v Hv. destruct (poly_of v) eqn:Pv; [|eauto].
      assert (Hx : In v (poly_operands p o)) by (apply filter_In; auto).
      pose proof (proj1 (op_forms o Hi) v Hx) as Sv. destruct (cache_has v _ (ran_args o Hi v Hv) Pv Sv) as [u Hu].
      eapply ftv_ex; eauto.
    - exists a'. split; auto. apply omap_F2 in Ea. unfold new_args. clear - Ea.
      induction Ea as [|v u vs us E Ea IH]; constructor; auto. destruct (poly_of v); congruence. }
  destruct X as (args' & A & B). exists args'. split; auto.
  assert (NoOp : poly_operands p o = [] -> args' = o_args o).
  { intros E. unfold new_args in B. unfold poly_operands in E. clear - B E.
    induction B as [|v u vs us H B IH]; auto. cbn in E. destruct (poly_of v); [discriminate|]. subst. f_equal; auto. }
  assert (Out : in_order p o = false -> poly_operands p o = []).
  { unfold in_order. destruct (poly_operands p o); auto. discriminate. }
  destruct (in_order p o) eqn:EI.
  2:{ rewrite (NoOp (Out eq_refl)). auto. }
  unfold fix_inputs. destruct (poly_operands p o) as [|x l] eqn:EP.
  { rewrite (NoOp eq_refl). auto. }
  cbn [o_args o_results o_kind o_form].
  assert (G : forall f, f = main_form o -> set_operands p cache f (o_args o) = Some args') by (intros f ->; auto).
  destruct (ran_shape o Hi (AllRan o Hi)) as [(K & v & _ & E & _)|[([cc K] & _)|[([d K] & E' & _)|([n K] & E' & _)]]];
    try (rewrite EP in E'; discriminate).
  - assert (C : op_form_class (o_kind o) = CEval \/ op_form_class (o_kind o) = CEither)
      by (destruct (o_kind o); try destruct K; auto).
    destruct C as [C|C]; rewrite C.
    + rewrite G by (unfold main_form; rewrite C; auto). auto.
    + rewrite E. rewrite G by (unfold main_form; rewrite C, E; auto). auto.
  - rewrite K. cbn [op_form_class]. rewrite G by (unfold main_form; rewrite K; auto). auto.
Qed.

(** ** Simulation *)
Definition poly' (v : nat) : bool := poly_of v || ((N <=? v)%nat && poly_of (v - N)).
Lemma poly'_small v : (v < N)%nat -> poly' v = poly_of v.
Proof. intros H. unfold poly'. destruct (Nat.leb_spec N v); [lia|]. rewrite orb_false_r. auto. Qed.
Lemma poly'_conv v : poly_of v = true -> poly' (conv_id N v) = true.
Proof.
  intros H. unfold poly', conv_id. replace (N + v - N)%nat with v by lia. rewrite H.
  destruct (Nat.leb_spec N (N + v)); [|lia]. apply orb_true_r.
Qed.

(** executing the conversions of a list of values *)
Lemma run_convs (mf : nat -> form) (vs : list nat) (et : env) (xs : nat -> val) :
  NoDup vs -> (forall v, In v vs -> (v < N)%nat /\ poly_of v = true /\ src (xs v) /\ goodv (xs v) /\ is_poly (xs v) = true /\
     exists y, et v = Some y /\ rep (mf v) (xs v) y) ->
  exists et', ofold (step csem osem root poly') (flat_map (fun v => vconvs (mf v) v) vs) et = Some et' /\
    (forall w, (forall v, In v vs -> w <> conv_id N v) -> et' w = et w) /\
    (forall v, In v vs -> s (var_form v (flip (mf v))) = true ->
       exists y, et' (conv_id N v) = Some y /\ rep (flip (mf v)) (xs v) y).
Proof.
  revert et. induction vs as [|v vs IH]; intros et HD H.
  { exists et. cbn. repeat split; auto. intros v []. }
  inversion HD as [|? ? HD1 HD2]; subst.
  destruct (H v (or_introl eq_refl)) as (Lv & Pv & Sv & Gv & Iv & y & Ey & Ry).
  destruct (xs v) as [f d|] eqn:Ex; [|discriminate]. cbn in Sv. subst f. cbn in Gv.
  cbn [flat_map]. rewrite ofold_app. unfold vconvs at 1.
  destruct (s (var_form v (flip (mf v)))) eqn:Sf.
  - assert (X : exists z, step csem osem root poly' et (add_conversion N v (flip (mf v))) =
        Some (set et (conv_id N v) z) /\ rep (flip (mf v)) (VP COEFF d) z).
    { destruct (mf v); cbn [flip rep] in *.
      - subst y. destruct (R_ex root d Gv) as (e & E1 & E2). exists (VP EVAL e).
        unfold step. cbn [add_conversion o_args omap o_kind o_form o_results]. rewrite Ey. cbn [bind].
        cbn [sem form_eqb]. rewrite E1. cbn [bind bind_all typed form_eqb]. rewrite (poly'_conv v Pv). cbn. eauto.
      - destruct Ry as (e & -> & HR). exists (VP COEFF d).
        unfold step. cbn [add_conversion o_args omap o_kind o_form o_results]. rewrite Ey. cbn [bind].
        cbn [sem form_eqb]. rewrite (R_back root d e Gv HR). cbn [bind bind_all typed form_eqb].
        rewrite (poly'_conv v Pv). cbn. eauto. }
    destruct X as (z & Z1 & Z2). cbn [ofold]. rewrite Z1. cbn [bind].
    destruct (IH (set et (conv_id N v) z) HD2) as (et' & A & B & C).
    { intros w Hw. destruct (H w (or_intror Hw)) as (Lw & Pw & Sw & Gw & Iw & y' & Ey' & Ry').
      repeat split; auto. exists y'. split; auto. unfold set. destruct (Nat.eqb_spec w (conv_id N v)); auto.
      unfold conv_id in *. lia. }
    exists et'. split; auto. split.
    + intros w Hw. rewrite B by (intros; apply Hw; right; auto). unfold set.
      destruct (Nat.eqb_spec w (conv_id N v)); auto. exfalso. apply (Hw v); [left; auto|auto].
    + intros w [<-|Hw] Sw; [|auto]. exists z. rewrite Ex. split; auto. rewrite B.
      * unfold set. rewrite Nat.eqb_refl. auto.
      * intros v' Hv' E. unfold conv_id in E. assert (v = v') by lia. subst. auto.
  - cbn [ofold bind]. destruct (IH et HD2) as (et' & A & B & C).
    { intros w Hw. apply H. right; auto. }
    exists et'. split; auto. split.
    + intros w Hw. apply B. intros; apply Hw; right; auto.
    + intros w [<-|Hw] Sw; [congruence|auto].
Qed.

Definition Rel (es et : env) : Prop := forall v x, es v = Some x ->
  if poly_of v then forall f u, In (f, v, u) cache -> exists y, et u = Some y /\ rep f x y
  else et v = Some x.

Lemma rep_coeff_same xs xs' : Forall src xs -> Forall2 (rep COEFF) xs xs' -> xs' = xs.
Proof.
  intros S H. induction H as [|x y l l' E H IH]; auto. inversion S; subst. f_equal; auto.
  destruct x; cbn in *; subst; auto.
Qed.
Lemma args_rel es et o args' xs : Rel es et -> Inv es -> new_args o args' -> omap es (o_args o) = Some xs ->
  exists xs', omap et args' = Some xs' /\ Forall2 (rep (main_form o)) xs xs'.
Proof.
  intros HR HI HA E. apply omap_F2 in E. unfold new_args in HA.
  cut (exists xs', Forall2 (fun a b => et a = Some b) args' xs' /\ Forall2 (rep (main_form o)) xs xs').
  { intros (xs' & A & B). exists xs'. split; auto. apply omap_F2; auto. }
  clear - HA E HR HI. revert xs E. induction HA as [|v u vs us H HA IH]; intros xs E; inversion E as [|? x ? xs1 E1 E2]; subst.
  - exists []. auto.
  - destruct (IH xs1 E2) as (xs' & A & B). pose proof (HR v x E1) as X. destruct (poly_of v) eqn:Pv.
    + apply ftv_in in H. destruct (X _ _ H) as (y & Y1 & Y2). exists (y :: xs'). auto.
    + subst u. exists (x :: xs'). split; auto. constructor; auto.
      destruct (HI v x E1) as (T & _). apply typed_src in T as [_ T]. rewrite Pv in T.
      destruct x; [discriminate|]. cbn. auto.
Qed.
Lemma sem_rel o xs ys xs' : In o (p_ops p) -> ran o -> Forall src xs -> Forall goodv xs ->
  sem csem osem root (o_kind o) COEFF xs = Some ys -> Forall2 (rep (main_form o)) xs xs' ->
  exists ys', sem csem osem root (o_kind o) (main_form o) xs' = Some ys' /\ Forall2 (rep (main_form o)) ys ys' \/
   main_form o = COEFF /\ xs' = xs.
Proof.
  intros Hi HR S G E H. destruct (main_form o) eqn:EM.
  - exists []. right. split; auto. apply rep_coeff_same; auto.
  - assert (K : linear (o_kind o)).
    { destruct (ran_shape o Hi HR) as [[K _]|[([cc K] & _)|[([d K] & _)|([n K] & _)]]]; auto;
        unfold main_form in EM; rewrite K in EM; discriminate. }
    destruct (sem_linear _ _ _ K S G E) as (d & -> & Gd & HX). destruct (HX xs' H) as (e & E1 & E2).
    exists [VP EVAL e]. left. split; auto. constructor; auto. cbn. eauto.
Qed.
Lemma typed_rep f v x y : (v < N)%nat -> typed poly_of COEFF v x = true -> rep f x y -> typed poly' f v y = true.
Proof.
  intros L T Hr. destruct x as [g d|z]; cbn in *.
  - apply andb_true_iff in T as [T1 T2].
    destruct f; [subst y|destruct Hr as (e & -> & _)]; cbn; rewrite (poly'_small v L), T1; auto.
  - subst y. cbn. rewrite (poly'_small v L). auto.
Qed.
Lemma sim_op o es es' et out ops' : In o (p_ops p) -> Rel es et -> Inv es ->
  step csem osem root poly_of es o = Some es' ->
  step3 p s N o = Some out -> step4 p s cache (o, out) = Some ops' ->
  exists et', ofold (step csem osem root poly') ops' et = Some et' /\ Rel es' et' /\ Inv es'.
Proof.
  intros Hi HR HI ES E3 E4. destruct (src_step_ok es o es' HI Hi ES) as (xs & ys & HS).
  destruct (step4_shape o out Hi E3) as (args' & NA & E4'). rewrite E4' in E4. injection E4 as <-. clear E4'.
  pose proof HS as (_ & HI' & Ex & Ey & Eb & Sx & Gx & Gy & F).
  destruct (args_rel es et o args' xs HR HI NA Ex) as (xs' & Exs' & RX).
  assert (SR : exists ys', sem csem osem root (o_kind o) (main_form o) xs' = Some ys' /\ Forall2 (rep (main_form o)) ys ys').
  { destruct (sem_rel o xs ys xs' Hi (AllRan o Hi) Sx Gx Ey RX) as (ys' & [H|[M ->]]); [eauto|].
    rewrite M. exists ys. split; auto.
    destruct (bind_all_spec _ _ _ _ _ _ (nodup_results o Hi) Eb) as [A _]. clear - A.
    induction A as [|v y vs ys [T _] A IH]; constructor; auto. apply typed_src in T as [T _].
    destruct y; cbn in *; subst; auto. }
  destruct SR as (ys' & Ey' & RY).
  destruct (bind_all_spec _ _ _ _ _ _ (nodup_results o Hi) Eb) as [A B].
  assert (TY : Forall2 (fun v x => typed poly' ((fun _ => main_form o) v) v x = true) (o_results o) ys').
  { assert (L : forall v, In v (o_results o) -> (v < N)%nat) by (intros; eapply op_lt; eauto).
    clear - A RY L. revert ys' RY. induction A as [|v y vs ys [T _] A IH]; intros ys' RY; inversion RY; subst; constructor.
    - eapply typed_rep; eauto. apply L; left; auto.
    - apply IH; auto. intros; apply L; right; auto. }
  destruct (bind_all_ok poly' (fun _ => main_form o) _ _ et TY) as [et1 E1].
  destruct (bind_all_spec _ _ _ _ _ _ (nodup_results o Hi) E1) as [A' B'].
  assert (RES : forall v, In v (o_results o) -> exists x y, es' v = Some x /\ et1 v = Some y /\ rep (main_form o) x y).
  { clear - A A' RY. revert ys' RY A'. induction A as [|v x vs ys [T E] A IH]; intros ys' RY A' w Hw; [destruct Hw|].
    inversion RY; subst. inversion A' as [|? ? ? ? [T' E'] A'']; subst. destruct Hw as [<-|Hw]; [eauto|].
    eapply IH; eauto. }
  set (xv := fun v => match es' v with Some x => x | None => VO [] end).
  assert (NDr : NoDup (poly_results p o)) by (apply NoDup_filter; apply nodup_results; auto).
  destruct (run_convs (fun _ => main_form o) (poly_results p o) et1 xv NDr) as (et2 & C1 & C2 & C3).
  { intros v Hv. apply filter_In in Hv as [Hv Pv]. destruct (RES v Hv) as (x & y & X1 & X2 & X3).
    destruct (HI' v x X1) as (T & G & D). apply typed_src in T as [T1 T2]. unfold xv. rewrite X1.
    split; [eapply op_lt; eauto|]. split; auto. split; auto. split; auto. split; [congruence|]. eauto. }
  exists et2. split; [|split; auto].
  - cbn [ofold]. unfold step at 1. cbn [o_args o_kind o_form o_results]. rewrite Exs'. cbn [bind]. rewrite Ey'. cbn [bind].
    rewrite E1. cbn [bind]. exact C1.
  - intros v x Hx. destruct (HI' v x Hx) as (T & G & D). pose proof (HN v D) as Lv.
    assert (C2v : et2 v = et1 v).
    { apply C2. intros w _ E. unfold conv_id in E. lia. }
    destruct (in_dec Nat.eq_dec v (o_results o)) as [Hin|Hout].
    + destruct (RES v Hin) as (x' & y & X1 & X2 & X3). rewrite Hx in X1. injection X1 as <-.
      destruct (poly_of v) eqn:Pv.
      * intros f u Hu. apply cache_in in Hu as (_ & g & Hg & Hu).
        assert (g = main_form o) by (eapply computed_unique; [exact Hg|right; eauto]). subst g.
        apply vents_in in Hu as (_ & [[-> ->]|(-> & -> & Sf)]).
        -- exists y. rewrite C2v. auto.
        -- destruct (C3 v) as (z & Z1 & Z2); [apply filter_In; auto|auto|]. exists z. split; auto.
           unfold xv in Z2. rewrite Hx in Z2. auto.
      * rewrite C2v, X2. f_equal. apply typed_src in T as [_ T]. rewrite Pv in T.
        destruct x; [discriminate|]. cbn in X3. auto.
    + rewrite B in Hx by auto. specialize (HR v x Hx). destruct (poly_of v) eqn:Pv.
      * intros f u Hu. destruct (HR f u Hu) as (y & Y1 & Y2). exists y. split; auto.
        assert (U : u = v \/ u = conv_id N v).
        { apply cache_in in Hu as (_ & g & Hg & Hu). apply vents_in in Hu. tauto. }
        rewrite C2.
        -- rewrite B'; auto. intros Hin. destruct U as [->| ->]; [auto|]. pose proof (op_lt o _ Hi Hin). unfold conv_id in *. lia.
        -- intros w Hw E. apply filter_In in Hw as [Hw _]. pose proof (op_lt o _ Hi Hw).
           destruct U as [->| ->]; [unfold conv_id in *; lia|]. apply Hout.
           assert (v = w) by (unfold conv_id in *; lia). subst; auto.
      * rewrite C2v, B'; auto.
Qed.
Lemma sim_ops ops outs opss es es' et : (forall o, In o ops -> In o (p_ops p)) -> Rel es et -> Inv es ->
  ofold (step csem osem root poly_of) ops es = Some es' ->
  Forall2 (fun o out => step3 p s N o = Some out) ops outs ->
  Forall2 (fun x l => step4 p s cache x = Some l) (combine ops outs) opss ->
  exists et', ofold (step csem osem root poly') (concat opss) et = Some et' /\ Rel es' et' /\ Inv es'.
Proof.
  revert outs opss es et. induction ops as [|o ops IH]; intros outs opss es et Hin HR HI ES H3 H4.
  - inversion H3; subst. cbn in H4. inversion H4; subst. cbn in *. injection ES as <-. eauto.
  - inversion H3 as [|? out ? outs' A3 B3]; subst. cbn [combine] in H4. inversion H4 as [|? l ? ls A4 B4]; subst.
    cbn [ofold] in ES. destruct (step csem osem root poly_of es o) as [es1|] eqn:E1; [cbn [bind] in ES|discriminate].
    destruct (sim_op o es es1 et out l (Hin o (or_introl eq_refl)) HR HI E1 A3 A4) as (et1 & X1 & X2 & X3).
    destruct (IH outs' ls es1 et1) as (et2 & Y1 & Y2 & Y3); auto.
    { intros; apply Hin; right; auto. }
    exists et2. split; auto. cbn [concat]. rewrite ofold_app, X1. auto.
Qed.

(** ** The whole function *)
Definition is_conversion (k : kind) : bool := match k with Ntt | Intt => true | _ => false end.
Definition ret_form (v : nat) : form := if s (Vc v) then COEFF else EVAL.
Lemma two_ok : existsb (fun o => (1 <? length (poly_results p o))%nat) (order p) = false.
Proof.
  destruct (existsb _ _) eqn:E; auto. apply existsb_exists in E as (o & Ho & E).
  apply order_in in Ho as [Hi _]. specialize (Two o Hi). apply Nat.ltb_lt in E. lia.
Qed.
Lemma outs_cache outs : omap (step3 p s N) (p_ops p) = Some outs ->
  flat_map snd outs = flat_map (fun o => flat_map (vents (main_form o)) (poly_results p o)) (p_ops p).
Proof.
  intros E. apply omap_F2 in E.
  assert (G : forall o, In o (p_ops p) -> In o (p_ops p)) by auto. revert G E. generalize (p_ops p) at 1 3 4.
  intros l G E. induction E as [|o out l outs E0 E IH]; auto. cbn.
  rewrite IH by (intros; apply G; right; auto). rewrite (step3_shape o) in E0 by (apply G; left; auto).
  injection E0 as <-. auto.
Qed.
Lemma pass_shape : (forall v, In v (p_ret p) -> defined v) ->
  exists p' opss outs ret, poly_mul_to_ntt N p s = Some p' /\
    p_args p' = p_args p /\ p_poly p' = poly' /\
    (forall v, p_argform p' v = if poly_of v then arg_form v else p_argform p v) /\
    p_ops p' = flat_map (fun v => vconvs (arg_form v) v) (filter poly_of (p_args p)) ++ concat opss /\
    p_ret p' = ret /\
    Forall2 (fun o out => step3 p s N o = Some out) (p_ops p) outs /\
    Forall2 (fun x l => step4 p s cache x = Some l) (combine (p_ops p) outs) opss /\
    Forall2 (fun v u => if poly_of v then form_to_value cache v (ret_form v) = Some u else u = v) (p_ret p) ret.
Proof.
  intros HRt. destruct constraints_hold as (cs & Ecs & _ & _ & HF).
  destruct (omap_some (step3 p s N) (p_ops p)) as [outs Eo].
  { intros o Ho. rewrite (step3_shape o Ho). eauto. }
  assert (C : flat_map snd (map (fix_arg s N) (filter poly_of (p_args p))) ++ flat_map snd outs = cache).
  { unfold cache. rewrite (outs_cache outs Eo). f_equal. clear. induction (filter poly_of (p_args p)) as [|v l IH]; auto.
    cbn [map flat_map]. rewrite IH, fix_arg_shape. auto. }
  pose proof (proj1 (omap_F2 _ _ _) Eo) as Fo3.
  destruct (omap_some (step4 p s cache) (combine (p_ops p) outs)) as [opss Es].
  { intros [o out] Ho. pose proof (in_combine_l _ _ _ _ Ho) as Hi.
    assert (E3 : step3 p s N o = Some out).
    { clear - Fo3 Ho. induction Fo3 as [|a b l l' E F IH]; [destruct Ho|]. cbn in Ho. destruct Ho as [Ho|Ho]; auto.
      injection Ho as -> ->. auto. }
    destruct (step4_shape o out Hi E3) as (a & _ & E). eauto. }
  destruct (omap_some (fix_return p s cache) (p_ret p)) as [ret Er].
  { intros v Hv. unfold fix_return. destruct (poly_of v) eqn:Pv; cbn [negb]; [|eauto].
    specialize (HF v Hv Pv). unfold needs_form. cbn [var_form].
    destruct (s (Vc v)) eqn:X1.
    - destruct (cache_has v COEFF (HRt v Hv) Pv X1) as [u Hu]. eapply ftv_ex; eauto.
    - cbn in HF. rewrite HF. cbn [negb]. destruct (cache_has v EVAL (HRt v Hv) Pv HF) as [u Hu]. eapply ftv_ex; eauto. }
  eexists. exists opss, outs, ret. unfold poly_mul_to_ntt. rewrite two_ok, Ecs. cbn [bind]. rewrite Eo. cbn [bind].
  rewrite C, Es. cbn [bind]. rewrite Er. cbn [bind]. split; [reflexivity|]. cbn [p_args p_poly p_argform p_ops p_ret].
  split; auto. split; auto. split; [intros v; rewrite fix_arg_shape; reflexivity|]. split.
  { f_equal. clear. induction (filter poly_of (p_args p)) as [|v l IH]; auto.
    cbn [map flat_map]. rewrite IH, fix_arg_shape. auto. }
  split; auto. split; auto. split; [apply omap_F2; auto|].
  apply omap_F2 in Er. clear - Er HF HRt.
  assert (HF' : forall v, In v (p_ret p) -> poly_of v = true -> s (Vc v) || s (Ve v) = true) by auto. clear HF.
  induction Er as [|v u vs us E Er IH]; constructor; auto.
  - unfold fix_return, needs_form in E. cbn [var_form] in E. unfold ret_form.
    destruct (poly_of v) eqn:Pv; cbn [negb] in E; [|congruence]. destruct (s (Vc v)); auto.
    destruct (s (Ve v)); [auto|discriminate].
  - apply IH; intros; [apply HRt|apply HF']; try right; auto.
Qed.

Definition represented (f : nat -> form) (vs : list nat) (xs ys : list val) : Prop :=
  length ys = length xs /\ forall i v x y, nth_error vs i = Some v -> nth_error xs i = Some x ->
    nth_error ys i = Some y -> rep (f v) x y.
Lemma represented_cons f v vs x xs y ys : represented f (v :: vs) (x :: xs) (y :: ys) ->
  rep (f v) x y /\ represented f vs xs ys.
Proof.
  intros [L H]. split; [apply (H 0%nat); auto|]. split; [cbn in L; lia|].
  intros i w a b A B C. apply (H (S i)); auto.
Qed.
Lemma args_sim (fm : nat -> form) vs xs ys : (forall v, In v vs -> (v < N)%nat) ->
  Forall2 (fun v x => typed poly_of COEFF v x = true) vs xs -> represented fm vs xs ys ->
  Forall2 (fun v y => typed poly' (fm v) v y = true) vs ys /\
  Forall2 (fun v xy => rep (fm v) (fst xy) (snd xy)) vs (combine xs ys).
Proof.
  intros L H. revert ys L. induction H as [|v x vs xs T H IH]; intros ys L HR.
  - destruct HR as [E _]. destruct ys; [|discriminate]. split; constructor.
  - destruct ys as [|y ys]; [destruct HR; discriminate|]. apply represented_cons in HR as [R1 R2].
    destruct (IH ys) as [A B]; auto; [intros; apply L; right; auto|].
    split; constructor; auto. eapply typed_rep; eauto. apply L; left; auto.
Qed.
Lemma sim_run args r : Forall goodv args -> run csem osem root p args = Some r ->
  exists p', poly_mul_to_ntt N p s = Some p' /\
  forall args', represented (p_argform p') (p_args p) args args' ->
  exists r', run csem osem root p' args' = Some r' /\ Forall2 (fun x y => exists f, rep f x y) r r'.
Proof.
  intros GA. unfold run.
  destruct (bind_all poly_of (p_argform p) (p_args p) args (fun _ => None)) as [es0|] eqn:E0; [cbn [bind]|discriminate].
  destruct (ofold (step csem osem root poly_of) (p_ops p) es0) as [es|] eqn:E1; [cbn [bind]|discriminate]. intros E2.
  assert (NDa : NoDup (p_args p)) by (eapply nodup_app_l; eauto).
  destruct (bind_all_spec _ _ _ _ _ _ NDa E0) as [A0 B0].
  assert (TC : forall v, In v (p_args p) -> forall x, typed poly_of (p_argform p v) v x = typed poly_of COEFF v x)
    by (intros v Hv x; rewrite (Fa v Hv); auto).
  assert (I0 : Inv es0).
  { intros v x Hx. destruct (in_dec Nat.eq_dec v (p_args p)) as [Hi|Ho].
    - assert (X : exists x', In x' args /\ typed poly_of (p_argform p v) v x' = true /\ es0 v = Some x')
        by (destruct (F2_in_l _ _ _ _ A0 Hi) as (b & Hb & T & E); eauto).
      destruct X as (x' & X1 & X2 & X3). rewrite Hx in X3. injection X3 as <-.
      rewrite TC in X2 by auto. split; auto. split; [eapply Forall_forall in GA; eauto|]. apply in_or_app; auto.
    - rewrite B0 in Hx by auto. discriminate. }
  (* the run reaches all values returned *)
  assert (IE : Inv es).
  { assert (G : forall o, In o (p_ops p) -> In o (p_ops p)) by auto. revert G E1 I0. clear - Cgood Oother HN ND Fa Fo NoSwitch Cst.
    generalize (p_ops p) at 1 3. intros l. revert es0. induction l as [|o l IH]; intros es0 G E I0; cbn [ofold] in E.
    - injection E as <-. auto.
    - destruct (step csem osem root poly_of es0 o) as [e1|] eqn:X; [cbn [bind] in E|discriminate].
      eapply (IH e1); eauto; [intros; apply G; right; auto|].
      destruct (src_step_ok es0 o e1 I0 (G o (or_introl eq_refl)) X) as (xs & ys & _ & H & _). auto. }
  pose proof (proj1 (omap_F2 _ _ _) E2) as FR.
  destruct pass_shape as (p' & opss & outs & ret & EP & Pa & Pp & Pf & Po & Pr & H3 & H4 & HRt).
  { intros v Hv. destruct (F2_in_l _ _ _ _ FR Hv) as (x & _ & Hx). apply (IE v x Hx). }
  exists p'. split; auto. intros args' HA. rewrite Pa, Pp, Po, Pr.
  set (fm := p_argform p') in *.
  assert (T0 : Forall2 (fun v x => typed poly_of COEFF v x = true) (p_args p) args).
  { assert (TC' : forall v, In v (p_args p) -> forall x, typed poly_of (p_argform p v) v x = typed poly_of COEFF v x) by auto.
    clear - A0 TC'. induction A0 as [|v x vs xs [T _] A IH]; constructor.
    - rewrite <- TC'; auto. left; auto.
    - apply IH. intros; apply TC'; right; auto. }
  assert (La : forall v, In v (p_args p) -> (v < N)%nat) by (intros; apply HN; apply in_or_app; auto).
  destruct (args_sim fm _ _ _ La T0 HA) as [T1 R1].
  destruct (bind_all_ok poly' fm _ _ (fun _ => None) T1) as [et0 Et0]. rewrite Et0. cbn [bind].
  destruct (bind_all_spec _ _ _ _ _ _ NDa Et0) as [A1 B1].
  assert (RES : forall v, In v (p_args p) -> exists x y, es0 v = Some x /\ et0 v = Some y /\ rep (fm v) x y).
  { clear - A0 A1 R1. revert args' A1 R1. induction A0 as [|v x vs xs [T E] A IH]; intros args' A1 R1 w Hw; [destruct Hw|].
    inversion A1 as [|? y ? ys [T' E'] A1']; subst. cbn [combine] in R1. inversion R1; subst.
    destruct Hw as [<-|Hw]; [eauto|]. eapply IH; eauto. }
  set (xv := fun v => match es0 v with Some x => x | None => VO [] end).
  assert (FM : forall v, poly_of v = true -> fm v = arg_form v) by (intros v Pv; unfold fm; rewrite Pf, Pv; auto).
  destruct (run_convs arg_form (filter poly_of (p_args p)) et0 xv (NoDup_filter _ NDa)) as (et1 & C1 & C2 & C3).
  { intros v Hv. apply filter_In in Hv as [Hv Pv]. destruct (RES v Hv) as (x & y & X1 & X2 & X3).
    destruct (I0 v x X1) as (T & G & D). apply typed_src in T as [S1 S2]. unfold xv. rewrite X1.
    split; [auto|]. split; auto. split; auto. split; auto. split; [congruence|]. rewrite <- (FM v Pv). eauto. }
  rewrite ofold_app, C1. cbn [bind].
  assert (Rel0 : Rel es0 et1).
  { intros v x Hx. destruct (I0 v x Hx) as (T & G & D). pose proof (HN v D) as Lv.
    destruct (in_dec Nat.eq_dec v (p_args p)) as [Hin|Hout].
    2:{ rewrite B0 in Hx by auto. discriminate. }
    assert (C2v : et1 v = et0 v).
    { apply C2. intros w _ E. unfold conv_id in E. lia. }
    destruct (RES v Hin) as (x' & y & X1 & X2 & X3). rewrite Hx in X1. injection X1 as <-.
    destruct (poly_of v) eqn:Pv.
    - intros f u Hu. apply cache_in in Hu as (_ & g & Hg & Hu).
      assert (g = arg_form v) by (eapply computed_unique; [exact Hg|left; eauto]). subst g.
      apply vents_in in Hu as (_ & [[-> ->]|(-> & -> & Sf)]).
      + exists y. rewrite C2v. rewrite <- (FM v Pv). auto.
      + destruct (C3 v) as (z & Z1 & Z2); [apply filter_In; auto|auto|]. exists z. split; auto.
        unfold xv in Z2. rewrite Hx in Z2. auto.
    - rewrite C2v, X2. f_equal. apply typed_src in T as [_ T]. rewrite Pv in T.
      destruct x; [discriminate|]. cbn in X3. auto. }
  destruct (sim_ops (p_ops p) outs opss es0 es et1 (fun o H => H) Rel0 I0 E1 H3 H4) as (et & D1 & D2 & D3).
  rewrite D1. cbn [bind].
  cut (exists r', Forall2 (fun a b => et a = Some b) ret r' /\ Forall2 (fun x y => exists f, rep f x y) r r').
  { intros (r' & X1 & X2). exists r'. split; auto. apply omap_F2; auto. }
  clear - FR HRt D2 D3. revert ret HRt. induction FR as [|v x vs xs Ex FR IH]; intros ret HRt; inversion HRt; subst.
  - exists []. auto.
  - destruct (IH l') as (r' & X1 & X2); auto. pose proof (D2 v x Ex) as D. destruct (poly_of v) eqn:Pv.
    + match goal with H : form_to_value _ _ _ = Some _ |- _ => apply ftv_in in H; destruct (D _ _ H) as (z & Z1 & Z2) end.
      exists (z :: r'). split; constructor; eauto.
    + subst. exists (x :: r'). split; constructor; auto. exists COEFF.
      destruct (D3 v x Ex) as (T & _). apply typed_src in T as [_ T]. rewrite Pv in T. destruct x; [discriminate|]. cbn; auto.
Qed.

(** the conversions inserted *)
Definition conversions (q : prog) : list (list nat) :=
  map o_args (filter (fun o => is_conversion (o_kind o)) (p_ops q)).
Lemma vconvs_args f v : map o_args (filter (fun o => is_conversion (o_kind o)) (vconvs f v)) =
  if s (var_form v (flip f)) then [[v]] else [].
Proof. unfold vconvs. destruct (s _); auto. destruct f; auto. Qed.
Lemma conversions_spec p' : (forall v, In v (p_ret p) -> defined v) -> poly_mul_to_ntt N p s = Some p' ->
  conversions p' = map (fun v => [v]) (filter (fun v => poly_of v && s (Vconv v)) (p_args p ++ flat_map o_results (p_ops p))).
Proof.
  intros HRt E. destruct (pass_shape HRt) as (p1 & opss & outs & ret & EP & Pa & Pp & Pf & Po & Pr & H3 & H4 & _).
  rewrite E in EP. injection EP as <-. unfold conversions. rewrite Po, filter_app, map_app, filter_app, map_app. f_equal.
  - assert (G : forall v, In v (p_args p) -> In v (p_args p)) by auto. revert G. generalize (p_args p) at 1 3 4.
    intros l. induction l as [|v l IH]; intros G; auto. cbn [filter].
    pose proof (IH (fun w H => G w (or_intror H))) as IH'.
    destruct (poly_of v) eqn:Pv; cbn [andb]; auto. cbn [flat_map]. rewrite filter_app, map_app, IH', vconvs_args.
    rewrite (arg_conv v) by (auto; apply G; left; auto). destruct (s _); auto.
  - assert (G : forall o, In o (p_ops p) -> In o (p_ops p)) by auto. clear Po. revert G H3 H4. generalize (p_ops p) at 1 3 4 5.
    intros l. revert outs opss. induction l as [|o l IH]; intros outs opss G H3 H4.
    + inversion H3; subst. inversion H4; subst. auto.
    + inversion H3 as [|? out ? outs' A3 B3]; subst. cbn [combine] in H4. inversion H4 as [|? x ? xs A4 B4]; subst.
      pose proof (G o (or_introl eq_refl)) as Hi.
      cbn [concat flat_map]. rewrite !filter_app, !map_app. rewrite (IH outs' xs); auto; [|intros; apply G; right; auto].
      f_equal. destruct (step4_shape o out Hi A3) as (a & _ & E4). rewrite E4 in A4. injection A4 as <-.
      cbn [filter o_kind]. replace (is_conversion (o_kind o)) with false.
      2:{ destruct (ran_shape o Hi (AllRan o Hi)) as [[K _]|[([cc K] & _)|[([d K] & _)|([n K] & _)]]]; try (rewrite K; reflexivity).
          destruct (o_kind o); try destruct K; reflexivity. }
      destruct (op_forms o Hi) as [_ HV]. revert HV. unfold poly_results. clear. induction (o_results o) as [|v l IH]; intros HV; auto.
      cbn [filter]. destruct (poly_of v) eqn:Pv; cbn [andb].
      * cbn [flat_map]. rewrite filter_app, map_app, vconvs_args, IH.
        2:{ intros w Hw. apply HV. cbn [filter]. rewrite Pv. right; auto. }
        destruct (HV v) as [_ X]; [cbn [filter]; rewrite Pv; left; auto|]. rewrite X. destruct (s (var_form v (flip (main_form o)))); auto.
      * apply IH. intros w Hw. apply HV. cbn [filter]. rewrite Pv. auto.
Qed.
End Sim.
