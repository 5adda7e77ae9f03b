(** C20: polynomial programs moved to evaluation form compute the same. *)
From Coq Require Import ZArith List Bool Arith Lia.
From Verif Require Import Words Sums NTT_Model NTT_Proofs NTT_Props NttPlace_Model NttPlace_Proofs NttPlace2_Proofs
  NttPlace_Spec.
Import ListNotations.
Open Scope Z_scope.

Lemma wfl_iff root l : limb_ok root l <-> wfl root l.
Proof. destruct l as [q a]. unfold limb_ok, wfl. cbn [fst snd]. tauto. Qed.
Lemma good_iff root x : value_ok root x <-> goodv root x.
Proof.
  destruct x as [f d|z]; cbn; [|tauto]. unfold good. split; intros H; (eapply Forall_impl; [|exact H]);
    intros p Hp; (eapply Forall_impl; [|exact Hp]); intros l; apply wfl_iff.
Qed.
Lemma pow2_inj k k' : (2 ^ k = 2 ^ k')%nat -> k = k'.
Proof. intros H. apply (Nat.pow_inj_r 2); auto. Qed.
Lemma eval_iff root l l' : limb_ok root l -> (evaluations root l l' <-> nttl root l l').
Proof.
  destruct l as [q a], l' as [q' b]. intros (Hq & Ho & k & Hk & Hr & Hp). unfold evaluations, nttl, limb_ntt. cbn [fst snd].
  destruct (C15_ntt_evaluates q k _ a Hq Hr Hp) as (r & E & Pr & V). pose proof (proj1 Hp) as La. rewrite La, E.
  cbn [bind]. split.
  - intros (-> & k' & L & Pb & Vb). apply pow2_inj in L. subst k'. do 2 f_equal.
    apply (list_eq_nth 0); [destruct Pb, Pr; congruence|]. intros t Ht. rewrite (proj1 Pr) in Ht.
    rewrite <- (bitrev_invol k t Ht). rewrite V, Vb by apply bitrev_lt. auto.
  - intros [= <- <-]. split; auto. exists k. auto.
Qed.
Lemma F2_iff {A B} (P : A -> Prop) (R S : A -> B -> Prop) l l' : Forall P l -> (forall a b, P a -> (R a b <-> S a b)) ->
  (Forall2 R l l' <-> Forall2 S l l').
Proof.
  intros F H. split; intros G; (induction G; constructor; inversion F; subst; [apply H|]; auto).
Qed.
Lemma form_iff root f x y : value_ok root x -> (in_form root f x y <-> rep root f x y).
Proof.
  destruct x as [g d|z]; [|cbn; tauto]. intros V. destruct f; cbn; [tauto|]. cbn in V.
  assert (G : forall e, Forall2 (fun p p' : rnspoly => Forall2 (evaluations root) p p') d e <-> R root d e).
  { intros e. unfold R. eapply F2_iff; [exact V|]. intros a b Ha. eapply F2_iff; [exact Ha|].
    intros. apply eval_iff; auto. }
  split; intros (e & E & H); exists e; (split; [auto|apply G; auto]).
Qed.

Section Use.
Variables (csem : coeff_op -> list val -> option (list val)) (osem : nat -> list val -> option (list val))
          (root : Z -> nat -> Z) (N : nat) (p : prog) (s : assignment).
Hypothesis HO : outside_ok root csem osem.
Hypothesis HP : source_function N p.
Hypothesis NoSwitch : forall o ms, In o (p_ops p) -> o_kind o <> ModSwitch ms.
Hypothesis Cst : forall o d, In o (p_ops p) -> o_kind o = Constant d ->
  value_ok root (VP COEFF d) /\ forall v, In v (o_results o) -> s (Ve v) = false.
Hypothesis Sat : feasible p s.
Lemma u_cgood : forall c l ys, Forall (goodv root) l -> csem c l = Some ys -> Forall (goodv root) ys.
Proof.
  intros c l ys G E. destruct HO as [A _].
  assert (X : Forall (value_ok root) ys) by (eapply A; [|exact E]; eapply Forall_impl; [|exact G]; apply good_iff).
  eapply Forall_impl; [|exact X]. apply good_iff.
Qed.
Lemma u_other : forall nm l ys, osem nm l = Some ys -> Forall (fun x => is_poly x = false) ys.
Proof.
  intros nm l ys E. destruct HO as [_ A]. eapply Forall_impl; [|eapply A; exact E]. intros x [z ->]. auto.
Qed.
Lemma u_live : forall pre o post v, p_ops p = pre ++ o :: post -> In v (poly_results p o) ->
  In v (p_ret p) \/ exists o', In o' post /\ In v (o_args o').
Proof.
  intros pre o post v E Hv. apply filter_In in Hv as [A B]. destruct HP as (_ & _ & _ & _ & _ & L). eauto.
Qed.
Lemma u_cst : forall o d, In o (p_ops p) -> o_kind o = Constant d ->
  good root d /\ forall v, In v (o_results o) -> s (Ve v) = false.
Proof. intros o d A B. destruct (Cst o d A B) as [C D]. split; auto. apply (good_iff root (VP COEFF d)); auto. Qed.
Lemma u_sat : forall cs, constraints p = Some cs -> forallb (holds s) cs = true.
Proof. intros cs E. apply forallb_forall. apply Forall_forall. apply Sat; auto. Qed.

Lemma run_ran args r : Forall (value_ok root) args -> run csem osem root p args = Some r ->
  (forall o, In o (p_ops p) -> ran csem osem root p o) /\ (forall v, In v (p_ret p) -> defined p v) /\
  Forall (value_ok root) r.
Proof.
  intros GA. destruct HP as (H1 & H2 & H3 & H4 & H5 & H6). unfold run.
  destruct (bind_all (p_poly p) (p_argform p) (p_args p) args (fun _ => None)) as [es0|] eqn:E0; [cbn [bind]|discriminate].
  destruct (ofold (step csem osem root (p_poly p)) (p_ops p) es0) as [es|] eqn:E1; [cbn [bind]|discriminate]. intros E2.
  assert (NDa : NoDup (p_args p)) by (eapply nodup_app_l; eauto).
  destruct (bind_all_spec _ _ _ _ _ _ NDa E0) as [A0 B0].
  assert (I0 : Inv root p es0).
  { intros v x Hx. destruct (in_dec Nat.eq_dec v (p_args p)) as [Hi|Ho].
    - destruct (F2_in_l _ _ _ _ A0 Hi) as (x' & X1 & X2 & X3). rewrite Hx in X3. injection X3 as <-.
      rewrite (H3 v Hi) in X2. split; auto. split; [apply good_iff; eapply Forall_forall in GA; eauto|].
      apply in_or_app; auto.
    - rewrite B0 in Hx by auto. discriminate. }
  assert (X : (forall o, In o (p_ops p) -> ran csem osem root p o) /\ Inv root p es).
  { assert (G : forall o, In o (p_ops p) -> In o (p_ops p)) by auto. revert G E1 I0.
    generalize (p_ops p) at 1 3 4. intros l. clear E0 A0 B0. revert es0. induction l as [|o l IH]; intros es0 G E I0; cbn [ofold] in E.
    - injection E as <-. split; auto. intros o [].
    - destruct (step csem osem root (p_poly p) es0 o) as [e1|] eqn:X; [cbn [bind] in E|discriminate].
      assert (Y : exists xs ys, src_step csem osem root p es0 o xs ys e1)
        by (eapply src_step_ok; eauto using u_cgood, u_other, u_cst; apply G; left; auto).
      destruct Y as (xs & ys & Y). pose proof Y as (_ & I1 & _).
      destruct (IH e1) as [A B]; auto; [intros; apply G; right; auto|]. split; auto.
      intros o' [<-|Ho']; auto. exists es0, xs, ys, e1. auto. }
  destruct X as [X1 X2]. split; auto. apply omap_F2 in E2. split.
  - intros v Hv. destruct (F2_in_l _ _ _ _ E2 Hv) as (x & _ & Hx). apply (X2 v x Hx).
  - clear - E2 X2. induction E2 as [|v x l l' Ex E2 IH]; constructor; auto. apply good_iff. apply (X2 v x Ex).
Qed.
End Use.

(** If the function runs, the pass succeeds and the new function, given the same arguments in the forms of its
    signature, returns the same values, each in coefficient or evaluation form.
    Partial: constants must not be wanted in evaluation form and there must be no modulus switch
    ([C20_constant_refuted] and [C20_mod_switch_refuted] show that both are needed). *)
Theorem C20_preserves_partial csem osem root N p s args r :
  outside_ok root csem osem -> source_function N p -> feasible p s ->
  (forall o ms, In o (p_ops p) -> o_kind o <> ModSwitch ms) ->
  (forall o d, In o (p_ops p) -> o_kind o = Constant d ->
     value_ok root (VP COEFF d) /\ forall v, In v (o_results o) -> s (Ve v) = false) ->
  Forall (value_ok root) args -> run csem osem root p args = Some r ->
  exists p', poly_mul_to_ntt N p s = Some p' /\ p_args p' = p_args p /\
  forall args', arguments_for root p' args args' ->
  exists r', run csem osem root p' args' = Some r' /\
    Forall2 (fun x y => exists f, in_form root f x y) r r'.
Proof.
  intros HO HP Sat NS Cst GA E. destruct (run_ran csem osem root N p s HO HP NS Cst args r GA E) as (AR & HD & GR).
  pose proof (u_cgood csem osem root HO) as Cg. pose proof (u_other csem osem root HO) as Ot.
  pose proof (u_live N p HP) as Lv. pose proof (u_cst root p s Cst) as Cs. pose proof (u_sat p s Sat) as St.
  pose proof HP as (H1 & H2 & H3 & H4 & H5 & _).
  assert (GA' : Forall (goodv root) args) by (eapply Forall_impl; [|exact GA]; apply good_iff).
  assert (X : exists p', poly_mul_to_ntt N p s = Some p' /\
    forall args', represented root (p_argform p') (p_args p) args args' ->
    exists r', run csem osem root p' args' = Some r' /\ Forall2 (fun x y => exists f, rep root f x y) r r')
    by (eapply sim_run; eauto).
  assert (Y : exists q, poly_mul_to_ntt N p s = Some q /\ p_args q = p_args p).
  { edestruct (pass_shape csem osem root) as (q & ? & ? & ? & EQ & EA & _); eauto. }
  destruct Y as (q & EQ & EA). destruct X as (p' & EP & HR). rewrite EP in EQ. injection EQ as <-.
  exists p'. split; auto. split; auto. intros args' [LA HA]. rewrite EA in HA.
  destruct (HR args') as (r' & E1 & E2).
  { split; auto. intros i v x y A B C. apply form_iff; [|eauto]. eapply Forall_forall; [exact GA|]. eapply nth_error_In; eauto. }
  exists r'. split; auto.
  clear - E2 GR. induction E2 as [|x y l l' [f H] E2 IH]; constructor; inversion GR; subst; auto.
  exists f. apply form_iff; auto.
Qed.
Print Assumptions C20_preserves_partial.

(** The new function converts exactly the polynomial values that the solver charges for, each once: the operands
    of its ntt and intt operations, in order, are the values whose conversion variable is set. *)
Theorem C20_conversions_partial csem osem root N p s args r p' :
  outside_ok root csem osem -> source_function N p -> feasible p s ->
  (forall o ms, In o (p_ops p) -> o_kind o <> ModSwitch ms) ->
  (forall o d, In o (p_ops p) -> o_kind o = Constant d ->
     value_ok root (VP COEFF d) /\ forall v, In v (o_results o) -> s (Ve v) = false) ->
  Forall (value_ok root) args -> run csem osem root p args = Some r ->
  poly_mul_to_ntt N p s = Some p' ->
  map o_args (filter (fun o => match o_kind o with Ntt | Intt => true | _ => false end) (p_ops p')) =
  map (fun v => [v]) (filter (fun v => p_poly p v && s (Vconv v)) (p_args p ++ flat_map o_results (p_ops p))).
Proof.
  intros HO HP Sat NS Cst GA E EP. destruct (run_ran csem osem root N p s HO HP NS Cst args r GA E) as (AR & HD & GR).
  pose proof (u_cgood csem osem root HO) as Cg. pose proof (u_other csem osem root HO) as Ot.
  pose proof (u_live N p HP) as Lv. pose proof (u_cst root p s Cst) as Cs. pose proof (u_sat p s Sat) as St.
  pose proof HP as (H1 & H2 & H3 & H4 & H5 & _).
  assert (X : conversions p' = map (fun v => [v]) (filter (fun v => p_poly p v && s (Vconv v)) (p_args p ++ flat_map o_results (p_ops p))))
    by (eapply (conversions_spec csem osem root); eauto).
  exact X.
Qed.
Print Assumptions C20_conversions_partial.

(** The constraints always have a solution: the solver never answers infeasible. *)
Theorem C20_feasible N p : source_function N p -> exists s, feasible p s.
Proof.
  intros (_ & ND & _).
  set (cst := fun v => existsb (fun o => match o_kind o with Constant _ => existsb (Nat.eqb v) (o_results o) | _ => false end) (p_ops p)).
  exists (fun x => match x with Vconv v => negb (cst v) | _ => true end).
  intros cs E. unfold constraints in E. destruct (omap (op_constraints p) (order p)) as [l|] eqn:El; [|discriminate].
  cbn [bind] in E. injection E as <-.
  assert (NC : forall v, ~ (exists o, In o (p_ops p) /\ (exists d, o_kind o = Constant d) /\ In v (o_results o)) -> cst v = false).
  { intros v H. destruct (cst v) eqn:X; auto. exfalso. apply H. apply existsb_exists in X as (o & Ho & X). exists o. split; auto.
    destruct (o_kind o) eqn:K; try discriminate. split; eauto. apply existsb_exists in X as (w & Hw & X). apply Nat.eqb_eq in X. subst; auto. }
  apply Forall_app. split; [|apply Forall_app; split].
  - apply Forall_flat_map. apply Forall_forall. intros v Hv. apply filter_In in Hv as [Hv _].
    assert (K : cst v = false).
    { apply NC. intros (o & Ho & _ & Hr). eapply (nodup_app_disj _ _ v ND); eauto. apply in_flat_map; eauto. }
    repeat constructor; cbn; rewrite ?K; auto.
  - apply omap_F2 in El. rewrite Forall_concat. assert (G : forall o, In o (order p) -> In o (p_ops p)) by (intros o H; apply filter_In in H; tauto).
    induction El as [|o c os cs Eo El IH]; constructor; [|apply IH; intros; apply G; right; auto].
    pose proof (G o (or_introl eq_refl)) as Ho. clear IH El G.
    assert (NK : (forall d, o_kind o <> Constant d) -> forall v, In v (poly_results p o) -> cst v = false).
    { intros K v Hv. apply NC. intros (o' & Ho' & [d Kd] & Hr). apply filter_In in Hv as [Hv _].
      assert (o = o') by (eapply (nodup_flat o_results (p_ops p)); eauto; eapply nodup_app_r; eauto). subst. eapply K; eauto. }
    unfold op_constraints in Eo.
    destruct (op_form_class (o_kind o)) eqn:C; destruct (poly_results p o) as [|y [|? ?]] eqn:PR; try discriminate; injection Eo as <-.
    + apply Forall_flat_map, Forall_forall. intros v _. repeat constructor.
    + assert (K : cst y = false) by (apply NK; [intros d K; rewrite K in C; discriminate|left; auto]).
      repeat first [apply Forall_nil | apply Forall_cons | apply Forall_app; split | apply Forall_flat_map, Forall_forall; intros v _];
        cbn; rewrite ?K; auto.
    + assert (K : cst y = false) by (apply NK; [intros d K; rewrite K in C; discriminate|left; auto]).
      repeat first [apply Forall_nil | apply Forall_cons | apply Forall_app; split | apply Forall_flat_map, Forall_forall; intros v _];
        cbn; rewrite ?K; auto.
    + assert (K : cst y = false) by (apply NK; [intros d K; rewrite K in C; discriminate|left; auto]).
      repeat first [apply Forall_nil | apply Forall_cons | apply Forall_app; split | apply Forall_flat_map, Forall_forall; intros v _];
        cbn; rewrite ?K; auto.
    + constructor; [|constructor]. cbn. assert (K : cst y = true).
      { apply existsb_exists. exists o. split; auto. destruct (o_kind o); try discriminate.
        apply existsb_exists. exists y. rewrite Nat.eqb_refl. split; auto.
        assert (In y (poly_results p o)) by (rewrite PR; left; auto). apply filter_In in H; tauto. }
      rewrite K. auto.
  - apply Forall_flat_map, Forall_forall. intros v _. repeat constructor.
Qed.
Print Assumptions C20_feasible.

(** ** The two restrictions are needed *)
Definition w_root (q : Z) (n : nat) : Z := if q =? 17 then 4 else if q =? 5 then 2 else 5.
Definition w_none (A : Type) (_ : A) (l : list val) : option (list val) := None.
Lemma w_outside : outside_ok w_root (w_none coeff_op) (w_none nat).
Proof. split; intros; discriminate. Qed.
Lemma w_ok q a b : In q [17; 5; 13] -> 0 <= a < q -> 0 <= b < q -> limb_ok w_root (q, [a; b]).
Proof.
  intros Hq Ha Hb. cbn in Hq. cbn [limb_ok].
  destruct Hq as [<-|[<-|[<-|[]]]]; (split; [lia|]; split; [reflexivity|]; exists 1%nat; split; [cbn; lia|];
    split; [split; vm_compute; intuition congruence|split; [reflexivity|repeat constructor; lia]]).
Qed.

(** polynomial.constant keeps its coefficients when its type becomes evaluation form. *)
Definition w_const : prog :=
  Prog [0%nat] (fun _ => COEFF) (fun v => (v <=? 2)%nat)
    [Op [1%nat] (Constant [[(17, [1; 1])]]) [] COEFF; Op [2%nat] Mul [0%nat; 1%nat] COEFF] [2%nat].
Definition w_eval (x : var) : bool := match x with Ve _ | Vmode _ => true | _ => false end.
Theorem C20_constant_refuted : exists p s p' args args' r r',
  source_function 3 p /\ feasible p s /\
  (forall o ms, In o (p_ops p) -> o_kind o <> ModSwitch ms) /\
  Forall (value_ok w_root) args /\ run (w_none _) (w_none _) w_root p args = Some r /\
  poly_mul_to_ntt 3 p s = Some p' /\ arguments_for w_root p' args args' /\
  run (w_none _) (w_none _) w_root p' args' = Some r' /\
  ~ Forall2 (fun x y => exists f, in_form w_root f x y) r r'.
Proof.
  eexists w_const, w_eval, _, [VP COEFF [[(17, [3; 1])]]], [VP EVAL [[(17, [7; 16])]]], _, _.
  split; [|split; [|split; [|split; [|split; [|split; [|split; [|split]]]]]]].
  3:{ intros o ms [<-|[<-|[]]]; discriminate. }
  4: vm_compute; reflexivity.
  4: vm_compute; reflexivity.
  5: vm_compute; reflexivity.
  - split; [|split; [|split; [|split; [|split]]]].
    + cbn. intros v H. intuition lia.
    + cbn. repeat constructor; cbn; intuition lia.
    + auto.
    + intros o [<-|[<-|[]]]; auto.
    + intros o [<-|[<-|[]]]; cbn; auto.
    + intros [|o1 [|o2 pre]] o post v E; cbn in E; inversion E; subst.
      * intros [<-|[]] _. right. eexists. split; [left; reflexivity|]. cbn; auto.
      * intros [<-|[]] _. left. cbn; auto.
      * destruct pre; discriminate.
  - intros cs E. vm_compute in E. injection E as <-. repeat constructor.
  - repeat constructor. apply w_ok; cbn; lia.
  - split; [reflexivity|]. intros [|[|i]] v x y A B C; cbn in A, B, C; try discriminate.
    injection A as <-. injection B as <-. injection C as <-. cbn. eexists. split; [reflexivity|].
    repeat constructor. exists 1%nat. split; [reflexivity|]. split; [split; [reflexivity|repeat constructor; lia]|].
    intros [|[|i]] Hi; [vm_compute; reflexivity|vm_compute; reflexivity|cbn in Hi; lia].
  - intros H. inversion H as [|x y l l' [f F] _]; subst. destruct f; cbn in F; [discriminate|].
    destruct F as (e & E & F). injection E as <-. inversion F as [|? ? ? ? F1 _]; subst. inversion F1 as [|? ? ? ? F2 _]; subst.
    destruct F2 as (_ & k & L & _ & V). assert (k = 1%nat) by (apply pow2_inj; rewrite <- L; reflexivity). subst k.
    specialize (V 0%nat ltac:(cbn; lia)). vm_compute in V. discriminate.
Qed.
Print Assumptions C20_constant_refuted.

(** Reducing every entry modulo another prime does not commute with the transform, but polynomial.mod_switch
    is an operation that the pass may run in either form. *)
Definition w_switch : prog :=
  Prog [0%nat] (fun _ => COEFF) (fun v => (v <=? 2)%nat)
    [Op [1%nat] (ModSwitch [5; 13]) [0%nat] COEFF; Op [2%nat] Mul [1%nat; 1%nat] COEFF] [2%nat].
Theorem C20_mod_switch_refuted : exists p s p' args args' r r',
  source_function 3 p /\ feasible p s /\
  (forall o d, In o (p_ops p) -> o_kind o <> Constant d) /\
  Forall (value_ok w_root) args /\ run (w_none _) (w_none _) w_root p args = Some r /\
  poly_mul_to_ntt 3 p s = Some p' /\ arguments_for w_root p' args args' /\
  run (w_none _) (w_none _) w_root p' args' = Some r' /\
  ~ Forall2 (fun x y => exists f, in_form w_root f x y) r r'.
Proof.
  eexists w_switch, w_eval, _, [VP COEFF [[(17, [3; 16])]]], [VP EVAL [[(17, [16; 7])]]], _, _.
  split; [|split; [|split; [|split; [|split; [|split; [|split; [|split]]]]]]].
  3:{ intros o ms [<-|[<-|[]]]; discriminate. }
  4: vm_compute; reflexivity.
  4: vm_compute; reflexivity.
  5: vm_compute; reflexivity.
  - split; [|split; [|split; [|split; [|split]]]].
    + cbn. intros v H. intuition lia.
    + cbn. repeat constructor; cbn; intuition lia.
    + auto.
    + intros o [<-|[<-|[]]]; auto.
    + intros o [<-|[<-|[]]]; cbn; auto.
    + intros [|o1 [|o2 pre]] o post v E; cbn in E; inversion E; subst.
      * intros [<-|[]] _. right. eexists. split; [left; reflexivity|]. cbn; auto.
      * intros [<-|[]] _. left. cbn; auto.
      * destruct pre; discriminate.
  - intros cs E. vm_compute in E. injection E as <-. repeat constructor.
  - repeat constructor. apply w_ok; cbn; lia.
  - split; [reflexivity|]. intros [|[|i]] v x y A B C; cbn in A, B, C; try discriminate.
    injection A as <-. injection B as <-. injection C as <-. cbn. eexists. split; [reflexivity|].
    repeat constructor. exists 1%nat. split; [reflexivity|]. split; [split; [reflexivity|repeat constructor; lia]|].
    intros [|[|i]] Hi; [vm_compute; reflexivity|vm_compute; reflexivity|cbn in Hi; lia].
  - intros H. inversion H as [|x y l l' [f F] _]; subst. destruct f; cbn in F; [discriminate|].
    destruct F as (e & E & F). injection E as <-. inversion F as [|? ? ? ? F1 _]; subst. inversion F1 as [|? ? ? ? F2 _]; subst.
    destruct F2 as (_ & k & L & _ & V). assert (k = 1%nat) by (apply pow2_inj; rewrite <- L; reflexivity). subst k.
    specialize (V 0%nat ltac:(cbn; lia)). vm_compute in V. discriminate.
Qed.
Print Assumptions C20_mod_switch_refuted.

(** (a*b + a) with the product also multiplied by x (an operation that needs coefficients). *)
Definition ex_csem (c : coeff_op) (l : list val) : option (list val) :=
  match c, l with
  | MonicMonomialMul, [VP f [[(17, [a; b])]]] =>
      if (0 <=? a) && (a <? 17) && (0 <=? b) && (b <? 17) then Some [VP COEFF [[(17, [(- b) mod 17; a])]]] else None
  | _, _ => None
  end.
Definition ex_prog : prog :=
  Prog [0%nat; 1%nat] (fun _ => COEFF) (fun v => (v <=? 4)%nat)
    [Op [2%nat] Mul [0%nat; 1%nat] COEFF; Op [3%nat] Add [2%nat; 0%nat] COEFF;
     Op [4%nat] (Coeff MonicMonomialMul) [2%nat] COEFF] [3%nat; 4%nat].
Definition ex_sol (x : var) : bool :=
  match x with Ve v => (v <=? 3)%nat | Vc v => (v =? 2)%nat || (v =? 4)%nat | Vconv v => (v =? 2)%nat | Vmode _ => true end.
Example C20_nonvacuous :
  outside_ok w_root ex_csem (w_none _) /\ source_function 5 ex_prog /\ feasible ex_prog ex_sol /\
  Forall (value_ok w_root) [VP COEFF [[(17, [3; 1])]]; VP COEFF [[(17, [2; 5])]]] /\
  run ex_csem (w_none _) w_root ex_prog [VP COEFF [[(17, [3; 1])]]; VP COEFF [[(17, [2; 5])]]] =
    Some [VP COEFF [[(17, [4; 1])]]; VP COEFF [[(17, [0; 1])]]] /\
  exists p', poly_mul_to_ntt 5 ex_prog ex_sol = Some p' /\
    map (fun o => (o_results o, o_args o, o_form o)) (p_ops p') =
      [([2], [0; 1], EVAL); ([7], [2], COEFF); ([3], [2; 0], EVAL); ([4], [7], COEFF)]%nat /\
    run ex_csem (w_none _) w_root p' [VP EVAL [[(17, [7; 16])]]; VP EVAL [[(17, [5; 16])]]] =
      Some [VP EVAL [[(17, [8; 0])]]; VP COEFF [[(17, [0; 1])]]].
Proof.
  split; [|split; [|split; [|split; [|split]]]].
  - split; [|intros; discriminate]. intros [] l ys G E; try discriminate.
    destruct l as [|[f d|z] [|? ?]]; try discriminate; cbn in E; try discriminate.
    + destruct d as [|[|[q [|a [|b [|? ?]]]] [|? ?]] [|? ?]]; try discriminate;
        repeat match goal with H : match ?x with _ => _ end = Some _ |- _ => destruct x; try discriminate end.
      all: try discriminate.
      inversion G as [|? ? G1 _]; subst. inversion G1 as [|? ? G2 _]; subst. inversion G2 as [|? ? G3 _]; subst.
      destruct G3 as (_ & _ & k & _ & _ & L & F). injection E as <-. repeat constructor. apply w_ok; cbn; auto.
      * apply Z.mod_pos_bound; lia.
      * inversion F; subst; lia.
    + repeat match goal with H : match ?x with _ => _ end = Some _ |- _ => destruct x; try discriminate end.
  - split; [|split; [|split; [|split; [|split]]]].
    + cbn. intros v H. intuition lia.
    + cbn. repeat constructor; cbn; intuition lia.
    + auto.
    + intros o [<-|[<-|[<-|[]]]]; auto.
    + intros o [<-|[<-|[<-|[]]]]; cbn; auto.
    + intros [|o1 [|o2 [|o3 pre]]] o post v E; cbn in E; inversion E; subst.
      * intros [<-|[]] _. right. eexists. split; [left; reflexivity|]. cbn; auto.
      * intros [<-|[]] _. left. cbn; auto.
      * intros [<-|[]] _. left. cbn; auto.
      * destruct pre; discriminate.
  - intros cs E. vm_compute in E. injection E as <-. repeat constructor.
  - repeat constructor; apply w_ok; cbn; lia.
  - vm_compute. reflexivity.
  - eexists. split; [reflexivity|]. split; vm_compute; reflexivity.
Qed.
