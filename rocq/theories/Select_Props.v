(** Properties C46 and C47. The straight-line code and the scoping rules are
    defined in Select_Model.v and Select_Proofs.v ([well_scoped]). *)

From Coq Require Import ZArith List Bool Lia QArith Reals Lra.
From Flocq Require Import Core IEEE754.BinarySingleNaN.
From Verif Require Import Words Select_Model Select_Proofs.
Import ListNotations.
Open Scope Z_scope.

(** * C46 *)

(** Running the hoisted operations of both branches and selecting gives the
    results of the taken branch, and leaves the surrounding values alone. *)
Theorem C46_if_to_select outer i ops pairs e b :
  well_scoped outer i ->
  length (i_then_yield i) = length (i_else_yield i) ->
  convert_if i = Some (ops, pairs) ->
  e (i_cond i) = Some b -> (b = 0 \/ b = 1) ->
  map (fun p => select (run_ops ops e (i_cond i))
                       (run_ops ops e (fst p)) (run_ops ops e (snd p))) pairs =
  (if Z.eqb b 1 then map (run_ops (i_then i) e) (i_then_yield i)
   else map (run_ops (i_else i) e) (i_else_yield i)) /\
  forall x, outer x -> run_ops ops e x = e x.
Proof.
  intros Hw Hl Hc Hb H01. split.
  - apply (convert_if_ok outer i ops pairs e b select); auto.
  - intros x Hx. unfold convert_if in Hc.
    destruct (forallb _ _); [|discriminate]. injection Hc as <- _.
    exact (hoisted_outer outer i e x Hw Hx).
Qed.
Print Assumptions C46_if_to_select.

(** A branch containing an operation that is not pure is not converted. *)
Theorem C46_impure_rejected i o :
  In o (i_then i) \/ In o (i_else i) -> o_pure o = false -> convert_if i = None.
Proof.
  intros Hin Hp. unfold convert_if.
  destruct (forallb o_pure (i_then i ++ i_else i)) eqn:E; [|reflexivity].
  rewrite forallb_forall in E. rewrite E in Hp; [discriminate|].
  apply in_or_app. exact Hin.
Qed.
Print Assumptions C46_impure_rejected.

(** The arithmetic form of a select on integers wider than one bit. *)
Theorem C46_select_int w c t f :
  1 < w -> is_word w t -> is_word w f -> (c = 0 \/ c = 1) ->
  select_int w (Some c) (Some t) (Some f) = Some (if Z.eqb c 1 then t else f).
Proof.
  intros. rewrite select_int_ok by assumption. cbn. now destruct (Z.eqb c 1).
Qed.
Print Assumptions C46_select_int.

(** The arithmetic form of a select on finite floats, of every precision and
    exponent range: same real value, and still finite. (The sign of a zero may
    change.) *)
Theorem C46_select_float_partial prec emax (Hp : Prec_gt_0 prec) (He : Prec_lt_emax prec emax)
    c (t f : fp prec emax) :
  is_finite t = true -> is_finite f = true ->
  is_finite (select_float c t f) = true /\
  B2R (select_float c t f) = B2R (if c then t else f).
Proof. exact (select_float_ok prec emax Hp He c t f). Qed.
Print Assumptions C46_select_float_partial.

(** Both passes in sequence, when every yielded value is a proper word. *)
Theorem C46_if_to_arith_partial outer i ops pairs e b w :
  1 < w ->
  well_scoped outer i ->
  length (i_then_yield i) = length (i_else_yield i) ->
  convert_if i = Some (ops, pairs) ->
  e (i_cond i) = Some b -> (b = 0 \/ b = 1) ->
  (forall x, In x (i_then_yield i) -> exists v, run_ops (i_then i) e x = Some v /\ is_word w v) ->
  (forall x, In x (i_else_yield i) -> exists v, run_ops (i_else i) e x = Some v /\ is_word w v) ->
  map (fun p => select_int w (run_ops ops e (i_cond i))
                             (run_ops ops e (fst p)) (run_ops ops e (snd p))) pairs =
  if Z.eqb b 1 then map (run_ops (i_then i) e) (i_then_yield i)
  else map (run_ops (i_else i) e) (i_else_yield i).
Proof.
  intros Hw1 Hw Hl Hc Hb H01 Ht He.
  apply (convert_if_ok outer i ops pairs e b (select_int w)); auto.
  intros x y Hx Hy. destruct (Ht x Hx) as (v & -> & Hv). destruct (He y Hy) as (u & -> & Hu).
  rewrite C46_select_int by assumption. now destruct (Z.eqb b 1).
Qed.
Print Assumptions C46_if_to_arith_partial.

(** Example code: if %0 then yield %1 << %2 else yield %1 on i8. The shift is
    pure; it is poison when the amount is 8 or more. *)
Definition c46_shl : op :=
  {| o_dst := 3; o_args := [1%nat; 2%nat];
     o_fn := fun l => match l with
                      | [Some x; Some s] => if Z.ltb s 8 then Some (wrap 8 (x * 2 ^ s)) else None
                      | _ => None
                      end;
     o_pure := true |}.
Definition c46_if : if_op :=
  {| i_cond := 0; i_then := [c46_shl]; i_then_yield := [3%nat];
     i_else := []; i_else_yield := [1%nat] |}.
Definition c46_env (c s : Z) : env :=
  fun x => match x with 0%nat => Some c | 1%nat => Some 5 | 2%nat => Some s | _ => None end.

Lemma c46_scoped : well_scoped (fun x => (x < 3)%nat) c46_if.
Proof.
  unfold well_scoped, in_scope. cbn [c46_if i_cond i_then i_else i_then_yield i_else_yield].
  split; [lia|]. split; [split|split; [split|split]].
  - intros [|p pre] o post x E Hx.
    + injection E as <- _. cbn in Hx. left. lia.
    + injection E as _ E. destruct pre; discriminate E.
  - intros x [<-|[]]. right. now left.
  - intros [|p pre] o post x E; discriminate E.
  - intros x [<-|[]]. left. lia.
  - intros x [<-|[]]. cbn. split; [lia|tauto].
  - intros x [].
Qed.

(** Without the hypothesis on the yielded values the composition is wrong: a
    poison value in the branch that is not taken poisons the result. *)
Theorem C46_poison_refuted :
  exists i ops pairs e w,
    well_scoped (fun x => (x < 3)%nat) i /\
    convert_if i = Some (ops, pairs) /\ e (i_cond i) = Some 0 /\
    map (run_ops (i_else i) e) (i_else_yield i) = [Some 5] /\
    map (fun p => select_int w (run_ops ops e (i_cond i))
                             (run_ops ops e (fst p)) (run_ops ops e (snd p))) pairs = [None].
Proof.
  exists c46_if, [c46_shl], [(3%nat, 1%nat)], (c46_env 0 9), 8.
  split; [exact c46_scoped|repeat split].
Qed.
Print Assumptions C46_poison_refuted.

(** 0 * inf is NaN, so an infinite value in the other branch is not ignored. *)
Theorem C46_nonfinite_refuted prec emax (Hp : Prec_gt_0 prec) (He : Prec_lt_emax prec emax) :
  exists (c : bool) (t f : fp prec emax),
    is_nan (if c then t else f) = false /\ is_nan (select_float c t f) = true.
Proof.
  exists false, (B754_infinity false), (B754_zero false). split; [reflexivity|].
  unfold select_float. cbn [negb uitofp].
  now destruct (Bmult mode_NE (Bone : fp prec emax) (B754_zero false)).
Qed.
Print Assumptions C46_nonfinite_refuted.

Example C46_nonvacuous :
  well_scoped (fun x => (x < 3)%nat) c46_if /\
  convert_if c46_if = Some ([c46_shl], [(3%nat, 1%nat)]) /\
  c46_env 1 3 (i_cond c46_if) = Some 1 /\
  map (run_ops (i_then c46_if) (c46_env 1 3)) (i_then_yield c46_if) = [Some 40] /\
  select_int 8 (Some 1) (Some 40) (Some 5) = Some 40 /\
  select_int 8 (Some 0) (Some 40) (Some 5) = Some 5.
Proof.
  split; [exact c46_scoped|repeat split].
Qed.

(** * C47 *)

(** What the rewritten comparison computes, for all finite floats of every
    format: a < b gives 0, equality gives 0, a > b gives poison. The true
    answer for a < b is 1. *)
Theorem C47_cmpf_behaviour prec emax (Hp : Prec_gt_0 prec) (He : Prec_lt_emax prec emax)
    (a b : fp prec emax) :
  is_finite a = true -> is_finite b = true ->
  ((B2R a < B2R b)%R -> cmpf_to_sign Plt a b = Some (Some 0) /\ cmpf_to_sign Pgt a b = Some None) /\
  (B2R a = B2R b -> cmpf_to_sign Plt a b = Some (Some 0) /\ cmpf_to_sign Pgt a b = Some (Some 0)) /\
  ((B2R b < B2R a)%R -> cmpf_to_sign Plt a b = Some None /\ cmpf_to_sign Pgt a b = Some (Some 0)).
Proof.
  intros Fa Fb. unfold cmpf_to_sign.
  rewrite (fp_sign_minus prec emax Hp He a b Fa Fb), (fp_sign_minus prec emax Hp He b a Fb Fa).
  split; [|split]; intros H.
  - rewrite (Rcompare_Lt _ _ H), (Rcompare_Gt _ _ H). split; reflexivity.
  - rewrite (Rcompare_Eq _ _ H), (Rcompare_Eq _ _ (eq_sym H)). split; reflexivity.
  - rewrite (Rcompare_Lt _ _ H), (Rcompare_Gt _ _ H). split; reflexivity.
Qed.
Print Assumptions C47_cmpf_behaviour.

(** So the claim of C47 fails on every pair of finite floats with a < b. *)
Theorem C47_sense_refuted prec emax (Hp : Prec_gt_0 prec) (He : Prec_lt_emax prec emax) :
  exists a b : fp prec emax,
    is_finite a = true /\ is_finite b = true /\ (B2R a < B2R b)%R /\
    cmpf_to_sign Plt a b = Some (Some 0).
Proof.
  exists (B754_zero false), Bone.
  assert (H : (B2R (B754_zero false : fp prec emax) < B2R (Bone : fp prec emax))%R).
  { rewrite Bone_correct. cbn. lra. }
  split; [reflexivity|]. split; [apply is_finite_Bone|]. split; [exact H|].
  destruct (C47_cmpf_behaviour prec emax Hp He (B754_zero false) Bone eq_refl
              (is_finite_Bone prec emax Hp He)) as (H1 & _).
  exact (proj1 (H1 H)).
Qed.
Print Assumptions C47_sense_refuted.

(** Integers small enough for the conversion to f32 to be exact. *)
Theorem C47_cmpi_behaviour a b :
  Z.abs a <= 2 ^ 24 -> Z.abs b <= 2 ^ 24 ->
  (a < b -> cmpi_to_sign Islt a b = CmpIvalue (Some 0) /\ cmpi_to_sign Isgt a b = CmpIvalue None) /\
  (a = b -> cmpi_to_sign Islt a b = CmpIvalue (Some 0) /\ cmpi_to_sign Isgt a b = CmpIvalue (Some 0)) /\
  (b < a -> cmpi_to_sign Islt a b = CmpIvalue None /\ cmpi_to_sign Isgt a b = CmpIvalue (Some 0)) /\
  cmpi_to_sign Iugt a b = CmpInull.
Proof.
  intros _ _. unfold cmpi_to_sign, q_sign.
  assert (E : forall x y, (inject_Z x - inject_Z y ?= 0)%Q = (x ?= y)).
  { intros x y. unfold Qcompare. cbn. rewrite !Z.mul_1_r.
    rewrite (Z.compare_sub x y). now rewrite Z.add_opp_r. }
  rewrite !E.
  split; [|split; [|split]]; try intros H.
  - assert (E1 : (a ?= b) = Lt) by (apply Z.compare_lt_iff; lia).
    assert (E2 : (b ?= a) = Gt) by (apply Z.compare_gt_iff; lia).
    rewrite E1, E2. split; reflexivity.
  - subst. rewrite Z.compare_refl. split; reflexivity.
  - assert (E1 : (a ?= b) = Gt) by (apply Z.compare_gt_iff; lia).
    assert (E2 : (b ?= a) = Lt) by (apply Z.compare_lt_iff; lia).
    rewrite E1, E2. split; reflexivity.
  - reflexivity.
Qed.
Print Assumptions C47_cmpi_behaviour.

Theorem C47_cmpi_refuted :
  (exists a b, a < b /\ cmpi_to_sign Islt a b = CmpIvalue (Some 0)) /\
  (exists a b, cmpi_to_sign Iugt a b = CmpInull).
Proof. split; [exists 3, 5; split; [lia|reflexivity]|exists 0, 0; reflexivity]. Qed.
Print Assumptions C47_cmpi_refuted.

Example C47_nonvacuous :
  Z.abs 3 <= 2 ^ 24 /\ Z.abs (-7) <= 2 ^ 24 /\
  cmpi_to_sign Islt (-7) 3 = CmpIvalue (Some 0) /\
  cmpi_to_sign Islt 3 (-7) = CmpIvalue None.
Proof. vm_compute. repeat split; discriminate. Qed.
