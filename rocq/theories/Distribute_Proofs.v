(** secret-distribute-generic: splitting a generic and moving it into the branches of a conditional. *)
From Coq Require Import List Bool Arith Lia.
From Verif Require Import Generic_Spec Generic_Model Generic_Proofs Generic2_Proofs Generic3_Proofs Generic4_Proofs Generic5_Proofs Generic6_Proofs.
From Verif Require Import Distribute_Spec Distribute_Model.
Import ListNotations.
Set Default Proof Using "Type".

(** * Replacing twice *)
Lemma subst_ext m m' o : (forall v, In v (uses o) -> look m v = look m' v) -> subst m o = subst m' o.
Proof.
  assert (Hm : forall l, Forall (fun o => (forall v, In v (uses o) -> look m v = look m' v) -> subst m o = subst m' o) l ->
    (forall v, In v (flat_map uses l) -> look m v = look m' v) -> map (subst m) l = map (subst m') l).
  { induction 1 as [|x l Hx Hl IH]; intro H; cbn [map]; auto. cbn [flat_map] in H. f_equal; [apply Hx|apply IH]; intros; apply H, in_or_app; auto. }
  assert (Hv : forall xs, (forall v, In v xs -> look m v = look m' v) -> map (look m) xs = map (look m') xs).
  { intros xs H. apply map_ext_in; auto. }
  induction o as [n xs rs | r x | r x | ins args body ys outs IH | c inits iv iters body ys rs IH | c thn tys els eys rs IHt IHe] using op_ind2;
    intro H; cbn [subst uses] in *.
  - f_equal; auto.
  - f_equal. apply H; left; auto.
  - f_equal. apply H; left; auto.
  - f_equal; auto; (apply Hv || apply Hm; auto); intros; apply H; rewrite !in_app_iff; auto.
  - f_equal; auto; (apply Hv || (apply Hm; auto) || idtac); intros; apply H; cbn [In]; rewrite ?in_app_iff; auto.
  - f_equal; auto; (apply Hv || (apply Hm; auto) || idtac); intros; apply H; cbn [In]; rewrite ?in_app_iff; auto 6.
Qed.
Lemma subst_twice m1 m2 m o : (forall v, In v (uses o) -> look m2 (look m1 v) = look m v) -> subst m2 (subst m1 o) = subst m o.
Proof.
  assert (Hm : forall l, Forall (fun o => (forall v, In v (uses o) -> look m2 (look m1 v) = look m v) -> subst m2 (subst m1 o) = subst m o) l ->
    (forall v, In v (flat_map uses l) -> look m2 (look m1 v) = look m v) -> map (subst m2) (map (subst m1) l) = map (subst m) l).
  { induction 1 as [|x l Hx Hl IH]; intro H; cbn [map]; auto. cbn [flat_map] in H. f_equal; [apply Hx|apply IH]; intros; apply H, in_or_app; auto. }
  assert (Hv : forall xs, (forall v, In v xs -> look m2 (look m1 v) = look m v) -> map (look m2) (map (look m1) xs) = map (look m) xs).
  { intros xs H. rewrite map_map. apply map_ext_in; auto. }
  induction o as [n xs rs | r x | r x | ins args body ys outs IH | c inits iv iters body ys rs IH | c thn tys els eys rs IHt IHe] using op_ind2;
    intro H; cbn [subst uses] in *.
  - f_equal; auto.
  - f_equal. apply H; left; auto.
  - f_equal. apply H; left; auto.
  - f_equal; auto; (apply Hv || apply Hm; auto); intros; apply H; rewrite !in_app_iff; auto.
  - f_equal; auto; (apply Hv || (apply Hm; auto) || idtac); intros; apply H; cbn [In]; rewrite ?in_app_iff; auto.
  - f_equal; auto; (apply Hv || (apply Hm; auto) || idtac); intros; apply H; cbn [In]; rewrite ?in_app_iff; auto 6.
Qed.
Lemma substs_twice m1 m2 m l : (forall v, In v (flat_map uses l) -> look m2 (look m1 v) = look m v) -> map (subst m2) (map (subst m1) l) = map (subst m) l.
Proof.
  intro H. rewrite map_map. apply map_ext_in. intros o Ho. apply subst_twice. intros v Hv. apply H. apply in_flat_map; eauto.
Qed.

(** * Order *)
Lemma in_order_subst m l :
  in_order l -> (forall v, In v (flat_map uses l) -> look m v = v \/ ~ In (look m v) (flat_map results l)) -> in_order (map (subst m) l).
Proof.
  intros H Hm. assert (G : forall l', (forall v, In v (flat_map uses l') -> In v (flat_map uses l)) -> (forall v, In v (flat_map results l') -> In v (flat_map results l)) ->
    in_order l' -> in_order (map (subst m) l')); [|apply G; auto].
  clear H. induction l' as [|o l' IH]; intros Hu Hr H; cbn [map in_order]; auto. cbn [in_order] in H. destruct H as [Ho H]. split.
  - intros v. rewrite uses_subst, in_map_iff. intros (u & <- & Hi). change (subst m o :: map (subst m) l') with (map (subst m) (o :: l')).
    rewrite results_substs. intro Hin. assert (Hiu : In u (flat_map uses l)) by (apply Hu; cbn [flat_map]; apply in_or_app; auto).
    destruct (Hm u Hiu) as [E|E]; [rewrite E in Hin; apply (Ho u Hi Hin)|]. apply E, Hr, Hin.
  - apply IH; auto; intros v Hv; [apply Hu|apply Hr]; cbn [flat_map]; apply in_or_app; auto.
Qed.
Lemma clear_results_subst m l : clear_results l -> clear_results (map (subst m) l).
Proof. intros H o Ho. apply in_map_iff in Ho. destruct Ho as (o' & <- & Ho). rewrite results_subst. auto. Qed.

Section Split.
Variable V : Type.
Variable sem : nat -> list V -> option (list V).
Variable trips : V -> nat.
Variable index : nat -> V.
Variable truth : V -> bool.
Notation eval := (eval V sem trips index truth).
Notation run := (run V sem trips index truth).
Notation block := (block V sem trips index truth).
Notation env := (env V).
Notation bind := (bind V).
Notation vals := (vals V).
Notation ssa := (ssa V).
Notation sound := (sound V sem trips index truth).
Ltac gen_facts H :=
  destruct (generic_ssa _ _ _ _ _ _ _ _ H) as (Na & Nb & No & Dab & Dao & Dbo & Hun & Hus & Hev).
Ltac gen_inv E :=
  let ea := fresh "ea" in let eb := fresh "eb" in
  match goal with
  | Na : NoDup ?a, No : NoDup ?o |- _ =>
      destruct (generic_inv _ _ _ _ _ _ a _ _ o _ _ Na No E) as (ea & eb & Pa & Py & Li & Lo & Hin & Hea & Hfa & Hrb & Hyb & Ho & Hfo)
  end.
Lemma subst_nil o : subst [] o = o.
Proof.
  clear sem trips index truth.
  assert (Hm : forall l, Forall (fun o => subst [] o = o) l -> map (subst []) l = l) by (induction 1; cbn [map]; congruence).
  assert (Hv : forall xs, map (look []) xs = xs) by (intro xs; apply map_eq_id; auto).
  induction o using op_ind2; cbn [subst]; rewrite ?Hv, ?Hm; auto.
Qed.
Lemma look_nil l : map (look []) l = l.
Proof. clear sem trips index truth. apply map_eq_id; auto. Qed.
Lemma substs_nil l : map (subst []) l = l.
Proof. clear sem trips index truth. apply map_eq_id. intros; apply subst_nil. Qed.

(** ** The first operation leaves the generic *)
Lemma extract_first_block next next' pre ins args o rest ys outs post zs e ws t s :
  let g := Generic ins args (o :: rest) ys outs in
  ssa next (pre ++ g :: post) zs e -> forallb public (results o) = true ->
  (forall v, In v (uses o) -> ~ In v (flat_map results (o :: rest))) ->
  extract_before next 0 g = Some (t, s, next') ->
  block (pre ++ g :: post) zs e = Some ws ->
  block (pre ++ t :: s :: post) zs e = Some ws /\ ssa next' (pre ++ t :: s :: post) zs e.
Proof.
  intros g Hssa Hp Ho X E. change (g :: post) with ([g] ++ post) in *.
  destruct (sound_block V sem trips index truth next next' pre [g] [t; s] [] post zs e ws Hssa) as [H1 H2]; auto.
  - intros e0 e1 _ Hs Hr. eapply extract_before_sound; eauto. reflexivity.
  - rewrite look_nil, substs_nil in *. auto.
Qed.
(** ** A further operation follows *)
Lemma move_earlier_block next next' pre tins targs tbody tys touts sins sargs o rest sys souts post zs e ws t' s' :
  let t := Generic tins targs tbody tys touts in
  let s := Generic sins sargs (o :: rest) sys souts in
  ssa next (pre ++ t :: s :: post) zs e -> forallb public (results o) = true ->
  (forall v, In v (uses o) -> ~ In v (flat_map results (o :: rest))) ->
  (forall v, In v (uses o) -> ~ In v touts) ->
  move_earlier next t s = Some (t', s', next') ->
  block (pre ++ t :: s :: post) zs e = Some ws ->
  block (pre ++ t' :: s' :: post) zs e = Some ws /\ ssa next' (pre ++ t' :: s' :: post) zs e.
Proof.
  intros t s Hssa Hp Ho Ht X E.
  destruct (extract_before next 0 s) as [[[n s1] next1]|] eqn:X1; [|discriminate X1].
  assert (Hssa' : ssa next ((pre ++ [t]) ++ s :: post) zs e) by (rewrite <- app_assoc; auto).
  assert (E' : block ((pre ++ [t]) ++ s :: post) zs e = Some ws) by (rewrite <- app_assoc; auto).
  destruct (extract_first_block _ _ _ _ _ _ _ _ _ _ _ _ _ _ _ Hssa' Hp Ho X1 E') as [E1 Hssa1]. rewrite <- app_assoc in E1, Hssa1. cbn [app] in E1, Hssa1.
  (* the two steps together *)
  assert (Huse : forall v, In v (uses o) -> snd v < next).
  { intros v Hv. apply (proj1 (proj2 (proj2 Hssa))). rewrite !in_app_iff. right; left. rewrite flat_map_app, in_app_iff. right. cbn [flat_map uses s]. rewrite !in_app_iff. auto 9. }
  assert (Hres : forall v, In v (results o) -> snd v < next).
  { intros v Hv. apply (proj1 (proj2 (proj2 Hssa))). rewrite !in_app_iff. left. rewrite flat_map_app, in_app_iff. right. cbn [flat_map defs s]. rewrite !in_app_iff.
    apply results_defs in Hv. auto 9. }
  unfold s in X1. cbn [extract_before nth_error firstn skipn app] in X1. cbn [move_earlier t s] in X. unfold t, s in X.
  set (captured := first_occurrences [] (filter (fun v => mem v sargs) (operands o ++ walk o))) in *.
  set (k := length captured) in *. set (l := length (results o)) in *.
  assert (Hcap : forall v, In v captured -> In v sargs /\ In v (uses o)).
  { intros v. unfold captured. rewrite first_occurrences_spec, filter_In, in_app_iff, walk_uses. cbn [In].
    assert (Hop : In v (operands o) -> In v (uses o)) by (destruct o; cbn [operands uses In]; rewrite ?in_app_iff; tauto).
    destruct (mem_spec v sargs); intuition congruence. }
  assert (Ncap : NoDup captured) by apply first_occurrences_NoDup.
  injection X1 as <- <- <-.
  set (na := fresh false next k) in *.
  assert (Hna : forall v, In v na -> fst v = false /\ next <= snd v < next + k) by (intros v; apply In_fresh).
  assert (Lna : length na = k) by apply length_fresh.
  destruct (merge (next + k + l + l) t (Generic (map (operand_of sargs sins) captured) na [subst (combine captured na) o] (results o) (fresh true (next + k) l)))
    as [[[new m] next2]|] eqn:M; [|discriminate M].
  assert (EM := M). unfold t in M. cbn [merge] in M.
  set (srcs := map (operand_of sargs sins) captured) in *. set (ins := merge_operands touts srcs tins) in *.
  set (args := targs ++ fresh false (next + k + l + l) (length ins - length tins)) in *.
  set (m0 := combine na (map (merge_arg touts tys ins args) srcs)) in *.
  set (mm := combine captured (map (merge_arg touts tys ins args) srcs)) in *.
  assert (Lsrc : length srcs = k) by (unfold srcs; rewrite map_length; auto).
  assert (Hl0 : forall v, snd v < next -> look m0 v = v).
  { intros v Hv. apply look_notin. unfold m0. rewrite map_fst_combine by (rewrite map_length; lia). intro H. apply Hna in H. lia. }
  assert (Hlm : forall v, In v (uses o) -> look m0 (look (combine captured na) v) = look mm v).
  { intros v Hv. destruct (in_dec val_dec v captured) as [Hi|Hn].
    - apply In_nth_error in Hi. destruct Hi as (j & Hj). destruct (nth_error_same_length captured na j v (eq_sym Lna) Hj) as (a & Ha).
      destruct (nth_error_same_length captured (map (merge_arg touts tys ins args) srcs) j v) as (b & Hb); [rewrite map_length; fold k; lia | auto |].
      rewrite (look_combine_nth _ _ _ _ _ Ncap Hj Ha). unfold mm. rewrite (look_combine_nth _ _ _ _ _ Ncap Hj Hb).
      unfold m0. apply (look_combine_nth _ _ j); auto. apply NoDup_fresh.
    - rewrite (look_notin (combine captured na)) by (rewrite map_fst_combine; auto). rewrite Hl0 by auto.
      unfold mm. rewrite look_notin; auto. rewrite map_fst_combine; auto. rewrite map_length. lia. }
  cbn [map] in M. rewrite (subst_twice _ _ mm) in M by auto.
  rewrite (map_eq_id (look m0) (results o)) in M by auto.
  injection M as <- <- <-. injection X as <- <- <-.
  set (n := Generic srcs na [subst (combine captured na) o] (results o) (fresh true (next + k) l)) in *.
  set (s1 := Generic (sins ++ fresh true (next + k) l) _ _ _ souts) in *.
  set (t1 := Generic ins args _ _ _) in *.
  destruct (sound_block V sem trips index truth (next + k + l + l) (next + k + l + l + (length ins - length tins)) pre [t; n] [t1] [] (s1 :: post) zs e ws) as [H1 H2].
  - auto.
  - intros e0 e1 _ Hs Hr. refine (merge_sound _ _ _ _ _ _ _ _ _ _ _ _ _ _ _ _ _ _ _ _ _ _ Hs _ EM Hr).
    intros v Hv Hi. cbn [flat_map] in Hv. rewrite app_nil_r, uses_subst, in_app_iff in Hv.
    assert (Hlt : snd v < next) by (apply (proj1 (proj2 (proj2 Hssa))); rewrite !in_app_iff; left; rewrite flat_map_app, in_app_iff; right; cbn [flat_map defs t]; rewrite !in_app_iff; auto).
    destruct Hv as [Hv|Hv].
    + apply in_map_iff in Hv. destruct Hv as (u & Eu & Hu). destruct (in_dec val_dec u captured) as [Hc|Hc].
      * pose proof (look_in (combine captured na) u) as HL. rewrite map_fst_combine in HL by auto. apply HL in Hc. apply in_combine_r in Hc. apply Hna in Hc. rewrite Eu in Hc. lia.
      * rewrite look_notin in Eu by (rewrite map_fst_combine; auto). subst. apply (Ht _ Hu Hi).
    + assert (ND := proj1 Hssa). rewrite flat_map_app in ND. apply NoDup_app_iff in ND. destruct ND as (_ & ND & _).
      cbn [flat_map] in ND. apply NoDup_app_iff in ND. destruct ND as (_ & _ & ND). apply (ND v).
      * cbn [defs t]. rewrite !in_app_iff; auto.
      * cbn [defs s flat_map]. rewrite !in_app_iff. apply results_defs in Hv. auto.
  - auto.
  - rewrite look_nil, substs_nil in *. auto.
Qed.
(** ** Several operations *)
Lemma move_all_block count : forall next next' pre tins targs tbody tys touts sins sargs body sys souts post zs e ws t' s',
  let t := Generic tins targs tbody tys touts in
  let s := Generic sins sargs body sys souts in
  ssa next (pre ++ t :: s :: post) zs e -> clear_results body -> in_order body ->
  (forall v, In v (flat_map uses body) -> ~ In v touts) ->
  move_all next count t s = Some (t', s', next') ->
  block (pre ++ t :: s :: post) zs e = Some ws ->
  block (pre ++ t' :: s' :: post) zs e = Some ws /\ ssa next' (pre ++ t' :: s' :: post) zs e /\
  exists tins' targs' tbody' tys' touts' sins' sargs' sbody' sys',
    t' = Generic tins' targs' tbody' tys' touts' /\ s' = Generic sins' sargs' sbody' sys' souts /\
    map results tbody' = map results tbody ++ map results (firstn count body) /\ map results sbody' = map results (skipn count body).
Proof.
  induction count as [|count IH]; intros next next' pre tins targs tbody tys touts sins sargs body sys souts post zs e ws t' s' t s Hssa Hc Hio Ht X E.
  - injection X as <- <- <-. split; auto. split; auto. do 9 eexists. split; [reflexivity|]. split; [reflexivity|]. cbn [firstn skipn map]. rewrite app_nil_r. auto.
  - destruct body as [|o rest]; [discriminate X|]. cbn [move_all] in X. fold t s in X.
    destruct (move_earlier next t s) as [[[t1 s1] next1]|] eqn:X1; [|discriminate X].
    cbn [in_order] in Hio. destruct Hio as [Hio1 Hio2].
    assert (Hu : forall v, In v (uses o) -> ~ In v touts) by (intros v Hv; apply Ht; cbn [flat_map]; apply in_or_app; auto).
    destruct (move_earlier_block _ _ _ _ _ _ _ _ _ _ _ _ _ _ _ _ _ _ _ _ Hssa (Hc o (or_introl eq_refl)) Hio1 Hu X1 E) as [E1 Hssa1].
    assert (Hlt : forall v, In v (results o) \/ In v (flat_map uses rest) \/ In v (flat_map results rest) \/ In v touts -> snd v < next).
    { intros v Hv. apply (proj1 (proj2 (proj2 Hssa))). rewrite !flat_map_app, !in_app_iff. cbn [flat_map defs uses t s]. rewrite !in_app_iff.
      destruct Hv as [Hv|[Hv|[Hv|Hv]]]; auto 12.
      - apply results_defs in Hv. auto 12.
      - apply results_defs_all in Hv. auto 12. }
    unfold t, s in X1. cbn [move_earlier] in X1.
    set (captured := first_occurrences [] _) in *. set (k := length captured) in *. set (l := length (results o)) in *.
    set (ins := merge_operands _ _ _) in *. set (m := combine captured _) in *. set (m' := combine (results o) (fresh false (next + k + l) l)) in *.
    injection X1 as <- <- <-.
    assert (Hlook : forall v, look m' v = v \/ (fst (look m' v) = false /\ next + k + l <= snd (look m' v))).
    { intro v. destruct (look_cases m' v) as [H|H]; auto. right. apply in_combine_r in H. apply In_fresh in H. destruct H; split; auto; lia. }
    edestruct IH as (E2 & Hssa2 & tins2 & targs2 & tbody2 & tys2 & touts2 & sins2 & sargs2 & sbody2 & sys2 & E3 & E4 & E5 & E6); [exact Hssa1 | | | | exact X | exact E1 |].
    + apply clear_results_subst. intros o' Ho'. apply Hc. right; auto.
    + apply in_order_subst; auto. intros v Hv. destruct (Hlook v) as [H|H]; auto. right. intro Hi. assert (snd (look m' v) < next) by auto. lia.
    + intros v. rewrite uses_substs, in_map_iff. intros (u & <- & Hu1). rewrite in_app_iff. intros [H|H].
      * destruct (Hlook u) as [E0|E0].
        -- rewrite E0 in H. apply (Ht u); auto. cbn [flat_map]. apply in_or_app; auto.
        -- assert (snd (look m' u) < next) by auto. lia.
      * apply In_fresh in H. destruct (Hlook u) as [E0|E0].
        -- rewrite E0 in H. assert (snd u < next) by auto. lia.
        -- destruct H as [H _]. destruct E0 as [E0 _]. congruence.
    + split; auto. split; auto. do 9 eexists. split; [exact E3|]. split; [exact E4|]. cbn [firstn skipn map]. rewrite E5, E6. split.
      * rewrite map_app, <- app_assoc. cbn [map app]. rewrite results_subst. f_equal. f_equal. rewrite firstn_map, map_map. apply map_ext. intro; apply results_subst.
      * rewrite skipn_map, map_map. apply map_ext. intro; apply results_subst.
Qed.
Lemma split_before_block next next' i pre ins args body ys outs post zs e ws t s :
  let g := Generic ins args body ys outs in
  ssa next (pre ++ g :: post) zs e -> clear_results body -> in_order body -> 1 <= i ->
  split_before next i g = Some (t, s, next') ->
  block (pre ++ g :: post) zs e = Some ws ->
  block (pre ++ t :: s :: post) zs e = Some ws /\ ssa next' (pre ++ t :: s :: post) zs e /\
  exists tins targs tbody tys touts sins sargs sbody sys,
    t = Generic tins targs tbody tys touts /\ s = Generic sins sargs sbody sys outs /\
    map results tbody = map results (firstn i body) /\ map results sbody = map results (skipn i body).
Proof.
  intros g Hssa Hc Hio Hi X E. unfold split_before in X. destruct (extract_before next 0 g) as [[[t0 s0] next0]|] eqn:X0; [|discriminate X].
  destruct body as [|o rest]; [discriminate X0|]. cbn [in_order] in Hio. destruct Hio as [Hio1 Hio2].
  destruct (extract_first_block _ _ _ _ _ _ _ _ _ _ _ _ _ _ _ Hssa (Hc o (or_introl eq_refl)) Hio1 X0 E) as [E1 Hssa1].
  assert (Hlt : forall v, In v (results o) \/ In v (flat_map uses rest) \/ In v (flat_map results rest) -> snd v < next).
  { intros v Hv. apply (proj1 (proj2 (proj2 Hssa))). rewrite !flat_map_app, !in_app_iff. cbn [flat_map defs uses g]. rewrite !in_app_iff.
    destruct Hv as [Hv|[Hv|Hv]]; auto 12.
    - apply results_defs in Hv. auto 12.
    - apply results_defs_all in Hv. auto 12. }
  unfold g in X0. cbn [extract_before nth_error firstn skipn app] in X0.
  set (captured := first_occurrences [] _) in *. set (k := length captured) in *. set (l := length (results o)) in *.
  set (m' := combine (results o) (fresh false (next + k + l) l)) in *. injection X0 as <- <- <-.
  assert (Hlook : forall v, look m' v = v \/ (fst (look m' v) = false /\ next + k + l <= snd (look m' v))).
  { intro v. destruct (look_cases m' v) as [H|H]; auto. right. apply in_combine_r in H. apply In_fresh in H. destruct H; split; auto; lia. }
  edestruct move_all_block as (E2 & Hssa2 & tins2 & targs2 & tbody2 & tys2 & touts2 & sins2 & sargs2 & sbody2 & sys2 & E3 & E4 & E5 & E6); [exact Hssa1 | | | | exact X | exact E1 |].
  - apply clear_results_subst. intros o' Ho'. apply Hc. right; auto.
  - apply in_order_subst; auto. intros v Hv. destruct (Hlook v) as [H|H]; auto. right. intro Hin. assert (snd (look m' v) < next) by auto. lia.
  - intros v. rewrite uses_substs, in_map_iff. intros (u & <- & Hu1) H. apply In_fresh in H. destruct (Hlook u) as [E0|E0].
    + rewrite E0 in H. assert (snd u < next) by auto. lia.
    + destruct H as [H _]. destruct E0 as [E0 _]. congruence.
  - split; auto. split; auto. do 9 eexists. split; [exact E3|]. split; [exact E4|]. rewrite E5, E6. destruct i as [|i]; [lia|]. replace (S i - 1) with i by lia.
    cbn [firstn skipn map app]. rewrite results_subst, firstn_map, skipn_map, !map_map. split; [f_equal|]; apply map_ext; intro; apply results_subst.
Qed.
End Split.
