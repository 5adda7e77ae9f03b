(** The rewrites of secret.generic are sound replacements, continued: merging, extraction to the back,
    concealed destinations. *)
From Coq Require Import List Bool Arith Lia.
From Verif Require Import Generic_Spec Generic_Model Generic_Proofs Generic2_Proofs Generic3_Proofs Generic4_Proofs Generic5_Proofs.
Import ListNotations.
Set Default Proof Using "Type".

Lemma mem_true v l : mem v l = true <-> In v l.
Proof. destruct (mem_spec v l); split; auto; discriminate || tauto. Qed.
Lemma merge_operands_spec outs1 ins2 ops :
  exists added, merge_operands outs1 ins2 ops = ops ++ added /\ (forall x, In x added -> In x ins2 /\ ~ In x outs1) /\
    (forall x, In x ins2 -> In x outs1 \/ In x (ops ++ added)).
Proof.
  revert ops; induction ins2 as [|x ins2 IH]; intro ops; cbn [merge_operands].
  - exists []. rewrite app_nil_r. split; auto. split; [intros ? [] | intros ? []].
  - destruct (mem_spec x outs1) as [H|H]; [|destruct (mem_spec x ops) as [H'|H']].
    + destruct (IH ops) as (a & -> & H1 & H2). exists a. split; [auto|split].
      * intros y Hy. apply H1 in Hy. cbn [In]. tauto.
      * intros y [<-|Hy]; auto.
    + destruct (IH ops) as (a & -> & H1 & H2). exists a. split; [auto|split].
      * intros y Hy. apply H1 in Hy. cbn [In]. tauto.
      * intros y [<-|Hy]; auto. right. apply in_or_app; auto.
    + destruct (IH (ops ++ [x])) as (a & -> & H1 & H2). exists (x :: a). rewrite <- app_assoc. split; [auto|split].
      * intros y [<-|Hy]; [cbn [In]; tauto|]. apply H1 in Hy. cbn [In]. tauto.
      * intros y [<-|Hy]; [right; rewrite !in_app_iff; cbn; auto|]. destruct (H2 y Hy) as [?|H3]; auto.
        right. rewrite <- app_assoc in H3. auto.
Qed.

Section Patterns.
Variable V : Type.
Variable sem : nat -> list V -> option (list V).
Variable trips : V -> nat.
Variable index : nat -> V.
Variable truth : V -> bool.
Notation eval := (eval V sem trips index truth).
Notation run := (run V sem trips index truth).
Notation block := (block V sem trips index truth).
Notation env := (env V).
Notation bind := (bind V).
Notation vals := (vals V).
Notation ssa := (ssa V).
Notation sound := (sound V sem trips index truth).
Ltac gen_facts H :=
  destruct (generic_ssa _ _ _ _ _ _ _ _ H) as (Na & Nb & No & Dab & Dao & Dbo & Hun & Hus & Hev).
Ltac gen_inv E :=
  let ea := fresh "ea" in let eb := fresh "eb" in
  match goal with
  | Na : NoDup ?a, No : NoDup ?o |- _ =>
      destruct (generic_inv _ _ _ _ _ _ a _ _ o _ _ Na No E) as (ea & eb & Pa & Py & Li & Lo & Hin & Hea & Hfa & Hrb & Hyb & Ho & Hfo)
  end.

Ltac d12 x := exfalso; match goal with D : forall v, _ -> ~ In v _ /\ ~ In v _ /\ ~ In v _ |- _ => destruct (D x) as (? & ? & ?); tauto end.

(** ** MergeAdjacentGenerics *)
Lemma merge_sound (U : val -> Prop) next next' ins1 args1 body1 ys1 outs1 ins2 args2 body2 ys2 outs2 new m e e2 :
  let g1 := Generic ins1 args1 body1 ys1 outs1 in
  let g2 := Generic ins2 args2 body2 ys2 outs2 in
  ssa next [g1; g2] [] e -> (forall v, In v (flat_map uses body2 ++ ys2) -> ~ In v outs1) ->
  merge next g1 g2 = Some (new, m, next') -> run [g1; g2] e = Some e2 -> sound U next next' [g1; g2] new m e.
Proof.
  intros g1 g2 Hssa Hnot C E2. unfold g1, g2 in *. cbn [merge] in C.
  assert (HD := Hssa).
  change ([Generic ins1 args1 body1 ys1 outs1; Generic ins2 args2 body2 ys2 outs2]) with ([Generic ins1 args1 body1 ys1 outs1] ++ [Generic ins2 args2 body2 ys2 outs2]) in Hssa, E2.
  rewrite run_app in E2. destruct (run [Generic ins1 args1 body1 ys1 outs1] e) as [e1|] eqn:E1; [|discriminate E2].
  pose proof (ssa_split _ _ _ _ _ _ _ _ _ _ _ Hssa E1) as Hssa2. pose proof (ssa_prefix _ _ _ _ _ _ Hssa) as Hssa1.
  destruct HD as (ND & HDu & _ & He). cbn [flat_map defs uses] in ND, HDu. rewrite !app_nil_r in ND, HDu.
  apply NoDup_app_iff in ND. destruct ND as (_ & _ & D12).
  destruct (generic_ssa _ _ _ _ _ _ _ _ Hssa1) as (Na1 & Nb1 & No1 & Dab1 & Dao1 & Dbo1 & Hun1 & Hus1 & _).
  destruct (generic_ssa _ _ _ _ _ _ _ _ Hssa2) as (Na2 & Nb2 & No2 & Dab2 & Dao2 & Dbo2 & Hun2 & Hus2 & _).
  destruct (generic_inv _ _ _ _ _ _ _ _ _ _ _ _ Na1 No1 E1) as (ea1 & eb1 & Pa1 & Py1 & Li1 & Lo1 & Hin1 & Hea1 & Hfa1 & Hrb1 & Hyb1 & Ho1 & Hfo1).
  destruct (generic_inv _ _ _ _ _ _ _ _ _ _ _ _ Na2 No2 E2) as (ea2 & eb2 & Pa2 & Py2 & Li2 & Lo2 & Hin2 & Hea2 & Hfa2 & Hrb2 & Hyb2 & Ho2 & Hfo2).
  destruct (merge_operands_spec outs1 ins2 ins1) as (added & Em & Had1 & Had2). rewrite Em in C. rewrite app_length in C.
  replace (length ins1 + length added - length ins1) with (length added) in C by lia.
  set (k := length added) in *. set (fa := fresh false next k) in *. set (ins := ins1 ++ added) in *. set (args := args1 ++ fa) in *.
  set (m0 := combine args2 (map (merge_arg outs1 ys1 ins args) ins2)) in *. injection C as <- <- <-.
  assert (Lfa : length fa = k) by apply length_fresh.
  assert (Hfa : forall v, In v fa -> fst v = false /\ next <= snd v < next + k) by (intros v; apply In_fresh).
  assert (Li : length ins = length args) by (unfold ins, args; rewrite !app_length; lia).
  assert (D12a : forall v, In v args1 \/ In v (flat_map defs body1) \/ In v outs1 -> ~ In v args2 /\ ~ In v (flat_map defs body2) /\ ~ In v outs2).
  { intros v Hv. assert (H := D12 v). rewrite !in_app_iff in H. tauto. }
  assert (Hun2' : forall v, In v args2 \/ In v (flat_map defs body2) \/ In v outs2 -> e v = None /\ snd v < next).
  { intros v Hv. split; [apply HDu; rewrite !in_app_iff; tauto | apply Hun2; auto]. }
  (* the arguments of the second generic *)
  assert (Hm0 : forall v, In v args2 -> exists x, In (x, v) (combine ins2 args2) /\ look m0 v = merge_arg outs1 ys1 ins args x).
  { intros v Hv. apply In_nth_error in Hv. destruct Hv as (i & Hi). destruct (nth_error_same_length args2 ins2 i v (eq_sym Li2) Hi) as (x & Hx).
    exists x. split; [apply In_combine_nth; eauto|]. unfold m0. apply (look_combine_nth _ _ i); auto. rewrite nth_error_map, Hx; auto. }
  assert (Hm0' : forall v, ~ In v args2 -> look m0 v = v).
  { intros v Hv. unfold m0. apply look_notin. rewrite map_fst_combine; auto. rewrite map_length; auto. }
  assert (Harg : forall x, In x ins2 ->
    (exists y, In (y, x) (combine ys1 outs1) /\ merge_arg outs1 ys1 ins args x = y) \/
    (~ In x outs1 /\ exists a, In (x, a) (combine ins args) /\ merge_arg outs1 ys1 ins args x = a)).
  { intros x Hx. unfold merge_arg. destruct (find_index x outs1) as [i|] eqn:F.
    - left. apply find_index_some in F. destruct (nth_error_same_length outs1 ys1 i x (eq_sym Lo1) F) as (y & Hy). exists y. split; [apply In_combine_nth; eauto|].
      apply nth_error_nth; auto.
    - right. apply find_index_none in F. split; auto. destruct (find_index x ins) as [j|] eqn:F'.
      + apply find_index_some in F'. destruct (nth_error_same_length ins args j x Li F') as (a & Ha). exists a. split; [apply In_combine_nth; eauto|].
        apply nth_error_nth; auto.
      + apply find_index_none in F'. destruct (Had2 x Hx); tauto. }
  assert (Hins : forall x, In x ins -> e x <> None /\ snd x < next).
  { intros x Hx. assert (e x <> None); [|split; auto]. unfold ins in Hx. apply in_app_iff in Hx. destruct Hx as [Hx|Hx]; auto.
    apply Had1 in Hx. destruct Hx as [Hx Hn]. rewrite <- (Hfo1 x Hn). auto. }
  assert (Hr1 : forall v, In v (flat_map results body1) -> In v (flat_map defs body1)) by (intros; apply results_defs_all; auto).
  assert (Hr2 : forall v, In v (flat_map results body2) -> In v (flat_map defs body2)) by (intros; apply results_defs_all; auto).
  assert (Hargs : forall v, In v args -> In v args1 \/ In v fa) by (intros v Hv; apply in_app_iff; auto).
  assert (Hlt2 : forall v, In v args2 \/ In v (flat_map defs body2) \/ In v outs2 -> snd v < next) by (intros; apply Hun2'; auto).
  assert (Hlt1 : forall v, In v args1 \/ In v (flat_map defs body1) \/ In v outs1 -> snd v < next) by (intros; apply Hun1; auto).
  (* what the first generic yields is not defined in the second *)
  assert (Hy12 : forall y, In y ys1 -> ~ In y (flat_map defs body2)).
  { intros y Hy H. apply (Hyb1 y Hy). rewrite (run_frame _ _ _ _ _ _ _ _ _ Hrb1).
    - rewrite Hfa1; [apply Hun2'; auto|]. intro H'. d12 y.
    - intro H'. apply Hr1 in H'. d12 y. }
  set (R := fun v v' => v' = look m0 v /\ snd v < next /\ ~ In v outs1).
  assert (Ht : typed R).
  { intros v v' (-> & _ & _). destruct (in_dec val_dec v args2) as [Hi|Hn]; [|rewrite Hm0'; auto].
    pose proof (forallb_In _ _ _ Pa2 Hi) as P. destruct (Hm0 v Hi) as (x & Hx & ->). pose proof (in_combine_l _ _ _ _ Hx) as Hx'.
    destruct (Harg x Hx') as [(y & Hy & ->) | (_ & a & Ha & ->)].
    - apply in_combine_l in Hy. apply (forallb_In _ _ _ Py1) in Hy. unfold public in *. destruct (fst v), (fst y); auto.
    - apply in_combine_r in Ha. apply Hargs in Ha. destruct Ha as [Ha|Ha].
      + apply (forallb_In _ _ _ Pa1) in Ha. unfold public in *. destruct (fst v), (fst a); auto.
      + apply Hfa in Ha. destruct Ha as [-> _]. unfold public in P. destruct (fst v); auto. }
  assert (Hg : good R (flat_map defs body2)).
  { intros v v' d (-> & _ & _) Hd Hor. destruct (in_dec val_dec v args2) as [Hi|Hn]; [|rewrite Hm0'; auto].
    exfalso. destruct Hor as [-> | Hor]; [apply (Dab2 d Hi Hd)|]. destruct (Hm0 v Hi) as (x & Hx & Em'). rewrite Hor in Em'. pose proof (in_combine_l _ _ _ _ Hx) as Hx'.
    destruct (Harg x Hx') as [(y & Hy & E') | (_ & a & Ha & E')].
    - apply in_combine_l in Hy. apply (Hy12 y Hy). congruence.
    - apply in_combine_r in Ha. apply Hargs in Ha. assert (Ead : a = d) by congruence. clear E' Em'. rewrite Ead in Ha. destruct Ha as [Ha|Ha].
      + d12 d.
      + apply Hfa in Ha. assert (snd d < next) by auto. lia. }
  assert (Nargs : NoDup args).
  { apply NoDup_app_iff. repeat split; auto; [apply NoDup_fresh|]. intros v Hv H. apply Hfa in H. assert (snd v < next) by auto. lia. }
  assert (Nouts : NoDup (outs1 ++ outs2)).
  { apply NoDup_app_iff. repeat split; auto. intros v Hv H. d12 v. }
  assert (Hy1lt : forall y, In y ys1 -> snd y < next) by (intros; apply Hus1; auto).
  assert (Hy2R : forall y, In y ys2 -> R y (look m0 y)).
  { intros y Hy. split; [auto|]. split; [apply Hus2; auto | apply Hnot; apply in_or_app; auto]. }
  destruct (generic_intro V sem trips index truth
      (fun ea' eb' => (forall y, In y ys1 -> eb' y = eb1 y) /\ (forall y, In y ys2 -> eb' (look m0 y) = eb2 y))
      ins args (body1 ++ map (subst m0) body2) (ys1 ++ map (look m0) ys2) (outs1 ++ outs2) e) as (en & ean & ebn & En & _ & (Q1 & Q2) & Hnout & Hnf).
  { auto. }
  { auto. }
  { unfold args. rewrite forallb_app, Pa1. apply forallb_forall. intros v Hv. apply Hfa in Hv. unfold public. destruct Hv as [-> _]; auto. }
  { rewrite forallb_app, Py1. apply forallb_forall. intros v Hv. apply in_map_iff in Hv. destruct Hv as (y & <- & Hy). unfold public.
    rewrite <- (Ht y (look m0 y)) by auto. apply (forallb_In _ _ _ Py2 Hy). }
  { auto. }
  { rewrite !app_length, map_length. lia. }
  { intros x Hx. apply Hins; auto. }
  { intros ean Hean Hfan. rewrite run_app.
    assert (Hs0 : sim V (same (fun v => snd v < next)) ea1 ean).
    { intros v v' w (-> & Hv) Hw. destruct (in_dec val_dec v args1) as [Hi|Hn].
      - destruct (In_combine_snd ins1 args1 v Li1 Hi) as (x & Hx). rewrite (Hea1 _ _ Hx) in Hw. rewrite (Hean x v); auto.
        apply In_combine_nth in Hx. destruct Hx as (j & Hx1 & Hx2). apply In_combine_nth. exists j. unfold ins, args. split; rewrite nth_error_app1; auto; apply nth_error_Some; congruence.
      - rewrite Hfa1 in Hw by auto. rewrite Hfan; auto. intro H. apply Hargs in H. destruct H as [H|H]; auto. apply Hfa in H. lia. }
    destruct (run_sim V sem trips index truth body1 _ body1 ea1 ean eb1 (same_typed _) (same_good _ _) Hs0) as (eb1' & Eb1 & Hs1).
    { apply same_subs. intros v Hv. apply Hus1; auto. }
    { auto. }
    rewrite Eb1.
    assert (Hs2 : sim V R ea2 eb1').
    { intros v v' w (-> & Hv & Hv') Hw. destruct (in_dec val_dec v args2) as [Hi|Hn].
      - destruct (Hm0 v Hi) as (x & Hx & ->). rewrite (Hea2 _ _ Hx) in Hw. pose proof (in_combine_l _ _ _ _ Hx) as Hx'.
        destruct (Harg x Hx') as [(y & Hy & ->) | (Hx'' & a & Ha & ->)].
        + rewrite (Ho1 _ _ Hy) in Hw. apply (Hs1 y y); auto. split; auto. apply Hy1lt. eapply in_combine_l; eauto.
        + rewrite Hfo1 in Hw by auto. rewrite (run_frame _ _ _ _ _ _ _ _ _ Eb1).
          * rewrite (Hean x a); auto.
          * intro H. apply Hr1 in H. apply in_combine_r in Ha. apply Hargs in Ha. destruct Ha as [Ha|Ha]; [apply (Dab1 a); auto|].
            apply Hfa in Ha. assert (snd a < next) by auto. lia.
      - rewrite Hm0' by auto. rewrite Hfa2, Hfo1 in Hw by auto. rewrite (run_frame _ _ _ _ _ _ _ _ _ Eb1).
        + rewrite Hfan; auto. intro H. apply Hargs in H. destruct H as [H|H]; [|apply Hfa in H; lia].
          destruct (Hun1 v) as [H' _]; auto. congruence.
        + intro H. apply Hr1 in H. destruct (Hun1 v) as [H' _]; auto. congruence. }
    destruct (run_sim V sem trips index truth body2 R (map (subst m0) body2) ea2 eb1' eb2 Ht Hg Hs2) as (eb2' & Eb2 & Hs3); auto.
    { apply substs_sub. intros v Hv. split; auto. split; [apply Hus2; auto | apply Hnot; apply in_or_app; auto]. }
    exists eb2'. split; auto.
    assert (Q1 : forall y, In y ys1 -> eb2' y = eb1 y).
    { intros y Hy. rewrite (run_frame _ _ _ _ _ _ _ _ _ Eb2).
      - destruct (eb1 y) as [w|] eqn:Ey; [|destruct (Hyb1 _ Hy Ey)]. apply (Hs1 y y); auto. split; auto.
      - rewrite results_substs. intro H. apply (Hy12 y Hy); auto. }
    assert (Q2 : forall y, In y ys2 -> eb2' (look m0 y) = eb2 y).
    { intros y Hy. destruct (eb2 y) as [w|] eqn:Ey; [|destruct (Hyb2 _ Hy Ey)]. apply (Hs3 y); auto. }
    split; [|split; auto]. intros y Hy. apply in_app_iff in Hy. destruct Hy as [Hy|Hy].
    - rewrite Q1; auto.
    - apply in_map_iff in Hy. destruct Hy as (y' & <- & Hy). rewrite Q2; auto. }
  constructor.
  - lia.
  - cbn [flat_map defs]. rewrite app_nil_r, flat_map_app, defs_substs. unfold args. rewrite <- !app_assoc. rewrite !NoDup_app_iff.
    repeat split; auto; try apply NoDup_fresh.
    + intros x Hx H. d12 x.
    + intros x Hx H. apply in_app_iff in H. destruct H as [H|H]; [d12 x | apply (Dbo2 x); auto].
    + intros x Hx H. rewrite !in_app_iff in H. destruct H as [H|[H|H]]; [d12 x | apply (Dbo1 x); auto | d12 x].
    + intros x Hx H. apply Hfa in Hx. rewrite !in_app_iff in H. assert (snd x < next) by (destruct H as [H|[H|[H|H]]]; auto). lia.
    + intros x Hx H. rewrite !in_app_iff in H. destruct H as [H|[H|[H|[H|H]]]].
      * apply Hfa in H. assert (snd x < next) by auto. lia.
      * apply (Dab1 x); auto.
      * d12 x.
      * apply (Dao1 x); auto.
      * d12 x.
  - intros d Hd. cbn [flat_map defs] in *. rewrite !app_nil_r, flat_map_app, defs_substs in *. unfold args in Hd. rewrite !in_app_iff in *.
    destruct Hd as [[Hd|Hd]|[[Hd|Hd]|[Hd|Hd]]]; try tauto. apply Hfa in Hd. right; lia.
  - assert (Hlo : forall v, snd v < next -> snd (look m0 v) < next + k).
    { intros v Hv. destruct (in_dec val_dec v args2) as [Hi|Hn]; [|rewrite Hm0'; auto; lia]. destruct (Hm0 v Hi) as (x & Hx & ->). pose proof (in_combine_l _ _ _ _ Hx) as Hx'.
      destruct (Harg x Hx') as [(y & Hy & ->) | (_ & a & Ha & ->)].
      - apply in_combine_l in Hy. apply Hy1lt in Hy. lia.
      - apply in_combine_r in Ha. apply Hargs in Ha. destruct Ha as [Ha|Ha]; [assert (snd a < next) by auto; lia | apply Hfa in Ha; lia]. }
    intros v Hv. cbn [flat_map uses] in Hv. rewrite !app_nil_r, flat_map_app, uses_substs, !in_app_iff, !in_map_iff in Hv.
    destruct Hv as [Hv|[[Hv|Hv]|[Hv|Hv]]].
    + apply Hins in Hv. lia.
    + assert (snd v < next) by (apply Hus1; auto). lia.
    + destruct Hv as (x & <- & Hx). apply Hlo, Hus2. auto.
    + apply Hy1lt in Hv. lia.
    + destruct Hv as (x & <- & Hx). apply Hlo, Hus2. auto.
  - intros a b [].
  - intros e2' E2'. exists en. split; auto. 
    change ([Generic ins1 args1 body1 ys1 outs1; Generic ins2 args2 body2 ys2 outs2]) with ([Generic ins1 args1 body1 ys1 outs1] ++ [Generic ins2 args2 body2 ys2 outs2]) in E2'.
    rewrite run_app, E1, E2 in E2'. injection E2' as <-.
    intros v w _ Hw. change (look [] v) with v. destruct (in_dec val_dec v outs2) as [Hi|Hn].
    + destruct (In_combine_snd ys2 outs2 v Lo2 Hi) as (y & Hy). rewrite (Ho2 _ _ Hy) in Hw. rewrite (Hnout (look m0 y) v).
      * rewrite Q2; auto. eapply in_combine_l; eauto.
      * apply In_combine_nth in Hy. destruct Hy as (j & Hj1 & Hj2). apply In_combine_nth. exists (length ys1 + j).
        rewrite !nth_error_app2 by lia. replace (length ys1 + j - length ys1) with j by lia. replace (length ys1 + j - length outs1) with j by lia. rewrite nth_error_map, Hj1. auto.
    + rewrite Hfo2 in Hw by auto. destruct (in_dec val_dec v outs1) as [Hi1|Hn1].
      * destruct (In_combine_snd ys1 outs1 v Lo1 Hi1) as (y & Hy). rewrite (Ho1 _ _ Hy) in Hw. rewrite (Hnout y v).
        -- rewrite Q1; auto. eapply in_combine_l; eauto.
        -- apply In_combine_nth in Hy. destruct Hy as (j & Hj1 & Hj2). apply In_combine_nth. exists j.
           split; rewrite nth_error_app1; auto; apply nth_error_Some; congruence.
      * rewrite Hfo1 in Hw by auto. rewrite Hnf; auto. rewrite in_app_iff. tauto.
Qed.
End Patterns.
