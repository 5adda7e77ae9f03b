(** The rewrites of secret.generic are sound replacements, continued: operations that leave a generic. *)
From Coq Require Import List Bool Arith Lia.
From Verif Require Import Generic_Spec Generic_Model Generic_Proofs Generic2_Proofs Generic3_Proofs Generic4_Proofs.
Import ListNotations.
Set Default Proof Using "Type".

Lemma first_occurrences_spec seen l v : In v (first_occurrences seen l) <-> In v l /\ ~ In v seen.
Proof.
  revert seen; induction l as [|x l IH]; intro seen; cbn [first_occurrences In]; [tauto|].
  destruct (mem_spec x seen) as [H|H]; cbn [In]; rewrite IH; cbn [In].
  - split; [tauto|]. intros [[-> | ?] ?]; tauto.
  - split.
    + intros [-> | [? ?]]; tauto.
    + intros [[-> | H1] H2]; auto. destruct (val_dec x v) as [-> | N]; auto. right. split; auto. tauto.
Qed.
Lemma first_occurrences_NoDup seen l : NoDup (first_occurrences seen l).
Proof.
  revert seen; induction l as [|x l IH]; intro seen; cbn [first_occurrences]; [constructor|]. destruct (mem x seen); auto.
  constructor; auto. rewrite first_occurrences_spec. cbn [In]. tauto.
Qed.
Lemma nth_split_at {A} (l : list A) i x :
  nth_error l i = Some x -> exists l1 l2, l = l1 ++ x :: l2 /\ firstn i l ++ skipn (S i) l = l1 ++ l2.
Proof.
  intro H. destruct (nth_error_split _ _ H) as (l1 & l2 & -> & <-). exists l1, l2. split; auto.
  rewrite firstn_app, Nat.sub_diag, firstn_all. cbn [firstn]. rewrite app_nil_r. f_equal.
  rewrite skipn_app, (skipn_all2 l1) by lia. replace (S (length l1) - length l1) with 1 by lia. auto.
Qed.

Section Patterns.
Variable V : Type.
Variable sem : nat -> list V -> option (list V).
Variable trips : V -> nat.
Variable index : nat -> V.
Variable truth : V -> bool.
Notation eval := (eval V sem trips index truth).
Notation run := (run V sem trips index truth).
Notation block := (block V sem trips index truth).
Notation env := (env V).
Notation bind := (bind V).
Notation vals := (vals V).
Notation ssa := (ssa V).
Notation sound := (sound V sem trips index truth).
Ltac gen_facts H :=
  destruct (generic_ssa _ _ _ _ _ _ _ _ H) as (Na & Nb & No & Dab & Dao & Dbo & Hun & Hus & Hev).
Ltac gen_inv E :=
  let ea := fresh "ea" in let eb := fresh "eb" in
  match goal with
  | Na : NoDup ?a, No : NoDup ?o |- _ =>
      destruct (generic_inv _ _ _ _ _ _ a _ _ o _ _ Na No E) as (ea & eb & Pa & Py & Li & Lo & Hin & Hea & Hfa & Hrb & Hyb & Ho & Hfo)
  end.

(** ** extractOpBeforeGeneric *)
Lemma extract_before_sound (U : val -> Prop) next next' i ins args body ys outs o n g' e e1 :
  let g := Generic ins args body ys outs in
  ssa next [g] [] e -> nth_error body i = Some o -> forallb public (results o) = true ->
  (forall v, In v (uses o) -> ~ In v (flat_map results body)) ->
  extract_before next i g = Some (n, g', next') -> run [g] e = Some e1 -> sound U next next' [g] [n; g'] [] e.
Proof.
  intros g Hssa Ho Hpub Hfree C E1. unfold g in *. cbn [extract_before] in C. rewrite Ho in C.
  destruct (nth_split_at _ _ _ Ho) as (b1 & b2 & Eb & Er). rewrite Er in C. clear Ho Er.
  set (captured := first_occurrences [] (filter (fun v => mem v args) (operands o ++ walk o))) in *.
  set (k := length captured) in *. set (l := length (results o)) in *.
  set (na := fresh false next k) in *. set (no := fresh true (next + k) l) in *. set (oa := fresh false (next + k + l) l) in *.
  set (mo := combine (results o) oa) in *. set (mc := combine captured na) in *. injection C as <- <- <-.
  gen_facts Hssa. gen_inv E1. rename Hrb into Erun. subst body.
  rewrite flat_map_app in Nb, Dab, Dbo, Hun, Hus, Hfree. cbn [flat_map] in Nb, Dab, Dbo, Hun, Hus, Hfree.
  rename Ho into Hout.
  apply NoDup_app_iff in Nb. destruct Nb as (Nb1 & Nb & D1). apply NoDup_app_iff in Nb. destruct Nb as (Nbo & Nb2 & D2).
  assert (Hcap : forall v, In v captured <-> In v args /\ In v (uses o)).
  { intro v. unfold captured. rewrite first_occurrences_spec, filter_In, in_app_iff, walk_uses. cbn [In].
    assert (Hop : In v (operands o) -> In v (uses o)) by (destruct o; cbn [operands uses In]; rewrite ?in_app_iff; tauto).
    destruct (mem_spec v args); intuition congruence. }
  assert (Ncap : NoDup captured) by apply first_occurrences_NoDup.
  assert (Lk : length na = k) by apply length_fresh. assert (Lno : length no = l) by apply length_fresh. assert (Loa : length oa = l) by apply length_fresh.
  assert (Hna : forall v, In v na -> fst v = false /\ next <= snd v < next + k) by (intros v; apply In_fresh).
  assert (Hno : forall v, In v no -> fst v = true /\ next + k <= snd v < next + k + l) by (intros v; apply In_fresh).
  assert (Hoa : forall v, In v oa -> fst v = false /\ next + k + l <= snd v < next + k + l + l) by (intros v; apply In_fresh).
  assert (Nres : NoDup (results o)).
  { destruct o; cbn [defs results] in *; auto; repeat (apply NoDup_app_iff in Nbo; destruct Nbo as (_ & Nbo & _)); auto.
    - apply NoDup_cons_iff in Nbo. destruct Nbo as (_ & Nbo). repeat (apply NoDup_app_iff in Nbo; destruct Nbo as (_ & Nbo & _)); auto. }
  (* the values of the body, as they are computed *)
  rewrite run_app in Erun. destruct (run b1 ea) as [ev1|] eqn:Er1; [|discriminate Erun].
  rewrite run_cons in Erun. destruct (eval o ev1) as [ow|] eqn:Eo; [|discriminate Erun]. destruct (bind (results o) ow ev1) as [evo|] eqn:Ebo; [|discriminate Erun].
  assert (Hop : forall v, In v args -> exists x, In (x, v) (combine ins args) /\ operand_of args ins v = x /\ e x <> None /\ snd x < next).
  { intros v Hv. destruct (In_combine_snd ins args v Li Hv) as (x & Hx). exists x. split; auto. pose proof (in_combine_l _ _ _ _ Hx) as Hx'.
    split; [unfold operand_of; apply look_combine; auto; apply In_combine_swap; auto | auto]. }
  assert (Hr1 : forall v, In v (flat_map results b1) -> In v (flat_map defs b1)) by (intros; apply results_defs_all; auto).
  assert (Hro : forall v, In v (results o) -> In v (defs o)) by (intros; apply results_defs; auto).
  assert (Huo : forall v, In v (uses o) -> snd v < next) by (intros v Hv; apply Hus; right; left; rewrite !in_app_iff; auto).
  (* the generic of the operation *)
  assert (Hmc : forall v, In v captured -> exists j, nth_error captured j = Some v /\ nth_error na j = Some (look mc v)).
  { intros v Hv. apply In_nth_error in Hv. destruct Hv as (j & Hj). destruct (nth_error_same_length captured na j v) as (a & Ha); auto.
    exists j. split; auto. unfold mc. rewrite (look_combine_nth _ _ _ _ _ Ncap Hj Ha); auto. }
  assert (Hmc' : forall v, ~ In v captured -> look mc v = v).
  { intros v Hv. unfold mc. apply look_notin. rewrite map_fst_combine; auto. }
  destruct (generic_intro V sem trips index truth (fun ea' eb' => forall j r w, nth_error (results o) j = Some r -> nth_error ow j = Some w -> eb' r = Some w)
              (map (operand_of args ins) captured) na [subst mc o] (results o) no e) as (en & ean & ebn & En & _ & Hbn & Hnout & Hnf).
  { apply NoDup_fresh. }
  { apply NoDup_fresh. }
  { apply forallb_forall. intros v Hv. apply Hna in Hv. unfold public. destruct Hv as [-> _]; auto. }
  { auto. }
  { rewrite map_length; auto. }
  { auto. }
  { intros x Hx. apply in_map_iff in Hx. destruct Hx as (v & <- & Hv). apply Hcap in Hv. destruct (Hop v) as (x & _ & -> & Hx & _); tauto. }
  { intros ean Hean Hfan.
    assert (Eo' : eval (subst mc o) ean = Some ow).
    { refine (eval_sim V sem trips index truth o (fun v v' => v' = look mc v /\ In v (uses o)) (subst mc o) ev1 ean ow _ _ _ _ Eo).
      - intros v v' (-> & Hv). destruct (in_dec val_dec v captured) as [Hi|Hn]; [|rewrite Hmc'; auto].
        destruct (Hmc v Hi) as (j & _ & Hj). apply nth_error_In in Hj. apply Hna in Hj. destruct Hj as [-> _].
        apply Hcap in Hi. destruct Hi as [Hi _]. apply (forallb_In _ _ _ Pa) in Hi. unfold public in Hi. destruct (fst v); auto.
      - intros v v' d (-> & Hv) Hd Hor. destruct (in_dec val_dec v captured) as [Hi|Hn]; [|rewrite Hmc'; auto].
        exfalso. destruct Hor as [-> | Hor].
        + apply Hcap in Hi. apply (Dab d); [tauto|]. rewrite !in_app_iff. auto.
        + destruct (Hmc v Hi) as (j & _ & Hj). apply nth_error_In in Hj. rewrite Hor in Hj. apply Hna in Hj.
          assert (snd d < next) by (apply Hun; right; left; rewrite !in_app_iff; auto). lia.
      - intros v v' w (-> & Hv) Hw.
        assert (Hn1 : ~ In v (flat_map results b1)) by (intro H; apply (Hfree v Hv); rewrite !in_app_iff; auto).
        rewrite (run_frame _ _ _ _ _ _ _ _ _ Er1 Hn1) in Hw.
        destruct (in_dec val_dec v captured) as [Hi|Hn].
        + destruct (Hmc v Hi) as (j & Hj1 & Hj2). apply Hcap in Hi. destruct (Hop v (proj1 Hi)) as (x & Hx & Ex & _ & _).
          rewrite (Hean x (look mc v)); [rewrite <- (Hea _ _ Hx); auto|].
          apply In_combine_nth. exists j. rewrite nth_error_map, Hj1. cbn [option_map]. rewrite Ex. auto.
        + rewrite Hmc' by auto. rewrite Hfan; [rewrite <- Hfa; auto|].
          * intro H. apply Hn, Hcap. auto.
          * intro H. apply Hna in H. specialize (Huo v Hv). lia.
      - apply subst_sub. auto. }
    rewrite run_cons, Eo', results_subst. destruct (proj1 (bind_some (results o) ow ean)) as (ebn & Ebn); [eapply bind_length; eauto|].
    rewrite Ebn. exists ebn. cbn [Generic_Spec.run]. split; auto. split.
    - intros y Hy. destruct (bind_in _ _ _ _ _ Ebn Hy) as (w & _ & ->). congruence.
    - intros j r w Hr Hw. rewrite (bind_nth _ _ _ _ _ _ Nres Ebn Hr). auto. }
  assert (Hnow : forall j r w, nth_error no j = Some r -> nth_error ow j = Some w -> en r = Some w).
  { intros j r w Hr Hw. destruct (nth_error_same_length no (results o) j r) as (y & Hy); [rewrite Lno; auto | auto |].
    rewrite (Hnout y r); [eapply Hbn; eauto|]. apply In_combine_nth. eauto. }
  (* the rest of the body *)
  assert (Hmo : forall v, In v (results o) -> exists j, nth_error (results o) j = Some v /\ nth_error oa j = Some (look mo v)).
  { intros v Hv. apply In_nth_error in Hv. destruct Hv as (j & Hj). destruct (nth_error_same_length (results o) oa j v) as (a & Ha); auto.
    exists j. split; auto. unfold mo. rewrite (look_combine_nth _ _ _ _ _ Nres Hj Ha); auto. }
  assert (Hmo' : forall v, ~ In v (results o) -> look mo v = v).
  { intros v Hv. unfold mo. apply look_notin. rewrite map_fst_combine; auto. }
  set (R := fun v v' => v' = look mo v /\ snd v < next).
  assert (Ht : typed R).
  { intros v v' (-> & _). destruct (in_dec val_dec v (results o)) as [Hi|Hn]; [|rewrite Hmo'; auto].
    destruct (Hmo v Hi) as (j & _ & Hj). apply nth_error_In in Hj. apply Hoa in Hj. destruct Hj as [-> _].
    apply (forallb_In _ _ _ Hpub) in Hi. unfold public in Hi. destruct (fst v); auto. }
  assert (Hg : forall D, (forall d, In d D -> ~ In d (results o) /\ snd d < next) -> good R D).
  { intros D HD v v' d (-> & _) Hd Hor. destruct (HD d Hd) as [Hd1 Hd2]. destruct (in_dec val_dec v (results o)) as [Hi|Hn]; [|rewrite Hmo'; auto].
    exfalso. destruct Hor as [-> | Hor]; [tauto|]. destruct (Hmo v Hi) as (j & _ & Hj). apply nth_error_In in Hj. rewrite Hor in Hj. apply Hoa in Hj. lia. }
  assert (Hg1 : good R (flat_map defs b1)).
  { apply Hg. intros d Hd. split; [|apply Hun; right; left; rewrite !in_app_iff; auto]. intro H. apply (D1 d Hd). apply in_or_app; auto. }
  assert (Hg2 : good R (flat_map defs b2)).
  { apply Hg. intros d Hd. split; [|apply Hun; right; left; rewrite !in_app_iff; auto]. intro H. apply (D2 d (Hro d H) Hd). }
  assert (Hy2 : forall y, In y ys -> snd y < next) by auto.
  assert (Noa : NoDup (args ++ oa)).
  { apply NoDup_app_iff. repeat split; auto; [apply NoDup_fresh|]. intros v Hv H. apply Hoa in H. assert (snd v < next) by (apply Hun; auto). lia. }
  destruct (generic_intro V sem trips index truth (fun ea' eb' => sim V R eb eb')
              (ins ++ no) (args ++ oa) (map (subst mo) (b1 ++ b2)) (map (look mo) ys) outs en) as (e2 & ea2 & eb2 & E2 & _ & Hs2 & Hout2 & Hf2).
  { auto. }
  { auto. }
  { rewrite forallb_app, Pa. apply forallb_forall. intros v Hv. apply Hoa in Hv. unfold public. destruct Hv as [-> _]; auto. }
  { apply forallb_forall. intros y H. apply in_map_iff in H. destruct H as (y' & <- & H). unfold public. rewrite <- (Ht y' (look mo y')) by (split; auto).
    apply (forallb_In _ _ _ Py H). }
  { rewrite !app_length. lia. }
  { rewrite map_length; auto. }
  { intros x Hx. apply in_app_iff in Hx. destruct Hx as [Hx|Hx].
    - rewrite Hnf; auto. intro H. apply Hno in H. assert (snd x < next) by auto. lia.
    - destruct (In_nth_error _ _ Hx) as (j & Hj). destruct (nth_error_same_length no ow j x) as (w & Hw); auto.
      + rewrite Lno. eapply bind_length; eauto.
      + rewrite (Hnow _ _ _ Hj Hw). congruence. }
  { intros ea2 Hea2 Hfa2.
    assert (Hs0 : sim V R ea ea2).
    { intros v v' w (-> & Hv) Hw. destruct (in_dec val_dec v args) as [Hi|Hn].
      - rewrite Hmo'; [|intro H; apply (Dab v Hi); rewrite !in_app_iff; auto].
        destruct (In_combine_snd ins args v Li Hi) as (x & Hx). rewrite (Hea _ _ Hx) in Hw.
        rewrite (Hea2 x v); [rewrite Hnf; auto|].
        + intro H. apply Hno in H. assert (snd x < next) by (apply Hev; congruence). lia.
        + apply In_combine_nth in Hx. destruct Hx as (j & Hx1 & Hx2). apply In_combine_nth. exists j. split; rewrite nth_error_app1; auto; apply nth_error_Some; congruence.
      - rewrite Hfa in Hw by auto. rewrite Hmo'.
        + rewrite Hfa2; [rewrite Hnf; auto|].
          * intro H. apply Hno in H. lia.
          * rewrite in_app_iff. intros [H|H]; auto. apply Hoa in H. lia.
        + intro H. destruct (Hun v) as [H' _]; [right; left; rewrite !in_app_iff; auto | congruence]. }
    rewrite map_app, run_app.
    destruct (run_sim V sem trips index truth b1 R (map (subst mo) b1) ea ea2 ev1 Ht Hg1 Hs0) as (ev1' & Ev1' & Hs1); auto.
    { apply substs_sub. intros v Hv. split; auto. apply Hus. right; left; rewrite !in_app_iff; auto. }
    rewrite Ev1'.
    assert (Hso : sim V R evo ev1').
    { intros v v' w (-> & Hv) Hw. destruct (in_dec val_dec v (results o)) as [Hi|Hn].
      - destruct (Hmo v Hi) as (j & Hj1 & Hj2). rewrite (bind_nth _ _ _ _ _ _ Nres Ebo Hj1) in Hw.
        rewrite (run_frame _ _ _ _ _ _ _ _ _ Ev1').
        + destruct (nth_error_same_length oa no j (look mo v)) as (r & Hr); [rewrite Loa, Lno; auto | auto |].
          rewrite (Hea2 r (look mo v)); [eapply Hnow; eauto|]. apply In_combine_nth. exists (length ins + j).
          rewrite !nth_error_app2 by lia. replace (length ins + j - length ins) with j by lia. replace (length ins + j - length args) with j by lia. auto.
        + rewrite results_substs. intro H. apply Hr1 in H. apply nth_error_In in Hj2. apply Hoa in Hj2.
          assert (snd (look mo v) < next) by (apply Hun; right; left; rewrite !in_app_iff; auto). lia.
      - rewrite (bind_frame _ _ _ _ _ Ebo Hn) in Hw. apply (Hs1 v (look mo v)); auto. split; auto. }
    destruct (run_sim V sem trips index truth b2 R (map (subst mo) b2) evo ev1' eb Ht Hg2 Hso) as (eb2 & Eb2 & Hs2); auto.
    { apply substs_sub. intros v Hv. split; auto. apply Hus. right; left; rewrite !in_app_iff; auto. }
    exists eb2. split; auto. split; auto.
    intros y Hy. apply in_map_iff in Hy. destruct Hy as (y' & <- & Hy). destruct (eb y') as [w|] eqn:Ey; [|destruct (Hyb _ Hy Ey)].
    rewrite (Hs2 y' (look mo y') w); [congruence | split; auto | auto]. }
  constructor.
  - lia.
  - cbn [flat_map defs]. rewrite !app_nil_r, defs_subst, defs_substs, flat_map_app. rewrite !NoDup_app_iff.
    assert (Hlt : forall v, In v args \/ In v (flat_map defs b1) \/ In v (defs o) \/ In v (flat_map defs b2) \/ In v outs -> snd v < next).
    { intros v Hv. apply Hun. rewrite !in_app_iff. tauto. }
    repeat split; auto; try apply NoDup_fresh.
    + intros x Hx H. apply Hno in H. assert (snd x < next) by (apply Hlt; tauto). lia.
    + intros x Hx H. apply Hna in Hx. apply in_app_iff in H. destruct H as [H|H]; [assert (snd x < next) by (apply Hlt; tauto); lia | apply Hno in H; lia].
    + intros x Hx H. apply Hoa in H. assert (snd x < next) by (apply Hlt; tauto). lia.
    + intros x Hx H. apply (D1 x Hx). apply in_or_app; auto.
    + intros x Hx H. apply (Dbo x); auto. rewrite !in_app_iff in *. tauto.
    + intros x Hx H. rewrite !in_app_iff in *. destruct Hx as [Hx|Hx].
      * destruct H as [[H|H]|H]; [eapply Dab; eauto; rewrite !in_app_iff; auto | eapply Dab; eauto; rewrite !in_app_iff; auto | eapply Dao; eauto].
      * apply Hoa in Hx. assert (snd x < next) by (apply Hlt; tauto). lia.
    + intros x Hx H. rewrite !in_app_iff in *. destruct Hx as [Hx|[Hx|Hx]].
      * apply Hna in Hx. destruct H as [[H|H]|[[H|H]|H]]; try (apply Hoa in H; lia); (assert (snd x < next) by (apply Hlt; tauto)); lia.
      * destruct H as [[H|H]|[[H|H]|H]].
        -- apply (Dab x H). rewrite !in_app_iff; auto.
        -- apply Hoa in H. assert (snd x < next) by (apply Hlt; tauto). lia.
        -- apply (D1 x H). apply in_or_app; auto.
        -- apply (D2 x Hx H).
        -- apply (Dbo x); auto. rewrite !in_app_iff; auto.
      * apply Hno in Hx. destruct H as [[H|H]|[[H|H]|H]]; try (apply Hoa in H; lia); (assert (snd x < next) by (apply Hlt; tauto)); lia.
  - intros d Hd. cbn [flat_map defs] in *. rewrite !app_nil_r, defs_subst, defs_substs, flat_map_app in *. cbn [flat_map]. rewrite !in_app_iff in *.
    destruct Hd as [[Hd|[Hd|Hd]]|[[Hd|Hd]|[Hd|Hd]]]; try tauto; try (apply Hna in Hd; right; lia); try (apply Hno in Hd; right; lia); try (apply Hoa in Hd; right; lia).
  - assert (Hlo : forall v, snd v < next -> snd (look mo v) < next + k + l + l).
    { intros v Hv. destruct (in_dec val_dec v (results o)) as [Hi|Hn]; [|rewrite Hmo'; auto; lia]. destruct (Hmo v Hi) as (j & _ & Hj). apply nth_error_In in Hj. apply Hoa in Hj. lia. }
    intros v Hv. cbn [flat_map uses] in Hv. rewrite !app_nil_r, uses_subst, uses_substs, flat_map_app, !in_app_iff, !in_map_iff in Hv.
    destruct Hv as [[Hv|[Hv|Hv]]|[[Hv|Hv]|[Hv|Hv]]].
    + destruct Hv as (x & <- & Hx). apply Hcap in Hx. destruct (Hop x) as (x' & _ & -> & _ & ?); [tauto | lia].
    + destruct Hv as (x & <- & Hx). destruct (in_dec val_dec x captured) as [Hi|Hn].
      * destruct (Hmc x Hi) as (j & _ & Hj). apply nth_error_In in Hj. apply Hna in Hj. lia.
      * rewrite Hmc' by auto. specialize (Huo x Hx). lia.
    + assert (snd v < next) by (apply Hun; right; left; rewrite !in_app_iff; auto). lia.
    + assert (snd v < next) by auto. lia.
    + apply Hno in Hv. lia.
    + destruct Hv as (x & <- & Hx). apply Hlo, Hus. right; left. rewrite !in_app_iff in *. tauto.
    + destruct Hv as (x & <- & Hx). apply Hlo, Hus. auto.
  - intros a b [].
  - intros e1' E1'. rewrite E1 in E1'. injection E1' as <-. exists e2. split.
    + change ([?a; ?b]) with ([a] ++ [b]). rewrite run_app, En. auto.
    + intros v w _ Hw. change (look [] v) with v. destruct (in_dec val_dec v outs) as [Hi|Hn].
      * destruct (In_combine_snd ys outs v Lo Hi) as (y & Hy). rewrite (Hout _ _ Hy) in Hw. rewrite (Hout2 (look mo y) v).
        -- apply (Hs2 y (look mo y)); auto. split; auto. apply Hy2. eapply in_combine_l; eauto.
        -- apply In_combine_nth in Hy. destruct Hy as (j & Hj1 & Hj2). apply In_combine_nth. exists j. rewrite nth_error_map, Hj1. auto.
      * rewrite Hf2 by auto. rewrite Hfo in Hw by auto. rewrite Hnf; auto. intro H. apply Hno in H. assert (snd v < next) by (apply Hev; congruence). lia.
Qed.
End Patterns.
