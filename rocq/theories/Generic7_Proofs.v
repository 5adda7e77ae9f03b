(** The rewrites of secret.generic are sound replacements, continued: extraction behind the generic,
    concealed destinations. *)
From Coq Require Import List Bool Arith Lia.
From Verif Require Import Generic_Spec Generic_Model Generic_Proofs Generic2_Proofs Generic3_Proofs Generic4_Proofs Generic5_Proofs.
Import ListNotations.
Set Default Proof Using "Type".

Lemma positions_spec ys outs rs l :
  positions ys outs rs = Some l -> length ys = length outs ->
  length l = length rs /\ forall j r, nth_error rs j = Some r -> exists i, nth_error ys i = Some r /\ nth_error l j = nth_error outs i.
Proof.
  intros H L. revert l H; induction rs as [|r rs IH]; intros l H; cbn [positions] in H.
  - injection H as <-. split; auto. intros [|j] r H; discriminate H.
  - destruct (find_index r ys) as [i|] eqn:F; [|discriminate H]. destruct (positions ys outs rs) as [l'|]; [|discriminate H]. injection H as <-.
    destruct (IH l' eq_refl) as [L' H']. split; [cbn [length]; auto|]. apply find_index_some in F. destruct (nth_error_same_length ys outs i r L F) as (x & Hx).
    intros [|j] r'; cbn [nth_error]; [|apply H']. intro E; injection E as <-. exists i. split; auto. rewrite Hx. f_equal. apply nth_error_nth; auto.
Qed.
Lemma look_rev_combine xs zs x : length xs = length zs -> In x xs -> exists j, nth_error xs j = Some x /\ nth_error zs j = Some (look (rev (combine xs zs)) x).
Proof.
  intros L Hx. assert (H : In (x, look (rev (combine xs zs)) x) (combine xs zs)).
  { apply in_rev. apply look_in. rewrite map_rev, <- in_rev, map_fst_combine; auto. }
  apply In_combine_nth in H. auto.
Qed.
Lemma combine_app {A B} (a a' : list A) (b b' : list B) : length a = length b -> combine (a ++ a') (b ++ b') = combine a b ++ combine a' b'.
Proof. revert b; induction a as [|x a IH]; intros [|y b] L; cbn; try discriminate L; auto. f_equal. apply IH. cbn in L; lia. Qed.

Section Patterns.
Variable V : Type.
Variable sem : nat -> list V -> option (list V).
Variable trips : V -> nat.
Variable index : nat -> V.
Variable truth : V -> bool.
Notation eval := (eval V sem trips index truth).
Notation run := (run V sem trips index truth).
Notation block := (block V sem trips index truth).
Notation env := (env V).
Notation bind := (bind V).
Notation vals := (vals V).
Notation ssa := (ssa V).
Notation sound := (sound V sem trips index truth).
Ltac gen_facts H :=
  destruct (generic_ssa _ _ _ _ _ _ _ _ H) as (Na & Nb & No & Dab & Dao & Dbo & Hun & Hus & Hev).
Ltac gen_inv E :=
  let ea := fresh "ea" in let eb := fresh "eb" in
  match goal with
  | Na : NoDup ?a, No : NoDup ?o |- _ =>
      destruct (generic_inv _ _ _ _ _ _ a _ _ o _ _ Na No E) as (ea & eb & Pa & Py & Li & Lo & Hin & Hea & Hfa & Hrb & Hyb & Ho & Hfo)
  end.

Lemma eval_operands o e ws x : eval o e = Some ws -> In x (operands o) -> e x <> None.
Proof.
  destruct o as [n xs rs|r y|r y|ins args body ys outs|c inits iv iters body ys rs|c thn tys els eys rs]; cbn [operands].
  - cbn [Generic_Spec.eval]. destruct (_ && _); [|discriminate]. destruct (vals xs e) as [u|] eqn:E; [|discriminate]. intros _ Hx.
    assert (H : exists u, vals xs e = Some u) by eauto. apply vals_some in H. rewrite Forall_forall in H. auto.
  - cbn [Generic_Spec.eval Generic_Spec.vals]. destruct (_ && _); [|discriminate]. intros H [<-|[]]. destruct (e y); [congruence|discriminate H].
  - cbn [Generic_Spec.eval Generic_Spec.vals]. destruct (_ && _); [|discriminate]. intros H [<-|[]]. destruct (e y); [congruence|discriminate H].
  - rewrite eval_generic. destruct (_ && _); [|discriminate]. destruct (vals ins e) as [u|] eqn:E; [|discriminate]. intros _ Hx.
    assert (H : exists u, vals ins e = Some u) by eauto. apply vals_some in H. rewrite Forall_forall in H. auto.
  - rewrite eval_for. destruct (_ && _); [|discriminate]. destruct (e c) as [n|] eqn:Ec; [|discriminate]. destruct (vals inits e) as [u|] eqn:E; [|discriminate].
    intros _ [<-|Hx]; [congruence|]. assert (H : exists u, vals inits e = Some u) by eauto. apply vals_some in H. rewrite Forall_forall in H. auto.
  - rewrite eval_if. destruct (_ && _); [|discriminate]. destruct (e c) eqn:Ec; [|discriminate]. intros _ [<-|[]]; congruence.
Qed.
Lemma operands_uses o v : In v (operands o) -> In v (uses o).
Proof. clear sem trips index truth. destruct o; cbn [operands uses In]; rewrite ?in_app_iff; tauto. Qed.

(** ** extractOpAfterGeneric *)
Lemma extract_after_sound (U : val -> Prop) next next' i ins args body ys outs o new m e e1 :
  let g := Generic ins args body ys outs in
  ssa next [g] [] e -> forallb secret outs = true -> nth_error body i = Some o ->
  forallb public (results o) = true -> forallb public (operands o) = true ->
  (forall r, In r (results o) -> ~ In r (flat_map uses body)) ->
  (forall v, In v (uses o) -> In v (operands o) \/ ~ In v (args ++ flat_map results body)) ->
  (forall r j1 j2, In r (results o) -> nth_error ys j1 = Some r -> nth_error ys j2 = Some r -> j1 = j2) ->
  extract_after next i g = Some (new, m, next') -> run [g] e = Some e1 -> sound U next next' [g] new m e.
Proof.
  intros g Hssa Hsec Ho Hpub Hpx Hfree Hcap Honce C E1. unfold g in *. cbn [extract_after] in C. rewrite Ho in C.
  destruct (nth_split_at _ _ _ Ho) as (b1 & b2 & Eb & Er). rewrite Er in C. clear Ho Er.
  rewrite (as_secret_id outs Hsec) in C.
  set (xs := operands o) in *. set (k := length xs) in *. set (l := length (results o)) in *.
  set (added := fresh true next k) in *. set (na := fresh false (next + k) k) in *. set (no := fresh true (next + k + k) l) in *.
  set (mx := rev (combine xs na)) in *.
  destruct (positions ys outs (results o)) as [replaced|] eqn:Epos; [|discriminate C].
  destruct (keep_yields _ (ys ++ xs) (outs ++ added)) as [ys' outs'] eqn:K.
  set (newop := fun x => if mem x args then operand_of args ins x
            else if negb (mem x (flat_map results body)) then x else look (combine (ys ++ xs) (outs ++ added)) x) in *.
  change (map (fun x => if mem x args then _ else _) xs) with (map newop xs) in C.
  injection C as <- <- <-.
  gen_facts Hssa. gen_inv E1. rename Hrb into Erun. rename Ho into Hout.
  destruct (positions_spec _ _ _ _ Epos Lo) as [Lrep Hrep].
  assert (Hbody : forall v, In v (flat_map results body) <-> In v (flat_map results b1) \/ In v (results o) \/ In v (flat_map results b2)).
  { intro v. rewrite Eb, flat_map_app, in_app_iff. cbn [flat_map]. rewrite in_app_iff. tauto. }
  assert (Hbodyd : forall v, In v (flat_map defs body) <-> In v (flat_map defs b1) \/ In v (defs o) \/ In v (flat_map defs b2)).
  { intro v. rewrite Eb, flat_map_app, in_app_iff. cbn [flat_map]. rewrite in_app_iff. tauto. }
  assert (Hbodyu : forall v, In v (flat_map uses body) <-> In v (flat_map uses b1) \/ In v (uses o) \/ In v (flat_map uses b2)).
  { intro v. rewrite Eb, flat_map_app, in_app_iff. cbn [flat_map]. rewrite in_app_iff. tauto. }
  rewrite Eb, flat_map_app in Nb. cbn [flat_map] in Nb.
  apply NoDup_app_iff in Nb. destruct Nb as (Nb1 & Nb & D1). apply NoDup_app_iff in Nb. destruct Nb as (Nbo & Nb2 & D2).
  assert (Lad : length added = k) by apply length_fresh. assert (Lna : length na = k) by apply length_fresh. assert (Lno : length no = l) by apply length_fresh.
  assert (Had : forall v, In v added -> fst v = true /\ next <= snd v < next + k) by (intros v; apply In_fresh).
  assert (Hna : forall v, In v na -> fst v = false /\ next + k <= snd v < next + k + k) by (intros v; apply In_fresh).
  assert (Hno : forall v, In v no -> fst v = true /\ next + k + k <= snd v < next + k + k + l) by (intros v; apply In_fresh).
  assert (Hr1 : forall v, In v (flat_map results b1) -> In v (flat_map defs b1)) by (intros; apply results_defs_all; auto).
  assert (Hr2 : forall v, In v (flat_map results b2) -> In v (flat_map defs b2)) by (intros; apply results_defs_all; auto).
  assert (Hro : forall v, In v (results o) -> In v (defs o)) by (intros; apply results_defs; auto).
  assert (Nres : NoDup (results o)).
  { destruct o; cbn [defs results] in *; auto; repeat (apply NoDup_app_iff in Nbo; destruct Nbo as (_ & Nbo & _)); auto.
    - apply NoDup_cons_iff in Nbo. destruct Nbo as (_ & Nbo). repeat (apply NoDup_app_iff in Nbo; destruct Nbo as (_ & Nbo & _)); auto. }
  assert (Hlt : forall v, In v args \/ In v (flat_map defs body) \/ In v outs -> snd v < next) by (intros; apply Hun; auto).
  assert (Nall : NoDup (outs ++ added)).
  { apply NoDup_app_iff. repeat split; auto; [apply NoDup_fresh|]. intros v Hv H. apply Had in H. assert (snd v < next) by auto. lia. }
  assert (Sall : forallb secret (outs ++ added) = true).
  { rewrite forallb_app, Hsec. apply forallb_forall. intros v Hv. apply Had in Hv. unfold secret. tauto. }
  destruct (keep_facts _ _ _ _ _ K Sall Nall) as (Lk & Nk & Ik & Iy & Hk). cbn [fst] in Hk.
  (* the values of the body, as they are computed *)
  rewrite Eb, run_app in Erun. destruct (run b1 ea) as [ev1|] eqn:Er1; [|discriminate Erun].
  rewrite run_cons in Erun. destruct (eval o ev1) as [ow|] eqn:Eo; [|discriminate Erun]. destruct (bind (results o) ow ev1) as [evo|] eqn:Ebo; [|discriminate Erun].
  assert (Hunb : forall v, In v (defs o) \/ In v (flat_map defs b2) -> ev1 v = None).
  { intros v Hv. rewrite (run_frame _ _ _ _ _ _ _ _ _ Er1).
    - rewrite Hfa; [apply Hun; right; left; apply Hbodyd; tauto|]. intro H. apply (Dab v H). apply Hbodyd; tauto.
    - intro H. apply (D1 v (Hr1 v H)). apply in_or_app; auto. }
  assert (Hxb : forall x, In x xs -> ev1 x <> None) by (intros x Hx; eapply eval_operands; eauto).
  assert (Hxn : forall x, In x xs -> ~ In x (defs o) /\ ~ In x (flat_map defs b2)).
  { intros x Hx. split; intro H; apply (Hxb x Hx); auto. }
  assert (Hxu : forall x, In x xs -> In x (uses o)) by (intros; apply operands_uses; auto).
  assert (Hxlt : forall x, In x (uses o) -> snd x < next) by (intros x Hx; apply Hus; right; left; apply Hbodyu; auto).
  assert (Hebx : forall x, In x xs -> eb x = ev1 x).
  { intros x Hx. destruct (Hxn x Hx) as [H1 H2]. rewrite (run_frame _ _ _ _ _ _ _ _ _ Erun) by auto. eapply bind_frame; eauto. }
  assert (Hop : forall v, In v args -> exists x, In (x, v) (combine ins args) /\ operand_of args ins v = x /\ e x <> None /\ snd x < next).
  { intros v Hv. destruct (In_combine_snd ins args v Li Hv) as (x & Hx). exists x. split; auto. pose proof (in_combine_l _ _ _ _ Hx) as Hx'.
    split; [unfold operand_of; apply look_combine; auto; apply In_combine_swap; auto | auto]. }
  (* the generic without the operation *)
  destruct (generic_intro V sem trips index truth (fun ea' eb' => sim V (same (fun v => ~ In v (results o))) eb eb')
              ins args (b1 ++ b2) ys' outs' e) as (en & ean & ebn & En & _ & Hsn & Hnout & Hnf).
  { auto. }
  { auto. }
  { auto. }
  { apply forallb_forall. intros y Hy. apply Iy in Hy. apply in_app_iff in Hy. destruct Hy as [Hy|Hy]; [apply (forallb_In _ _ _ Py Hy) | apply (forallb_In _ _ _ Hpx Hy)]. }
  { auto. }
  { auto. }
  { auto. }
  { intros ean Hean Hfan.
    assert (Hs0 : sim V (same (fun v => ~ In v (results o))) ea ean).
    { intros v v' w (-> & Hv) Hw. destruct (in_dec val_dec v args) as [Hi|Hn].
      - destruct (In_combine_snd ins args v Li Hi) as (x & Hx). rewrite (Hea _ _ Hx) in Hw. rewrite (Hean x v); auto.
      - rewrite Hfa in Hw by auto. rewrite Hfan; auto. }
    rewrite run_app.
    destruct (run_sim V sem trips index truth b1 _ b1 ea ean ev1 (same_typed _) (same_good _ _) Hs0) as (ev1' & Ev1' & Hs1); auto.
    { apply same_subs. intros v Hv H. apply (Hfree v H). apply Hbodyu; auto. }
    rewrite Ev1'.
    assert (Hso : sim V (same (fun v => ~ In v (results o))) evo ev1').
    { intros v v' w (-> & Hv) Hw. rewrite (bind_frame _ _ _ _ _ Ebo Hv) in Hw. apply (Hs1 v v); auto. split; auto. }
    destruct (run_sim V sem trips index truth b2 _ b2 evo ev1' eb (same_typed _) (same_good _ _) Hso) as (eb2 & Eb2 & Hs2); auto.
    { apply same_subs. intros v Hv H. apply (Hfree v H). apply Hbodyu; auto. }
    exists eb2. split; auto. split; auto.
    intros y Hy. destruct (In_combine_fst ys' outs' y Lk Hy) as (r & Hr). apply Hk in Hr. destruct Hr as [Hr Hyn].
    assert (Hyn' : ~ In y (results o)) by (destruct (mem_spec y (results o)); [discriminate Hyn | auto]).
    apply Iy in Hy. assert (Hby : eb y <> None).
    { apply in_app_iff in Hy. destruct Hy as [Hy|Hy]; auto. rewrite Hebx; auto. }
    destruct (eb y) as [w|] eqn:Ey; [|congruence]. rewrite (Hs2 y y w); [congruence | split; auto | auto]. }
  assert (Hen : forall y r, In (y, r) (combine (ys ++ xs) (outs ++ added)) -> ~ In y (results o) -> en r = eb y).
  { intros y r Hr Hn. assert (Hr' : In (y, r) (combine ys' outs')).
    { apply Hk. split; auto. destruct (mem_spec y (results o)); [tauto | auto]. }
    rewrite (Hnout y r Hr').
    pose proof (in_combine_l _ _ _ _ Hr) as Hy. assert (Hby : eb y <> None).
    { apply in_app_iff in Hy. destruct Hy as [Hy|Hy]; auto. rewrite Hebx; auto. }
    destruct (eb y) as [w|] eqn:Ey; [|congruence]. apply (Hsn y y w); auto. split; auto. }
  assert (Hen' : forall v, snd v < next -> ~ In v outs -> en v = e v).
  { intros v Hv Hn. apply Hnf. intro H. apply Ik in H. apply in_app_iff in H. destruct H as [H|H]; auto. apply Had in H. lia. }
  assert (Hnewop : forall x, In x xs -> en (newop x) = ev1 x /\ snd (newop x) < next + k).
  { intros x Hx. destruct (Hxn x Hx) as [Hx1 Hx2]. unfold newop. destruct (mem_spec x args) as [Hi|Hn]; [|destruct (mem_spec x (flat_map results body)) as [Hj|Hj]; cbn [negb]].
    - destruct (Hop x Hi) as (z & Hz & -> & Hez & Hzlt). split; [|lia]. rewrite Hen'; auto.
      + rewrite (run_frame _ _ _ _ _ _ _ _ _ Er1); [rewrite (Hea z x); auto|]. intro H. apply (Dab x Hi). apply Hbodyd; auto.
      + intro H. apply Hez, Hun; auto.
    - assert (Hl : In (x, look (combine (ys ++ xs) (outs ++ added)) x) (combine (ys ++ xs) (outs ++ added))).
      { apply look_in. rewrite map_fst_combine; [apply in_or_app; auto | rewrite !app_length; lia]. }
      split.
      + rewrite (Hen _ _ Hl); auto.
      + apply in_combine_r in Hl. apply in_app_iff in Hl. destruct Hl as [Hl|Hl]; [assert (snd (look (combine (ys ++ xs) (outs ++ added)) x) < next) by auto; lia | apply Had in Hl; lia].
    - assert (Hx3 : ev1 x = e x).
      { rewrite (run_frame _ _ _ _ _ _ _ _ _ Er1); auto. intro H. apply Hj, Hbody; auto. }
      assert (snd x < next) by auto. split; [|lia]. rewrite Hx3. apply Hen'; auto. intro H'. apply (Hxb x Hx). rewrite Hx3. apply Hun; auto. }
  (* the generic of the operation *)
  assert (Hmx : forall v, In v xs -> exists j, nth_error xs j = Some v /\ nth_error na j = Some (look mx v)).
  { intros v Hv. apply look_rev_combine; auto. }
  assert (Hmx' : forall v, ~ In v xs -> look mx v = v).
  { intros v Hv. apply look_notin. unfold mx. rewrite map_rev, <- in_rev, map_fst_combine; auto. }
  destruct (generic_intro V sem trips index truth (fun ea' eb' => forall j r w, nth_error (results o) j = Some r -> nth_error ow j = Some w -> eb' r = Some w)
              (map newop xs) na [subst mx o] (results o) no en) as (e2 & ea2 & eb2 & E2 & _ & Hb2 & Hout2 & Hf2).
  { apply NoDup_fresh. }
  { apply NoDup_fresh. }
  { apply forallb_forall. intros v Hv. apply Hna in Hv. unfold public. destruct Hv as [-> _]; auto. }
  { auto. }
  { rewrite map_length; auto. }
  { auto. }
  { intros x Hx. apply in_map_iff in Hx. destruct Hx as (v & <- & Hv). destruct (Hnewop v Hv) as [-> _]. auto. }
  { intros ea2 Hea2 Hfa2.
    assert (Eo' : eval (subst mx o) ea2 = Some ow).
    { refine (eval_sim V sem trips index truth o (fun v v' => v' = look mx v /\ In v (uses o)) (subst mx o) ev1 ea2 ow _ _ _ _ Eo).
      - intros v v' (-> & Hv). destruct (in_dec val_dec v xs) as [Hi|Hn]; [|rewrite Hmx'; auto].
        destruct (Hmx v Hi) as (j & _ & Hj). apply nth_error_In in Hj. apply Hna in Hj. destruct Hj as [-> _].
        apply (forallb_In _ _ _ Hpx) in Hi. unfold public in Hi. destruct (fst v); auto.
      - intros v v' d (-> & Hv) Hd Hor. destruct (in_dec val_dec v xs) as [Hi|Hn]; [|rewrite Hmx'; auto].
        exfalso. destruct Hor as [-> | Hor].
        + destruct (Hxn d Hi); auto.
        + destruct (Hmx v Hi) as (j & _ & Hj). apply nth_error_In in Hj. rewrite Hor in Hj. apply Hna in Hj.
          assert (snd d < next) by (apply Hlt; right; left; apply Hbodyd; auto). lia.
      - intros v v' w (-> & Hv) Hw. destruct (in_dec val_dec v xs) as [Hi|Hn].
        + destruct (Hmx v Hi) as (j & Hj1 & Hj2). rewrite (Hea2 (newop v) (look mx v)).
          * rewrite (proj1 (Hnewop v Hi)). auto.
          * apply In_combine_nth. exists j. rewrite nth_error_map, Hj1. auto.
        + rewrite Hmx' by auto. destruct (Hcap v Hv) as [H|H]; [tauto|]. rewrite in_app_iff in H.
          rewrite (run_frame _ _ _ _ _ _ _ _ _ Er1) in Hw by (intro H'; apply H; right; apply Hbody; auto).
          rewrite Hfa in Hw by tauto. rewrite Hfa2, Hen'; auto.
          * intro H'. assert (e v = None) by (apply Hun; auto). congruence.
          * intro H'. apply Hna in H'. specialize (Hxlt v Hv). lia.
      - apply subst_sub. auto. }
    rewrite run_cons, Eo', results_subst. destruct (proj1 (bind_some (results o) ow ea2)) as (ebn' & Ebn); [eapply bind_length; eauto|].
    rewrite Ebn. exists ebn'. cbn [Generic_Spec.run]. split; auto. split.
    - intros y Hy. destruct (bind_in _ _ _ _ _ Ebn Hy) as (w & _ & ->). congruence.
    - intros j r w Hr Hw. rewrite (bind_nth _ _ _ _ _ _ Nres Ebn Hr). auto. }
  assert (Hrepin : forall v, In v replaced -> exists j r, nth_error (results o) j = Some r /\ nth_error replaced j = Some v /\ In (r, v) (combine ys outs)).
  { intros v Hv. apply In_nth_error in Hv. destruct Hv as (j & Hj). destruct (nth_error_same_length replaced (results o) j v Lrep Hj) as (r & Hr).
    exists j, r. split; auto. split; auto. destruct (Hrep j r Hr) as (q & Hq1 & Hq2). apply In_combine_nth. exists q. split; auto. congruence. }
  constructor.
  - lia.
  - cbn [flat_map defs]. rewrite !app_nil_r, defs_subst, flat_map_app. rewrite !NoDup_app_iff.
    repeat split; auto; try apply NoDup_fresh.
    + intros x Hx H. apply (D1 x Hx). apply in_or_app; auto.
    + intros x Hx H. apply Ik in H. assert (Hd : In x (flat_map defs body)) by (apply Hbodyd; rewrite in_app_iff in Hx; tauto).
      apply in_app_iff in H. destruct H as [H|H]; [apply (Dbo x); auto|]. apply Had in H. assert (snd x < next) by auto. lia.
    + intros x Hx H. rewrite !in_app_iff in H. destruct H as [[H|H]|H]; try (apply (Dab x Hx); apply Hbodyd; tauto).
      apply Ik in H. apply in_app_iff in H. destruct H as [H|H]; [apply (Dao x); auto|]. apply Had in H. assert (snd x < next) by auto. lia.
    + intros x Hx H. apply Hno in H. assert (snd x < next) by (apply Hlt; right; left; apply Hbodyd; auto). lia.
    + intros x Hx H. apply Hna in Hx. apply in_app_iff in H. destruct H as [H|H]; [|apply Hno in H; lia].
      assert (snd x < next) by (apply Hlt; right; left; apply Hbodyd; auto). lia.
    + intros x Hx H. rewrite !in_app_iff in Hx, H. rewrite ?(in_app_iff (flat_map defs b1)) in Hx.
      assert (Hx' : snd x < next \/ In x added).
      { destruct Hx as [Hx|[[Hx|Hx]|Hx]]; try (left; apply Hlt; rewrite Hbodyd; tauto).
        apply Ik in Hx. apply in_app_iff in Hx. destruct Hx as [Hx|Hx]; auto. }
      assert (Hx2 : snd x < next + k) by (destruct Hx' as [?|Hx']; [lia | apply Had in Hx'; lia]).
      destruct H as [H|[H|H]]; [apply Hna in H; lia | | apply Hno in H; lia].
      destruct Hx as [Hx|[[Hx|Hx]|Hx]].
      * apply (Dab x Hx). apply Hbodyd; auto.
      * apply (D1 x Hx). apply in_or_app; auto.
      * apply (D2 x H Hx).
      * apply Ik in Hx. apply in_app_iff in Hx. destruct Hx as [Hx|Hx]; [apply (Dbo x); auto; apply Hbodyd; auto|].
        apply Had in Hx. assert (snd x < next) by (apply Hlt; right; left; apply Hbodyd; auto). lia.
  - intros d Hd. cbn [flat_map defs] in *. rewrite !app_nil_r, defs_subst, flat_map_app in *. rewrite !in_app_iff in *. rewrite Hbodyd.
    destruct Hd as [[Hd|[[Hd|Hd]|Hd]]|[Hd|[Hd|Hd]]]; try tauto; try (apply Hna in Hd; right; lia); try (apply Hno in Hd; right; lia).
    apply Ik in Hd. apply in_app_iff in Hd. destruct Hd as [Hd|Hd]; [tauto | apply Had in Hd; right; lia].
  - intros v Hv. cbn [flat_map uses] in Hv. rewrite !app_nil_r, uses_subst, flat_map_app, !in_app_iff, !in_map_iff in Hv.
    destruct Hv as [[Hv|[[Hv|Hv]|Hv]]|[Hv|[Hv|Hv]]].
    + assert (snd v < next) by auto. lia.
    + assert (snd v < next) by (apply Hus; right; left; apply Hbodyu; auto). lia.
    + assert (snd v < next) by (apply Hus; right; left; apply Hbodyu; auto). lia.
    + apply Iy in Hv. apply in_app_iff in Hv. destruct Hv as [Hv|Hv]; [assert (snd v < next) by auto; lia | assert (snd v < next) by auto; lia].
    + destruct Hv as (x & <- & Hx). destruct (Hnewop x Hx). lia.
    + destruct Hv as (x & <- & Hx). destruct (in_dec val_dec x xs) as [Hi|Hn].
      * destruct (Hmx x Hi) as (j & _ & Hj). apply nth_error_In in Hj. apply Hna in Hj. lia.
      * rewrite Hmx' by auto. specialize (Hxlt x Hx). lia.
    + assert (snd v < next) by (apply Hlt; right; left; apply Hbodyd; auto). lia.
  - intros a b Hab. pose proof (in_combine_l _ _ _ _ Hab) as Ha. pose proof (in_combine_r _ _ _ _ Hab) as Hb.
    destruct (Hrepin a Ha) as (j & r & _ & _ & Hr). apply in_combine_r in Hr. apply Hno in Hb.
    pose proof (forallb_In _ _ _ Hsec Hr) as Hs. unfold secret in Hs. cbn [flat_map results defs]. rewrite !in_app_iff. repeat split; try lia; try tauto. intuition congruence.
  - intros e1' E1'. rewrite E1 in E1'. injection E1' as <-. exists e2. split.
    + change ([?a; ?b]) with ([a] ++ [b]). rewrite run_app, En. auto.
    + intros v w _ Hw. destruct (in_dec val_dec v replaced) as [Hi|Hn].
      * assert (Hl : In (v, look (combine replaced no) v) (combine replaced no)) by (apply look_in; rewrite map_fst_combine; auto; rewrite Lrep; auto).
        apply In_combine_nth in Hl. destruct Hl as (j & Hj1 & Hj2). destruct (nth_error_same_length replaced (results o) j v Lrep Hj1) as (r & Hr).
        destruct (Hrep j r Hr) as (q & Hq1 & Hq2). assert (Hrv : In (r, v) (combine ys outs)) by (apply In_combine_nth; exists q; split; congruence).
        rewrite (Hout r v Hrv) in Hw. assert (Hri : In r (results o)) by (eapply nth_error_In; eauto).
        rewrite (run_frame _ _ _ _ _ _ _ _ _ Erun) in Hw by (intro H; apply (D2 r (Hro r Hri)); auto).
        rewrite (bind_nth _ _ _ _ _ _ Nres Ebo Hr) in Hw.
        rewrite (Hout2 r (look (combine replaced no) v)); [eapply Hb2; eauto|]. apply In_combine_nth. eauto.
      * rewrite look_notin by (rewrite map_fst_combine; auto; rewrite Lrep; auto).
        destruct (in_dec val_dec v outs) as [Hi|Hno'].
        -- destruct (In_combine_snd ys outs v Lo Hi) as (y & Hy). rewrite (Hout _ _ Hy) in Hw.
           assert (Hyn : ~ In y (results o)).
           { intro H. apply Hn. apply In_nth_error in H. destruct H as (j & Hj). destruct (Hrep j y Hj) as (q & Hq1 & Hq2).
             apply In_combine_nth in Hy. destruct Hy as (q' & Hy1 & Hy2). assert (q' = q) by (eapply Honce; eauto; eapply nth_error_In; eauto). subst q'.
             apply (nth_error_In replaced j). congruence. }
           rewrite Hf2; [|intro H; apply Hno in H; assert (snd v < next) by auto; lia].
           rewrite (Hen y v); auto. rewrite combine_app by auto. apply in_or_app; auto.
        -- rewrite Hfo in Hw by auto. assert (Hv : snd v < next) by (apply Hev; congruence).
           rewrite Hf2; [|intro H; apply Hno in H; lia]. rewrite Hen'; auto.
Qed.
End Patterns.
