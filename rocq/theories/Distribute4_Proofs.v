(** secret-distribute-generic: moving a generic into the body of a loop. *)
From Coq Require Import List Bool Arith Lia.
From Verif Require Import Generic_Spec Generic_Model Generic_Proofs Generic2_Proofs Generic3_Proofs Generic4_Proofs Generic5_Proofs Generic6_Proofs.
From Verif Require Import Distribute_Spec Distribute_Model Distribute_Proofs Distribute2_Proofs Distribute3_Proofs.
Import ListNotations.
Set Default Proof Using "Type".

Section Dist.
Variable V : Type.
Variable sem : nat -> list V -> option (list V).
Variable trips : V -> nat.
Variable index : nat -> V.
Variable truth : V -> bool.
Notation eval := (eval V sem trips index truth).
Notation run := (run V sem trips index truth).
Notation block := (block V sem trips index truth).
Notation env := (env V).
Notation bind := (bind V).
Notation vals := (vals V).
Notation ssa := (ssa V).
Notation sound := (sound V sem trips index truth).

Lemma distribute_for_sound (U : val -> Prop) lift next next' ins args c inits iv iters body ys rs gys outs new m e e1 :
  let g := Generic ins args [For c inits iv iters body ys rs] gys outs in
  ssa next [g] [] e ->
  ~ In c args -> forallb public inits = true ->
  (forall a i j, In a args -> nth_error inits i = Some a -> nth_error inits j = Some a -> i = j) ->
  (forall x a, In (x, a) (combine ins args) -> secret x = true ->
     ~ In x (flat_map uses body ++ ys) /\ (In a inits -> ~ In a (flat_map uses body ++ ys))) ->
  forallb secret outs = true ->
  (forall r i, In r gys -> nth_error rs i = Some r ->
     (exists x a, nth_error inits i = Some a /\ In (x, a) (combine ins args) /\ secret x = true) \/ nth i lift false = true) ->
  distribute_for lift next g = Some (new, m, next') -> run [g] e = Some e1 -> sound U next next' [g] new m e.
Proof.
  intros g Hssa Hc Pin Honce Hsec Pout Hres X E. unfold g in *. clear g. cbn [distribute_for] in X.
  destruct (mem_spec c args) as [|_]; [tauto|]. cbn [andb orb] in X. destruct (secret c) eqn:Sc; [discriminate X|].
  destruct (generic_ssa _ _ _ _ _ _ _ _ Hssa) as (Na & Nb & No & Dab & Dao & Dbo & Hun & Hus & Hev).
  cbn [flat_map defs uses] in Nb, Dab, Dbo, Hun, Hus. rewrite ?app_nil_r in *.
  apply NoDup_cons_iff in Nb. destruct Nb as (Niv & Nb). apply NoDup_app_iff in Nb. destruct Nb as (Nit & Nb & Nitb). apply NoDup_app_iff in Nb. destruct Nb as (Nbd & Nrs & Nbr).
  cbn [In] in Dab, Dbo, Hun, Hus.
  (* what the generic computes *)
  assert (E0 := E). rewrite run_cons, eval_generic in E. destruct (forallb public args) eqn:Pa; [|discriminate E]. destruct (forallb public gys) eqn:Pg; [|discriminate E]. cbn [andb] in E.
  destruct (vals ins e) as [iw|] eqn:Ei; [|discriminate E]. destruct (bind args iw e) as [ea|] eqn:Ea; [|discriminate E].
  unfold Generic_Spec.block in E. rewrite run_cons, eval_for in E.
  destruct (public c) eqn:Pc; [|discriminate E]. destruct (public iv) eqn:Piv; [|discriminate E].
  destruct (same_types inits iters) eqn:Tii; [|discriminate E]. destruct (same_types ys iters) eqn:Tyi; [|discriminate E]. destruct (same_types rs iters) eqn:Tri; [|discriminate E]. cbn [andb] in E.
  destruct (ea c) as [cw|] eqn:Ec; [|discriminate E]. destruct (vals inits ea) as [iiw|] eqn:Eii; [|discriminate E].
  match type of E with context [iterate ?T ?a ?b ?d ?w] => destruct (iterate T a b d w) as [ow|] eqn:Eit; [|discriminate E] end.
  cbn [results] in E. destruct (bind rs ow ea) as [eb|] eqn:Er; [|discriminate E]. cbn [Generic_Spec.run] in E.
  destruct (vals gys eb) as [gw|] eqn:Eg; [|discriminate E]. destruct (bind outs gw e) as [e1x|] eqn:Eo; [|discriminate E]. injection E as ->.
  assert (Li : length ins = length args) by (rewrite <- (vals_length _ _ _ Ei); symmetry; eapply bind_length; eauto).
  assert (Lii := same_types_length _ _ Tii). assert (Lyi := same_types_length _ _ Tyi). assert (Lri := same_types_length _ _ Tri).
  assert (Log : length gys = length outs) by (rewrite <- (vals_length _ _ _ Eg); symmetry; eapply bind_length; eauto).
  assert (Pit : forallb public iters = true) by (rewrite <- (same_types_public _ _ Tii); auto).
  assert (Pys : forallb public ys = true) by (rewrite (same_types_public _ _ Tyi); auto).
  assert (Hop : forall v, In v args -> exists x, In (x, v) (combine ins args) /\ operand_of args ins v = x /\ e x <> None /\ snd x < next).
  { intros v Hv. destruct (In_combine_snd ins args v Li Hv) as (x & Hx). exists x. split; auto. split; [unfold operand_of; apply look_combine; auto; apply In_combine_swap; auto|].
    apply in_combine_l in Hx. split; [|apply Hus; auto]. apply (proj1 (Forall_forall _ _) (proj1 (vals_some ins e) (ex_intro _ _ Ei))); auto. }
  assert (Hea : forall x a, In (x, a) (combine ins args) -> ea a = e x) by (intros x a H; exact (bind_combine _ _ _ _ _ _ _ _ Na Ei Ea H)).
  assert (Hfa : forall v, ~ In v args -> ea v = e v) by (intros; eapply bind_frame; eauto).
  (* names *)
  set (n := length inits) in *. set (mp := map (fun x => (x, operand_of args ins x)) (filter (fun x => mem x args) inits)) in *.
  set (inits1 := map (look mp) inits) in *. set (hidden := concealed_inits lift next inits1) in *.
  set (inits2 := map (fun p => if public (snd p) && flag lift (fst p) then (true, next + fst p) else snd p) (combine (seq 0 n) inits1)) in *.
  set (iters' := fresh_as (map fst inits2) (next + n)) in *.
  set (hidden_iters := map (fun p => nth (fst (fst p)) iters' (snd p)) hidden) in *.
  set (operands := loop_operands inits iters' ins args ++ hidden_iters) in *.
  set (k := length operands) in *. set (new_args := fresh false (next + n + n) k) in *.
  set (gm := rev (combine operands new_args) ++ rev (combine (map snd hidden) hidden_iters) ++ rev (combine args new_args)) in *.
  set (m0 := combine iters iters') in *.
  set (mapped := fun v => look gm (look m0 (look mp v))) in *.
  set (outs' := fresh_as (map fst iters') (next + n + n + k)) in *. set (rs' := fresh_as (map fst iters') (next + n + n + k + n)) in *.
  destruct (forallb _ ys && forallb (fun y => mem y rs) gys) eqn:Chk; [|discriminate X]. apply andb_true_iff in Chk. destruct Chk as [_ Hgr].
  injection X as <- <- <-.
  assert (Ln1 : length inits1 = n) by (unfold inits1; apply map_length).
  assert (Ln2 : length inits2 = n) by (unfold inits2; rewrite <- Ln1 at 1; rewrite length_indexed; auto).
  assert (Lit' : length iters' = n) by (unfold iters'; rewrite length_fresh_as, map_length; auto).
  assert (Lmi : length (map fst iters') = n) by (etransitivity; [apply map_length | exact Lit']).
  assert (Lo' : length outs' = n) by (unfold outs'; rewrite length_fresh_as, map_length; auto).
  assert (Lr' : length rs' = n) by (unfold rs'; rewrite length_fresh_as, map_length; auto).
  assert (Lna : length new_args = k) by apply length_fresh.
  assert (Hit' : forall v, In v iters' -> next + n <= snd v < next + n + n) by (intros v H; apply In_fresh_as in H; rewrite map_length, Ln2 in H; auto).
  assert (Ho' : forall v, In v outs' -> next + n + n + k <= snd v < next + n + n + k + n) by (intros v H; apply In_fresh_as in H; rewrite Lmi in H; auto).
  assert (Hr' : forall v, In v rs' -> next + n + n + k + n <= snd v < next + n + n + k + n + n) by (intros v H; apply In_fresh_as in H; rewrite Lmi in H; auto).
  assert (Hna : forall v, In v new_args -> fst v = false /\ next + n + n <= snd v < next + n + n + k) by (intros v H; apply In_fresh in H; auto).
  assert (Hold : forall v, In v args \/ v = iv \/ In v iters \/ In v (flat_map defs body) \/ In v rs \/ In v outs -> e v = None /\ snd v < next).
  { intros v H. apply Hun. rewrite !in_app_iff. intuition auto. }
  assert (Hold' : forall v, In v args \/ v = iv \/ In v iters \/ In v (flat_map defs body) \/ In v rs \/ In v outs -> snd v < next) by (intros v H; apply Hold; auto).
  assert (Huse : forall v, In v ins \/ v = c \/ In v inits \/ In v (flat_map uses body) \/ In v ys \/ In v gys -> snd v < next).
  { intros v H. apply Hus. rewrite !in_app_iff. intuition auto. }
  assert (Hmp : forall v, look mp v = if mem v args && mem v inits then operand_of args ins v else v).
  { intro v. unfold mp. rewrite look_image. replace (mem v (filter (fun x => mem x args) inits)) with (mem v args && mem v inits); auto.
    destruct (mem_spec v (filter (fun x => mem x args) inits)) as [Hi|Hi]; rewrite filter_In in Hi; destruct (mem_spec v args) as [Ha|Ha]; destruct (mem_spec v inits); auto;
      cbn [andb]; try tauto; destruct (mem_spec v args); intuition congruence. }
  (* the initial values *)
  assert (Hin1 : forall j x, nth_error inits j = Some x -> nth_error inits1 j = Some (look mp x) /\ e (look mp x) = ea x /\ e (look mp x) <> None /\ snd (look mp x) < next).
  { intros j x Hj. split; [apply map_nth_error; auto|]. assert (Hx : In x inits) by (eapply nth_error_In; eauto). rewrite Hmp.
    assert (Hb : ea x <> None) by (apply (proj1 (Forall_forall _ _) (proj1 (vals_some inits ea) (ex_intro _ _ Eii))); auto).
    destruct (mem_spec x args) as [Ha|Ha]; destruct (mem_spec x inits); cbn [andb]; try tauto.
    - destruct (Hop x Ha) as (y & Hy & -> & He & Hl). rewrite (Hea _ _ Hy). repeat split; auto.
    - rewrite Hfa in Hb by auto. rewrite Hfa by auto. repeat split; auto. }
  assert (Hin2 : forall j x, nth_error inits1 j = Some x -> nth_error inits2 j = Some (if public x && flag lift j then (true, next + j) else x)).
  { intros j x Hj. pose proof (nth_error_indexed (fun p : nat * val => if public (snd p) && flag lift (fst p) then (true, next + fst p) else snd p) inits1 0 j x Hj) as Hq. rewrite Ln1 in Hq. exact Hq. }
  assert (Hhid : forall p, In p hidden -> let '(j, x, r) := p in nth_error inits1 j = Some x /\ public x = true /\ flag lift j = true /\ r = (true, next + j) /\ j < n).
  { intros [[j x] r] H. unfold hidden, concealed_inits in H. apply in_flat_map in H. destruct H as ([j' x'] & H1 & H2). apply In_indexed in H1. cbn [fst snd] in H2.
    destruct (public x') eqn:Px; [|destruct H2]. destruct (flag lift j') eqn:Fj; [|destruct H2]. destruct H2 as [H2|[]]. injection H2 as <- <- <-. repeat split; auto.
    rewrite <- Ln1. apply nth_error_Some. congruence. }
  assert (Hhid' : forall j x, nth_error inits1 j = Some x -> public x = true -> flag lift j = true -> In (j, x, (true, next + j)) hidden).
  { intros j x Hj Px Fj. unfold hidden, concealed_inits. apply in_flat_map. exists (j, x). split; [apply In_indexed; auto|]. cbn [fst snd]. rewrite Px, Fj. left; auto. }
  (* the operands of the new generic *)
  assert (Hcar : forall x a, In (x, a) (combine ins args) ->
            (~ In a inits /\ carried_by a inits iters' = []) \/ exists j t, nth_error inits j = Some a /\ nth_error iters' j = Some t /\ carried_by a inits iters' = [t]).
  { intros x a H. assert (Ha := in_combine_r _ _ _ _ H). destruct (in_dec val_dec a inits) as [Hi|Hi].
    - right. apply carried_by_once; auto. intros i j H1 H2. apply (Honce a i j); auto.
    - left. split; auto. apply carried_by_none; auto. }
  set (f := fun p : val * val => match carried_by (snd p) inits iters' with t :: _ => t | [] => fst p end).
  assert (Hlo : loop_operands inits iters' ins args = map f (combine ins args)).
  { unfold loop_operands, f. assert (Hc' : forall p, In p (combine ins args) -> match carried_by (snd p) inits iters' with [] => [fst p] | l => l end = [match carried_by (snd p) inits iters' with t :: _ => t | [] => fst p end]).
    { intros [x a] H. cbn [fst snd]. destruct (Hcar x a H) as [(_ & ->)|(j & t & _ & _ & ->)]; auto. }
    apply flat_map_single; auto. }
  assert (Hop1 : forall i x a, nth_error ins i = Some x -> nth_error args i = Some a -> nth_error operands i = Some (f (x, a))).
  { intros i x a Hx Ha. unfold operands. rewrite Hlo. rewrite nth_error_app1.
    - apply map_nth_error. clear - Hx Ha. revert args i Hx Ha. induction ins as [|y ins IH]; intros [|b args] [|i]; cbn; try discriminate; auto. congruence.
    - rewrite map_length, combine_length. assert (i < length ins) by (apply nth_error_Some; congruence). lia. }
  assert (Lk : length args <= k).
  { unfold k, operands. rewrite Hlo, app_length, map_length, combine_length. lia. }
  assert (Hop2 : forall v, In v operands -> (In v iters') \/ (exists a, In (v, a) (combine ins args) /\ ~ In a inits)).
  { intros v H. unfold operands in H. rewrite Hlo in H. apply in_app_or in H. destruct H as [H|H].
    - apply in_map_iff in H. destruct H as ([x a] & <- & H). unfold f. cbn [fst snd]. destruct (Hcar x a H) as [(Hi & ->)|(j & t & _ & Ht & ->)]; eauto. left. eapply nth_error_In; eauto.
    - apply in_map_iff in H. destruct H as ([[j x] r] & <- & H). apply Hhid in H. left. cbn [fst snd]. apply nth_In. lia. }
  (* where the names of the body go *)
  assert (Hgm : forall u b, In (u, b) gm -> snd u < next \/ In u iters' ->
            (exists i, nth_error operands i = Some u /\ nth_error new_args i = Some b) \/ (exists i, nth_error args i = Some u /\ nth_error new_args i = Some b)).
  { intros u b H Hu. unfold gm in H. rewrite !in_app_iff, <- !in_rev in H. destruct H as [H|[H|H]].
    - left. apply In_combine_nth in H. auto.
    - exfalso. apply in_combine_l in H. apply in_map_iff in H. destruct H as ([[j x] r] & <- & H). apply Hhid in H. destruct H as (_ & _ & _ & -> & Hj). cbn [snd] in Hu.
      destruct Hu as [Hu|Hu]; [lia|]. apply Hit' in Hu. cbn in Hu. lia.
    - right. apply In_combine_nth in H. auto. }
  assert (Hkey : forall u, In u operands \/ In u args -> In u (map fst gm)).
  { intros u H. unfold gm. rewrite !map_app, !map_rev, !in_app_iff, <- !in_rev. destruct H as [H|H].
    - left. rewrite map_fst_combine by auto. auto.
    - right; right. destruct (In_nth_error _ _ H) as (i & Hi). assert (Hi' : i < length args) by (apply nth_error_Some; congruence).
      destruct (nth_error new_args i) as [b|] eqn:Eb; [|apply nth_error_None in Eb; lia].
      apply in_map_iff. exists (u, b). split; auto. apply In_combine_nth. eauto. }
  assert (Hglook : forall u, snd u < next \/ In u iters' ->
            (look gm u = u /\ ~ In u operands /\ ~ In u args) \/ exists i, nth_error new_args i = Some (look gm u) /\ (nth_error operands i = Some u \/ nth_error args i = Some u)).
  { intros u Hu. destruct (in_dec val_dec u (map fst gm)) as [Hi|Hi].
    - right. apply look_in in Hi. destruct (Hgm _ _ Hi Hu) as [(i & H1 & H2)|(i & H1 & H2)]; exists i; auto.
    - left. split; [apply look_notin; auto|]. split; intro H; apply Hi; auto. }
  assert (Hm0 : forall v, ~ In v iters -> look m0 v = v) by (intros v H; apply look_notin; unfold m0; rewrite map_fst_combine by lia; auto).
  assert (Hm0' : forall j t t', nth_error iters j = Some t -> nth_error iters' j = Some t' -> look m0 t = t') by (intros j t t' H1 H2; eapply look_combine_nth; eauto).
  set (used := fun v => In v (flat_map uses body ++ ys)).
  assert (Huse' : forall v, used v -> snd v < next) by (intros v H; apply Huse; unfold used in H; apply in_app_or in H; tauto).
  (* the three kinds of values *)
  assert (Kind : forall v, used v ->
     (exists j t', nth_error iters j = Some v /\ nth_error iters' j = Some t' /\ mapped v = look gm t') \/
     (~ In v iters /\ exists x, In (x, v) (combine ins args) /\ In v inits /\ secret x = false /\ ~ In x args /\ ~ In x iters' /\ snd x < next /\ e x <> None /\ mapped v = look gm x) \/
     (~ In v iters /\ In v args /\ ~ In v inits /\ ~ In v operands /\ mapped v = look gm v) \/
     (~ In v iters /\ ~ In v args /\ ~ In v iters' /\ mapped v = look gm v)).
  { intros v Hv. assert (Hlt := Huse' v Hv). unfold mapped. rewrite Hmp. destruct (in_dec val_dec v iters) as [Hi|Hi].
    - left. destruct (In_nth_error _ _ Hi) as (j & Hj). destruct (same_length_nth iters' iters j v) as (t' & Ht'); [lia | auto |]. exists j, t'. repeat split; auto.
      assert (Hva : ~ In v args) by (intro H; apply (Dab v H); rewrite !in_app_iff; auto). destruct (mem_spec v args); [tauto|]. cbn [andb]. rewrite (Hm0' j v t'); auto.
    - right. assert (Hnit : forall u, snd u < next -> ~ In u iters') by (intros u Hu H; apply Hit' in H; lia).
      destruct (mem_spec v args) as [Ha|Ha]; cbn [andb].
      + destruct (Hop v Ha) as (x & Hx & -> & Hb & Hl). destruct (mem_spec v inits) as [Hn|Hn].
        * left. split; auto. exists x. split; auto. split; auto. split.
          { destruct (secret x) eqn:Sx; auto. exfalso. destruct (Hsec x v Hx Sx) as [_ H]. apply (H Hn). exact Hv. }
          split; [intro H; apply Hb; apply Hold; auto|]. split; auto. split; auto. split; auto. rewrite Hm0; auto. intro H. apply Hb. apply Hold; auto.
        * right; left. repeat split; auto.
          { intro H. apply Hop2 in H. destruct H as [H|(a & H & _)]; [apply (Hnit v Hlt H)|]. apply in_combine_l in H.
            apply (proj1 (Forall_forall _ _) (proj1 (vals_some ins e) (ex_intro _ _ Ei)) v H). apply Hold; auto. }
          rewrite Hm0; auto.
      + right; right. split; auto. split; auto. split; auto. rewrite Hm0; auto. }
  set (R := fun v v' => v' = mapped v /\ used v).
  assert (Hfst : forall v l, forallb public l = true -> In v l -> fst v = false).
  { intros v l H Hi. apply (forallb_In _ _ _ H) in Hi. unfold public in Hi. destruct (fst v); auto; discriminate. }
  assert (Hni : forall i b, nth_error new_args i = Some b -> fst b = false) by (intros i b H; apply nth_error_In in H; apply Hna; auto).
  assert (Rt : typed R).
  { intros v v' (-> & Hv). destruct (Kind v Hv) as [(j & t' & Hj & Ht' & ->)|[(Hi & x & Hx & Hvi & Sx & Hxa & Hxi & Hl & Hb & ->)|[(Hi & Ha & Hvi & Hvo & ->)|(Hi & Ha & Hi' & ->)]]].
    - rewrite (Hfst v iters) by (auto; eapply nth_error_In; eauto). symmetry. assert (Hin : In t' iters') by (eapply nth_error_In; eauto).
      destruct (Hglook t' (or_intror Hin)) as [(-> & Hno & _)|(i & Hb & _)]; [|eauto].
      destruct (nth_fresh_as _ _ _ _ Ht') as [_ Hty]. destruct (same_length_nth inits iters' j t') as (x & Hx); [fold n; lia | auto |].
      destruct (Hin1 j x Hx) as (Hx1 & _). assert (Hx2 := Hin2 _ _ Hx1). apply (map_nth_error fst) in Hx2. rewrite Hx2 in Hty. injection Hty as <-.
      destruct (public (look mp x)) eqn:Px; cbn [andb].
      + destruct (flag lift j) eqn:Fl; [|unfold public in Px; destruct (fst (look mp x)); auto; discriminate Px].
        exfalso. apply Hno. unfold operands. apply in_or_app. right. apply in_map_iff. exists (j, look mp x, (true, next + j)). split; [|apply Hhid'; auto].
        cbn [fst snd]. apply nth_error_nth. auto.
      + rewrite Hmp in *. destruct (mem_spec x args) as [Hxa|Hxa]; cbn [andb] in *.
        * exfalso. apply Hno. destruct (Hop x Hxa) as (y & Hy & _). unfold operands. apply in_or_app. left. rewrite Hlo. apply in_map_iff. exists (y, x). split; auto.
          unfold f. cbn [snd fst]. destruct (Hcar y x Hy) as [(Hn & _)|(j' & t & Hj' & Ht & ->)]; [exfalso; apply Hn; eapply nth_error_In; eauto|].
          assert (j' = j) by (eapply Honce; eauto). subst j'. congruence.
        * exfalso. assert (Hxp := Hfst x inits Pin (nth_error_In _ _ Hx)). unfold public in Px. rewrite Hxp in Px. discriminate Px.
    - rewrite (Hfst v args) by (auto; apply in_combine_r in Hx; auto). symmetry. destruct (Hglook x (or_introl Hl)) as [(-> & _)|(i & Hb' & _)]; eauto.
    - rewrite (Hfst v args) by auto. symmetry. destruct (Hglook v (or_introl (Huse' v Hv))) as [(_ & _ & H)|(i & Hb' & _)]; [tauto | eauto].
    - destruct (Hglook v (or_introl (Huse' v Hv))) as [(-> & _)|(i & Hb' & [H|H])]; auto.
      + rewrite (Hni _ _ Hb'). apply nth_error_In in H. destruct (Hop2 v H) as [H'|(a & H' & _)]; [tauto|].
        destruct (fst v) eqn:Fv; auto. exfalso. destruct (Hsec v a H' Fv) as [H1 _]. apply H1. exact Hv.
      + exfalso. apply Ha. eapply nth_error_In; eauto. }
  assert (Rg : good R (flat_map defs body)).
  { intros v v' d (-> & Hv) Hd Hvd. assert (Hdn : e d = None /\ snd d < next) by (apply Hold; auto).
    assert (Hdo : ~ In d operands).
    { intro H. apply Hop2 in H. destruct H as [H|(a & H & _)]; [apply Hit' in H; lia|]. apply in_combine_l in H.
      apply (proj1 (Forall_forall _ _) (proj1 (vals_some ins e) (ex_intro _ _ Ei)) d H). tauto. }
    assert (Hda : ~ In d args) by (intro H; apply (Dab d H); rewrite !in_app_iff; auto).
    assert (Hdi : ~ In d iters) by (intro H; apply (Nitb d H), in_or_app; auto).
    assert (Hnb : forall i b, nth_error new_args i = Some b -> b <> d) by (intros i b H ->; apply nth_error_In in H; apply Hna in H; lia).
    destruct (Kind v Hv) as [(j & t' & Hj & Ht' & Em)|[(Hi & x & Hx & Hvi & Sx & Hxa & Hxi & Hl & Hb & Em)|[(Hi & Ha & Hvi & Hvo & Em)|(Hi & Ha & Hi' & Em)]]]; rewrite Em in *.
    - exfalso. destruct Hvd as [->|Hvd]; [apply Hdi; eapply nth_error_In; eauto|]. assert (Hin : In t' iters') by (eapply nth_error_In; eauto).
      destruct (Hglook t' (or_intror Hin)) as [(E' & _)|(i & Hb & _)]; [rewrite E' in Hvd; subst d; apply Hit' in Hin; lia | apply (Hnb _ _ Hb Hvd)].
    - exfalso. destruct Hvd as [->|Hvd]; [apply Hda; apply in_combine_r in Hx; auto|].
      destruct (Hglook x (or_introl Hl)) as [(E' & _)|(i & Hb' & _)]; [rewrite E' in Hvd; subst d; tauto | apply (Hnb _ _ Hb' Hvd)].
    - exfalso. destruct Hvd as [->|Hvd]; [tauto|]. destruct (Hglook v (or_introl (Huse' v Hv))) as [(_ & _ & H)|(i & Hb' & _)]; [tauto | apply (Hnb _ _ Hb' Hvd)].
    - destruct (Hglook v (or_introl (Huse' v Hv))) as [(E' & _)|(i & Hb' & [H|H])]; auto.
      + exfalso. destruct Hvd as [->|Hvd]; [apply Hdo; eapply nth_error_In; eauto | apply (Hnb _ _ Hb' Hvd)].
      + exfalso. apply Ha. eapply nth_error_In; eauto. }
  (* the conceals *)
  set (ps := map (fun p : nat * val * val => (snd p, snd (fst p))) hidden).
  assert (Eps : map (fun p : nat * val * val => Conceal (snd p) (snd (fst p))) hidden = map (fun p => Conceal (fst p) (snd p)) ps) by (unfold ps; rewrite map_map; auto).
  assert (Hps : forall r x, In (r, x) ps -> exists j, nth_error inits1 j = Some x /\ public x = true /\ flag lift j = true /\ r = (true, next + j) /\ j < n).
  { intros r x H. apply in_map_iff in H. destruct H as ([[j y] q] & E' & H). cbn [fst snd] in E'. injection E' as <- <-. apply Hhid in H. exists j. tauto. }
  assert (Hps1 : forall v, In v (map fst ps) -> next <= snd v < next + n).
  { intros v H. apply in_map_iff in H. destruct H as ([r x] & <- & H). destruct (Hps r x H) as (j & _ & _ & _ & -> & Hj). cbn. lia. }
  assert (Nps : NoDup (map fst ps)).
  { unfold ps. rewrite map_map. apply NoDup_concealed. }
  destruct (run_conceals V sem trips index truth ps e) as (e' & Ee' & He1 & He2); auto.
  { intros r x H. destruct (Hps r x H) as (j & Hj & Px & _ & -> & Hjn). destruct (same_length_nth inits inits1 j x) as (y & Hy); [lia | auto |].
    destruct (Hin1 j y Hy) as (H1 & _ & H3 & H4). assert (look mp y = x) by congruence. subst x. repeat split; auto. intro H'. apply Hps1 in H'. lia. }
  assert (He' : forall v, snd v < next -> e' v = e v) by (intros v Hv; apply He2; intro H; apply Hps1 in H; lia).
  constructor.
  - lia.
  - rewrite Eps, flat_map_app, defs_conceals. cbn [flat_map defs]. rewrite !app_nil_r, !defs_substs.
    assert (ND : forall a b : list val, NoDup a -> NoDup b -> (forall x, In x a -> In x b -> False) -> NoDup (a ++ b)) by (intros a b H1 H2 H3; apply NoDup_app_iff; repeat split; auto; intros x Hx Hy; eauto).
    apply ND; auto.
    + apply NoDup_cons_iff. split.
      * rewrite !in_app_iff. assert (snd iv < next) by auto 9. intros [H'|[[H'|[H'|H']]|H']]; [apply Hit' in H'; lia | apply Hna in H'; lia | apply Niv, in_or_app; right; apply in_or_app; auto | apply Ho' in H'; lia | apply Hr' in H'; lia].
      * apply ND; [apply NoDup_fresh_as | apply ND; [apply ND; [apply NoDup_fresh | apply ND; [auto | apply NoDup_fresh_as |] |] | apply NoDup_fresh_as |] |].
        -- intros x Hx H'. apply Ho' in H'. assert (snd x < next) by auto 9. lia.
        -- intros x Hx H'. apply Hna in Hx. apply in_app_or in H'. destruct H' as [H'|H']; [assert (snd x < next) by auto 9; lia | apply Ho' in H'; lia].
        -- intros x Hx H'. apply Hr' in H'. rewrite !in_app_iff in Hx. destruct Hx as [Hx|[Hx|Hx]]; [apply Hna in Hx; lia | assert (snd x < next) by auto 9; lia | apply Ho' in Hx; lia].
        -- intros x Hx H'. apply Hit' in Hx. rewrite !in_app_iff in H'. destruct H' as [[H'|[H'|H']]|H']; [apply Hna in H'; lia | assert (snd x < next) by auto 9; lia | apply Ho' in H'; lia | apply Hr' in H'; lia].
    + intros x Hx H'. apply Hps1 in Hx. cbn [In] in H'. rewrite !in_app_iff in H'. destruct H' as [H'|[H'|[[H'|[H'|H']]|H']]];
        [assert (snd x < next) by auto 9; lia | apply Hit' in H'; lia | apply Hna in H'; lia | assert (snd x < next) by auto 9; lia | apply Ho' in H'; lia | apply Hr' in H'; lia].
  - intros d. rewrite Eps, flat_map_app, defs_conceals. cbn [flat_map defs]. rewrite !app_nil_r, !defs_substs, !in_app_iff. cbn [In]. rewrite !in_app_iff.
    intros [H|[H|[H|[[H|[H|H]]|H]]]]; auto 8; [apply Hps1 in H | apply Hit' in H | apply Hna in H | apply Ho' in H | apply Hr' in H]; right; lia.
  - intros v. rewrite Eps, flat_map_app, uses_conceals. cbn [flat_map uses]. rewrite !app_nil_r, in_app_iff. cbn [In]. rewrite !in_app_iff, !uses_substs, !map_map, !in_map_iff.
    assert (Hopl : forall u, In u operands -> snd u < next + n + n).
    { intros u H. destruct (Hop2 u H) as [H'|(a & H' & _)]; [apply Hit' in H'; lia|]. apply in_combine_l in H'. assert (snd u < next) by auto 9. lia. }
    assert (Hgl : forall u, snd u < next \/ In u iters' -> snd (look gm u) < next + n + n + k).
    { intros u Hu. destruct (Hglook u Hu) as [(-> & _)|(i & H & _)]; [destruct Hu as [Hu|Hu]; [|apply Hit' in Hu]; lia | apply nth_error_In in H; apply Hna in H; lia]. }
    assert (Hmapd : forall u, used u -> snd (mapped u) < next + n + n + k).
    { intros u Hu. destruct (Kind u Hu) as [(j & t' & Hj & Ht' & ->)|[(Hi & x & Hx & Hvi & Sx & Hxa & Hxi & Hl & Hb & ->)|[(Hi & Ha & Hvi & Hvo & ->)|(Hi & Ha & Hi' & ->)]]]; apply Hgl; auto.
      right; eapply nth_error_In; eauto. }
    intros [H|[H|[H|[[H|[H|H]]|H]]]].
    + destruct H as ([r x] & <- & H). cbn [snd]. destruct (Hps r x H) as (j & Hj & _). destruct (same_length_nth inits inits1 j x) as (y & Hy); [lia | auto |].
      destruct (Hin1 j y Hy) as (H1 & _ & _ & H4). assert (look mp y = x) by congruence. subst x. lia.
    + subst v. rewrite Hmp. destruct (mem_spec c args); [tauto|]. cbn [andb]. assert (snd c < next) by auto 9. lia.
    + destruct (In_nth_error _ _ H) as (j & Hj). destruct (same_length_nth inits inits2 j v) as (y & Hy); [lia | auto |]. destruct (Hin1 j y Hy) as (H1 & _ & _ & H4).
      assert (Hjn : j < n) by (rewrite <- Ln2; apply nth_error_Some; intro H'; discriminate (eq_trans (eq_sym Hj) H')).
      assert (Hz := Hin2 _ _ H1). injection (eq_trans (eq_sym Hj) Hz) as ->. destruct (_ && _); [|lia]. cbn. lia.
    + apply Hopl in H. lia.
    + destruct H as (u & <- & H). assert (used u) by (apply in_or_app; auto). change (look gm (look m0 (look mp u))) with (mapped u). assert (H' := Hmapd u ltac:(auto)). lia.
    + destruct H as (u & <- & H). assert (H' := Hmapd u (in_or_app _ _ _ (or_intror H))). lia.
    + apply Ho' in H. lia.
  - intros a b H. apply In_combine_nth in H. destruct H as (i & Ha & Hb). cbn [flat_map results]. rewrite app_nil_r.
    destruct (same_length_nth gys outs i a) as (y & Hy); auto. rewrite (map_nth_error _ _ _ Hy) in Hb. injection Hb as <-.
    assert (Hyg : In y gys) by (eapply nth_error_In; eauto). assert (Hyr := forallb_In _ _ _ Hgr Hyg). cbv beta in Hyr. destruct (mem_spec y rs) as [Hyr'|]; [|discriminate Hyr].
    destruct (In_nth_error _ _ Hyr') as (j & Hj). destruct (same_length_nth rs' rs j y) as (q & Hq); [lia | auto |]. rewrite (look_combine_nth _ _ _ _ _ Nrs Hj Hq).
    assert (Hqin : In q rs') by (eapply nth_error_In; eauto). assert (Hqb := Hr' q Hqin). split.
    + assert (Hao : In a outs) by (eapply nth_error_In; eauto). apply (forallb_In _ _ _ Pout) in Hao. unfold secret in Hao. rewrite Hao. symmetry.
      destruct (nth_fresh_as _ _ _ _ Hq) as [_ Hty]. unfold iters' in Hty. rewrite map_fst_fresh_as in Hty.
      destruct (same_length_nth inits2 rs' j q) as (z & Hz); [lia | auto |]. rewrite (map_nth_error _ _ _ Hz) in Hty. injection Hty as <-.
      destruct (same_length_nth inits inits2 j z) as (x & Hx); [lia | auto |]. destruct (Hin1 j x Hx) as (Hx1 & _). injection (eq_trans (eq_sym Hz) (Hin2 _ _ Hx1)) as ->.
      destruct (public (look mp x)) eqn:Px; [|unfold public in Px; cbn [andb]; destruct (fst (look mp x)); auto; discriminate Px]. cbn [andb].
      destruct (Hres y j Hyg Hj) as [(u & a' & Hu1 & Hu2 & Hu3)|Hl]; [|unfold flag; rewrite Hl; auto].
      exfalso. assert (a' = x) by congruence. subst a'. rewrite Hmp in Px. destruct (mem_spec x args) as [Hxa|Hxa]; [|apply Hxa; apply in_combine_r in Hu2; auto].
      destruct (mem_spec x inits) as [|Hxi]; [|apply Hxi; eapply nth_error_In; eauto]. cbn [andb] in Px. unfold operand_of in Px. rewrite (look_combine _ _ x u Na) in Px by (apply In_combine_swap; auto).
      unfold public, secret in *. rewrite Hu3 in Px. discriminate Px.
    + split; [eapply nth_error_In; eauto|]. split; lia.
  - intros e1z E1z. rewrite E0 in E1z. injection E1z as <-.
    rewrite run_app, Eps, Ee', run_cons, eval_for.
    assert (Emc : look mp c = c) by (rewrite Hmp; destruct (mem_spec c args); [tauto | auto]). rewrite Emc, Pc, Piv. cbn [andb].
    replace (same_types inits2 iters') with true by (symmetry; apply same_types_spec; unfold iters'; rewrite map_fst_fresh_as; auto).
    replace (same_types outs' iters') with true by (symmetry; apply same_types_spec; unfold outs'; rewrite map_fst_fresh_as; auto).
    replace (same_types rs' iters') with true by (symmetry; apply same_types_spec; unfold rs'; rewrite map_fst_fresh_as; auto). cbn [andb].
    rewrite (He' c) by auto. rewrite <- (Hfa c Hc), Ec.
    assert (Ei2 : vals inits2 e' = Some iiw).
    { assert (Hv : vals inits2 e' = vals inits ea); [|rewrite Hv; auto].
      assert (Hnth : forall j x, nth_error inits j = Some x -> exists z, nth_error inits2 j = Some z /\ e' z = ea x).
      { intros j x Hj. destruct (Hin1 j x Hj) as (H1 & H2 & H3 & H4). eexists. split; [apply Hin2; eauto|]. rewrite <- H2.
        destruct (public (look mp x)) eqn:Px; cbn [andb]; [|apply He'; auto]. destruct (flag lift j) eqn:Fj; [|apply He'; auto].
        apply He1. apply in_map_iff. exists (j, look mp x, (true, next + j)). split; auto. }
      assert (Ll : length inits2 = length inits) by (fold n; auto). clear - Hnth Ll. revert Hnth Ll. generalize inits2 as l2. induction inits as [|x l IH]; intros [|z l2] H Ll; cbn [length] in Ll; try discriminate Ll; auto.
      cbn [Generic_Spec.vals]. destruct (H 0 x eq_refl) as (z' & Hz & Hx). cbn in Hz. injection Hz as ->. rewrite Hx, (IH l2); auto. intros j y Hj. apply (H (S j) y Hj). }
    rewrite Ei2.
    erewrite iterate_mono; [| |exact Eit].
    2:{ intros i ws us Hb. cbv beta in *.
        destruct (bind (iv :: iters) (index i :: ws) ea) as [ei|] eqn:Eei; [|discriminate Hb].
        assert (Lws : length ws = n) by (apply bind_length in Eei; cbn [length] in Eei; lia).
        destruct (proj1 (bind_some (iv :: iters') (index i :: ws) e')) as (ei' & Eei'); [cbn [length]; lia|]. rewrite Eei'.
        assert (Nii : NoDup (iv :: iters)) by (constructor; auto; intro H; apply Niv, in_or_app; auto).
        assert (Nii' : NoDup (iv :: iters')) by (constructor; [intro H; apply Hit' in H; assert (snd iv < next) by auto 9; lia | apply NoDup_fresh_as]).
        assert (Hei : forall j t, nth_error iters j = Some t -> ei t = nth_error ws j) by (intros j t Hj; apply (bind_nth _ _ _ _ (S j) _ Nii Eei); auto).
        assert (Hei' : forall j t, nth_error iters' j = Some t -> ei' t = nth_error ws j) by (intros j t Hj; apply (bind_nth _ _ _ _ (S j) _ Nii' Eei'); auto).
        assert (Hiv : ei iv = Some (index i)) by (apply (bind_nth _ _ _ _ 0 _ Nii Eei); auto).
        assert (Hiv' : ei' iv = Some (index i)) by (apply (bind_nth _ _ _ _ 0 _ Nii' Eei'); auto).
        assert (Hef : forall v, v <> iv -> ~ In v iters -> ei v = ea v) by (intros v H1 H2; apply (bind_frame _ _ _ _ _ Eei); intros [H|H]; congruence || tauto).
        assert (Hef' : forall v, v <> iv -> snd v < next -> ei' v = e v).
        { intros v H1 H2. rewrite (bind_frame _ _ _ _ _ Eei'); auto. intros [H|H]; [congruence | apply Hit' in H; lia]. }
        assert (Hopb : forall v, In v operands -> ei' v <> None).
        { intros v H. destruct (Hop2 v H) as [H'|(a & H' & _)].
          - destruct (In_nth_error _ _ H') as (j & Hj). rewrite (Hei' j v Hj). apply nth_error_Some. rewrite Lws, <- Lit'. apply nth_error_Some. congruence.
          - assert (Hvi := in_combine_l _ _ _ _ H'). assert (Hb' := proj1 (Forall_forall _ _) (proj1 (vals_some ins e) (ex_intro _ _ Ei)) v Hvi). rewrite Hef'; auto.
            intros ->. apply Hb'. apply Hold; auto. }
        unfold Generic_Spec.block at 1. rewrite run_cons, eval_generic.
        replace (forallb public new_args) with true by (symmetry; apply forallb_forall; intros v Hv; apply Hna in Hv; unfold public; destruct Hv as [-> _]; auto).
        replace (forallb public (map mapped ys)) with true.
        2:{ symmetry. apply forallb_forall. intros v Hv. apply in_map_iff in Hv. destruct Hv as (u & <- & Hu).
            assert (HR : R u (mapped u)) by (split; auto; apply in_or_app; auto). unfold public. rewrite <- (Rt _ _ HR). apply (forallb_In _ _ _ Pys Hu). }
        cbn [andb]. destruct (proj2 (vals_some operands ei')) as (opw & Eop); [apply Forall_forall; auto|]. rewrite Eop.
        destruct (proj1 (bind_some new_args opw ei')) as (ex & Eex); [rewrite (vals_length _ _ _ Eop); auto|]. rewrite Eex.
        assert (Hex : forall j b u, nth_error new_args j = Some b -> nth_error operands j = Some u -> ex b = ei' u).
        { intros j b u H1 H2. rewrite (bind_nth _ _ _ _ _ _ (NoDup_fresh _ _ _) Eex H1). symmetry. eapply vals_nth; eauto. }
        assert (Hexf : forall u, snd u < next + n + n -> ex u = ei' u) by (intros u Hu; apply (bind_frame _ _ _ _ _ Eex); intro H; apply Hna in H; lia).
        assert (Rs : sim V R ei ex).
        { intros v v' w (-> & Hv) Hw. assert (Hlt := Huse' v Hv).
          destruct (Kind v Hv) as [(j & t' & Hj & Ht' & ->)|[(Hi & x & Hx & Hvi & Sx & Hxa & Hxi & Hl & Hbx & ->)|[(Hi & Ha & Hvi & Hvo & ->)|(Hi & Ha & Hi' & ->)]]].
          - rewrite (Hei j v Hj) in Hw. rewrite <- (Hei' j t' Ht') in Hw. assert (Hin : In t' iters') by (eapply nth_error_In; eauto).
            destruct (Hglook t' (or_intror Hin)) as [(-> & _)|(q & Hq & [H|H])].
            + rewrite Hexf; auto. apply Hit' in Hin. lia.
            + rewrite (Hex _ _ _ Hq H); auto.
            + exfalso. apply nth_error_In in H. assert (snd t' < next) by auto 9. apply Hit' in Hin. lia.
          - assert (Hva : In v args) by (apply in_combine_r in Hx; auto).
            rewrite Hef, (Hea _ _ Hx) in Hw; auto; [|intros ->; apply (Dab iv Hva); auto].
            assert (Hxv : x <> iv) by (intros ->; apply Hbx; apply Hold; auto).
            destruct (Hglook x (or_introl Hl)) as [(-> & _)|(q & Hq & [H|H])].
            + rewrite Hexf, Hef'; auto. lia.
            + rewrite (Hex _ _ _ Hq H), Hef'; auto.
            + exfalso. apply Hxa. eapply nth_error_In; eauto.
          - rewrite Hef in Hw; auto; [|intros ->; apply (Dab iv Ha); auto].
            destruct (Hglook v (or_introl Hlt)) as [(_ & _ & H)|(q & Hq & [H|H])]; [tauto | exfalso; apply Hvo; eapply nth_error_In; eauto |].
            destruct (same_length_nth ins args q v Li H) as (x & Hx). rewrite (Hex q _ (f (x, v)) Hq) by (apply Hop1; auto).
            assert (Hxc : In (x, v) (combine ins args)) by (apply In_combine_nth; eauto).
            unfold f. cbn [fst snd]. rewrite carried_by_none by auto. rewrite (Hea _ _ Hxc) in Hw.
            assert (Hxv : x <> iv) by (intros ->; assert (e iv = None) by (apply Hold; auto); congruence). rewrite Hef'; auto. apply Huse. left. eapply nth_error_In; eauto.
          - assert (Hexv : ei' v = Some w).
            { destruct (val_dec v iv) as [->|Hvv]; [congruence|]. rewrite Hef, Hfa in Hw by auto. rewrite Hef'; auto. }
            destruct (Hglook v (or_introl Hlt)) as [(-> & _)|(q & Hq & [H|H])].
            + rewrite Hexf; auto. lia.
            + rewrite (Hex _ _ _ Hq H); auto.
            + exfalso. apply Ha. eapply nth_error_In; eauto. }
        assert (Hbs : block (map (subst gm) (map (subst m0) (map (subst mp) body))) (map mapped ys) ex = Some us).
        { refine (block_sim V sem trips index truth body R _ ys _ ei ex us Rt Rg Rs _ _ Hb).
          - apply (subs_substs R (fun v v' => v' = look m0 (look mp v) /\ used v)); [intros v v' (-> & H); split; auto|].
            apply (subs_substs _ (fun v v' => v' = look mp v /\ used v)); [intros v v' (-> & H); split; auto|].
            apply substs_sub. intros v Hv. split; auto. apply in_or_app; auto.
          - apply Forall2_map_look. intros v Hv. split; auto. apply in_or_app; auto. }
        rewrite Hbs. cbn [results]. assert (Lus : length us = n).
        { unfold Generic_Spec.block in Hb. destruct (run body ei); [|discriminate Hb]. apply vals_length in Hb. lia. }
        destruct (proj1 (bind_some outs' us ei')) as (eo & Eeo); [lia|]. rewrite Eeo. cbn [Generic_Spec.run]. apply (bind_vals _ _ _ _ (NoDup_fresh_as _ _) Eeo). }
    cbn [results]. assert (Low : length ow = n) by (apply bind_length in Er; lia).
    destruct (proj1 (bind_some rs' ow e')) as (e2 & Ee2); [lia|]. rewrite Ee2. exists e2. split; [reflexivity|].
    intros v w _ Hw. destruct (in_dec val_dec v outs) as [Hi|Hi].
    + destruct (In_nth_error _ _ Hi) as (i & Hi'). rewrite (bind_nth _ _ _ _ _ _ No Eo Hi') in Hw.
      destruct (same_length_nth gys outs i v Log Hi') as (y & Hy). rewrite (look_combine_nth _ _ _ _ _ No Hi' (map_nth_error _ _ _ Hy)).
      rewrite <- (vals_nth _ _ _ _ _ Eg Hy) in Hw.
      assert (Hyr := forallb_In _ _ _ Hgr (nth_error_In _ _ Hy)). cbv beta in Hyr. destruct (mem_spec y rs) as [Hyr'|]; [|discriminate Hyr].
      destruct (In_nth_error _ _ Hyr') as (j & Hj). destruct (same_length_nth rs' rs j y) as (q & Hq); [lia | auto |]. rewrite (look_combine_nth _ _ _ _ _ Nrs Hj Hq).
      rewrite (bind_nth _ _ _ _ _ _ (NoDup_fresh_as _ _) Ee2 Hq). rewrite <- (bind_nth _ _ _ _ _ _ Nrs Er Hj). auto.
    + rewrite look_notin by (rewrite map_fst_combine by (rewrite map_length; lia); auto). rewrite (bind_frame _ _ _ _ _ Eo Hi) in Hw.
      assert (snd v < next) by (apply Hev; congruence). rewrite (bind_frame _ _ _ _ _ Ee2) by (intro H'; apply Hr' in H'; lia). rewrite He'; auto.
Qed.
Theorem distribute_for_block lift next next' pre ins args c inits iv iters body ys rs gys outs new m post zs e ws :
  let g := Generic ins args [For c inits iv iters body ys rs] gys outs in
  ssa next (pre ++ g :: post) zs e ->
  ~ In c args -> forallb public inits = true ->
  (forall a i j, In a args -> nth_error inits i = Some a -> nth_error inits j = Some a -> i = j) ->
  (forall x a, In (x, a) (combine ins args) -> secret x = true ->
     ~ In x (flat_map uses body ++ ys) /\ (In a inits -> ~ In a (flat_map uses body ++ ys))) ->
  forallb secret outs = true ->
  (forall r i, In r gys -> nth_error rs i = Some r ->
     (exists x a, nth_error inits i = Some a /\ In (x, a) (combine ins args) /\ secret x = true) \/ nth i lift false = true) ->
  distribute_for lift next g = Some (new, m, next') ->
  block (pre ++ g :: post) zs e = Some ws ->
  block (pre ++ new ++ map (subst m) post) (map (look m) zs) e = Some ws /\ ssa next' (pre ++ new ++ map (subst m) post) (map (look m) zs) e.
Proof.
  intros g Hssa H1 H2 H3 H4 H5 H6 X E. change (g :: post) with ([g] ++ post) in *. eapply sound_block; eauto. intros e0 e1 _ Hs Hr. eapply distribute_for_sound; eauto.
Qed.
End Dist.
