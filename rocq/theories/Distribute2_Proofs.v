(** secret-distribute-generic: moving a generic into the branches of a conditional. *)
From Coq Require Import List Bool Arith Lia.
From Verif Require Import Generic_Spec Generic_Model Generic_Proofs Generic2_Proofs Generic3_Proofs Generic4_Proofs Generic5_Proofs Generic6_Proofs.
From Verif Require Import Distribute_Spec Distribute_Model Distribute_Proofs.
Import ListNotations.
Set Default Proof Using "Type".

Lemma map_fst_fresh_as types next : map fst (fresh_as types next) = types.
Proof. unfold fresh_as. rewrite map_fst_combine; auto. rewrite seq_length; auto. Qed.
Lemma map_snd_fresh_as types next : map snd (fresh_as types next) = seq next (length types).
Proof. unfold fresh_as. rewrite map_snd_combine; auto. rewrite seq_length; auto. Qed.
Lemma length_fresh_as types next : length (fresh_as types next) = length types.
Proof. unfold fresh_as, val. rewrite combine_length, seq_length. apply Nat.min_id. Qed.
Lemma In_fresh_as types next v : In v (fresh_as types next) -> next <= snd v < next + length types.
Proof. intro H. apply (in_map snd) in H. rewrite map_snd_fresh_as in H. apply in_seq in H. auto. Qed.
Lemma NoDup_fresh_as types next : NoDup (fresh_as types next).
Proof. apply (NoDup_map_inv snd). rewrite map_snd_fresh_as. apply seq_NoDup. Qed.
Lemma vals_eqb_spec a b : vals_eqb a b = true -> a = b.
Proof.
  unfold vals_eqb. intro H. apply andb_true_iff in H. destruct H as [Hl H]. apply Nat.eqb_eq in Hl.
  revert b Hl H; induction a as [|x a IH]; intros [|y b] Hl H; cbn [length combine forallb] in *; try congruence; injection Hl as Hl.
  apply andb_true_iff in H. destruct H as [H1 H2]. cbn [fst snd] in H1. destruct (veqb_spec x y) as [->|]; [|discriminate H1]. f_equal; auto.
Qed.
Lemma same_types_spec a b : same_types a b = true <-> map fst a = map fst b.
Proof. unfold same_types. destruct (list_eq_dec _ _ _); split; auto; discriminate. Qed.
Lemma same_types_public a b : same_types a b = true -> forallb public a = forallb public b.
Proof.
  rewrite same_types_spec. intro H. assert (P : forall l, forallb public l = forallb negb (map fst l)) by (induction l as [|x l IH]; cbn [forallb map]; [|rewrite IH]; auto).
  rewrite !P, H; auto.
Qed.
Lemma same_types_length a b : same_types a b = true -> length a = length b.
Proof. rewrite same_types_spec. intro H. apply (f_equal (@length _)) in H. rewrite !map_length in H. exact H. Qed.

Section Dist.
Variable V : Type.
Variable sem : nat -> list V -> option (list V).
Variable trips : V -> nat.
Variable index : nat -> V.
Variable truth : V -> bool.
Notation eval := (eval V sem trips index truth).
Notation run := (run V sem trips index truth).
Notation block := (block V sem trips index truth).
Notation env := (env V).
Notation bind := (bind V).
Notation vals := (vals V).
Notation ssa := (ssa V).
Notation sound := (sound V sem trips index truth).

(** the copies of a part of the body in another generic *)
Lemma renamed_block next fst_new ins args l zs iw e ea ea' ws :
  let args' := fresh false fst_new (length args) in
  let m := combine args args' in
  NoDup args -> vals ins e = Some iw -> bind args iw e = Some ea -> bind args' iw e = Some ea' -> next <= fst_new ->
  forallb public args = true ->
  (forall v, In v args -> ~ In v (flat_map defs l)) ->
  (forall v, In v (flat_map defs l) \/ In v (flat_map uses l) \/ In v zs -> snd v < next) ->
  block l zs ea = Some ws -> block (map (subst m) l) (map (look m) zs) ea' = Some ws.
Proof.
  intros args' m Na Ei Ea Ea' Hn Pa Dab Hlt E.
  assert (Lm : length args = length args') by (unfold args'; rewrite length_fresh; auto).
  assert (Hlook : forall v, (look m v = v /\ ~ In v args) \/ In (v, look m v) m).
  { intro v. destruct (in_dec val_dec v args) as [Hi|Hi]; [right|left; split; auto].
    - apply look_in. unfold m. rewrite map_fst_combine; auto.
    - apply look_notin. unfold m. rewrite map_fst_combine; auto. }
  assert (Hm : forall a b, In (a, b) m -> In a args /\ In b args' /\ fst_new <= snd b /\ fst a = fst b).
  { intros a b H. assert (H1 := in_combine_l _ _ _ _ H). assert (H2 := in_combine_r _ _ _ _ H). apply In_fresh in H2 as H3. repeat split; auto; try tauto.
    apply (forallb_In _ _ _ Pa) in H1. unfold public in H1. destruct (fst a); [discriminate H1|]. symmetry; tauto. }
  set (R := fun v v' => v' = look m v /\ In v (flat_map uses l ++ zs)).
  refine (block_sim V sem trips index truth l R _ zs _ ea ea' ws _ _ _ _ _ E).
  - intros v v' (-> & _). destruct (Hlook v) as [[-> _]|H]; auto. apply Hm in H. tauto.
  - intros v v' d (-> & _) Hd Hvd. destruct (Hlook v) as [[-> _]|H]; auto. exfalso. apply Hm in H. destruct Hvd as [->| <-].
    + apply (Dab d); tauto.
    + assert (snd (look m v) < next) by auto. lia.
  - intros v v' w (-> & Hv) Hw. destruct (Hlook v) as [[-> Hn']|H].
    + rewrite (bind_frame _ _ _ _ _ Ea') by (intro H; apply In_fresh in H; assert (snd v < next) by (apply Hlt; apply in_app_iff in Hv; tauto); lia).
      rewrite <- (bind_frame _ _ _ _ _ Ea Hn'). auto.
    + apply In_combine_nth in H. destruct H as (i & H1 & H2). rewrite (bind_nth _ _ _ _ _ _ (NoDup_fresh _ _ _) Ea' H2). rewrite <- Hw. symmetry.
      eapply bind_nth; eauto.
  - apply substs_sub. intros v Hv. split; auto. apply in_or_app; auto.
  - apply Forall2_map_look. intros v Hv. split; auto. apply in_or_app; auto.
Qed.

Lemma distribute_if_sound (U : val -> Prop) next next' g new m e e1 :
  ssa next [g] [] e -> distribute_if next g = Some (new, m, next') -> run [g] e = Some e1 -> sound U next next' [g] new m e.
Proof.
  intros Hssa X E. destruct g as [| | |ins args body ys outs| |]; try discriminate X.
  destruct body as [|[| | | | |c thn tys els eys rs] [|]]; try discriminate X. cbn [distribute_if] in X.
  destruct (mem_spec c args) as [|Hc]; [discriminate X|]. destruct (vals_eqb ys rs) eqn:Ey; [|discriminate X]. apply vals_eqb_spec in Ey. subst ys.
  set (k := length args) in *. set (n := length outs) in *. injection X as <- <- <-.
  set (aT := fresh false next k) in *. set (aE := fresh false (next + k + n) k) in *.
  set (oT := fresh_as (map fst outs) (next + k)) in *. set (oE := fresh_as (map fst outs) (next + k + n + k)) in *.
  destruct (generic_ssa _ _ _ _ _ _ _ _ Hssa) as (Na & Nb & No & Dab & Dao & Dbo & Hun & Hus & Hev).
  cbn [flat_map defs uses] in Nb, Dab, Dbo, Hun, Hus. rewrite ?app_nil_r in *.
  apply NoDup_app_iff in Nb. destruct Nb as (Nt & N2 & Nt2). apply NoDup_app_iff in N2. destruct N2 as (Ne & Nr & Ner).
  assert (HoT : forall v, In v oT -> next + k <= snd v < next + k + n) by (intros v H; apply In_fresh_as in H; rewrite map_length in H; auto).
  assert (HoE : forall v, In v oE -> next + k + n + k <= snd v < next + k + n + k + n) by (intros v H; apply In_fresh_as in H; rewrite map_length in H; auto).
  assert (HaT : forall v, In v aT -> next <= snd v < next + k) by (intros v H; apply In_fresh in H; tauto).
  assert (HaE : forall v, In v aE -> next + k + n <= snd v < next + k + n + k) by (intros v H; apply In_fresh in H; tauto).
  assert (LaT : length aT = k) by apply length_fresh. assert (LaE : length aE = k) by apply length_fresh.
  assert (Hdef : forall v, In v (flat_map defs thn) \/ In v (flat_map defs els) \/ In v outs -> snd v < next).
  { intros v Hv. apply Hun. rewrite !in_app_iff. tauto. }
  assert (Hlk : forall v b k', In v (flat_map uses thn) \/ In v tys \/ In v (flat_map uses els) \/ In v eys -> b + k' <= next + k + n + k -> snd (look (combine args (fresh false b k')) v) < next + k + n + k + n).
  { intros v b k' Hv Hb. destruct (look_cases (combine args (fresh false b k')) v) as [->|H].
    - assert (snd v < next) by (apply Hus; cbn [In]; rewrite !in_app_iff; tauto). lia.
    - apply in_combine_r in H. apply In_fresh in H. lia. }
  (* what the generic computes *)
  assert (E0 := E).
  rewrite run_cons, eval_generic in E. destruct (forallb public args) eqn:Pa; [|discriminate E]. destruct (forallb public rs) eqn:Pr; [|discriminate E]. cbn [andb] in E.
  destruct (vals ins e) as [iw|] eqn:Ei; [|discriminate E]. destruct (bind args iw e) as [ea|] eqn:Ea; [|discriminate E].
  unfold Generic_Spec.block in E. rewrite run_cons, eval_if in E.
  destruct (public c) eqn:Pc; [|discriminate E]. destruct (same_types tys rs) eqn:Tt; [|discriminate E]. destruct (same_types eys rs) eqn:Te; [|discriminate E]. cbn [andb] in E.
  destruct (ea c) as [w|] eqn:Ec; [|discriminate E].
  destruct (if truth w then block thn tys ea else block els eys ea) as [ow|] eqn:Eb; [|discriminate E].
  cbn [results] in E. destruct (bind rs ow ea) as [eb|] eqn:Er; [|discriminate E]. cbn [Generic_Spec.run] in E. rewrite (bind_vals _ _ _ _ Nr Er) in E.
  destruct (bind outs ow e) as [e2|] eqn:Eo; [|discriminate E]. injection E as ->.
  assert (Low : length outs = length ow) by (eapply bind_length; eauto).
  constructor.
  - lia.
  - cbn [flat_map defs]. rewrite !app_nil_r, !defs_substs.
    repeat (apply NoDup_app_iff; split; [|split]); auto using NoDup_fresh, NoDup_fresh_as; try apply NoDup_fresh; try apply NoDup_fresh_as;
      intros v Hv; rewrite ?in_app_iff in *; intro H.
    + assert (snd v < next) by auto. apply HoT in H. lia.
    + apply HaT in Hv. destruct H as [H|H]; [assert (snd v < next) by auto; lia | apply HoT in H; lia].
    + assert (snd v < next) by auto. apply HoE in H. lia.
    + apply HaE in Hv. destruct H as [H|H]; [assert (snd v < next) by auto; lia | apply HoE in H; lia].
    + assert (snd v < next) by auto.
      destruct Hv as [Hv|[Hv|Hv]]; [apply HaE in Hv; lia | | apply HoE in Hv; lia]. apply (Dbo v); auto. rewrite !in_app_iff; auto.
    + destruct H as [[H|[H|H]]|H].
      * apply HaE in H. destruct Hv as [Hv|[Hv|Hv]]; [apply HaT in Hv; lia | assert (snd v < next) by auto; lia | apply HoT in Hv; lia].
      * destruct Hv as [Hv|[Hv|Hv]]; try (assert (snd v < next) by auto; (apply HaT in Hv || apply HoT in Hv); lia). apply (Nt2 v Hv), in_or_app; auto.
      * apply HoE in H. destruct Hv as [Hv|[Hv|Hv]]; [apply HaT in Hv; lia | assert (snd v < next) by auto; lia | apply HoT in Hv; lia].
      * destruct Hv as [Hv|[Hv|Hv]]; try (assert (snd v < next) by auto; (apply HaT in Hv || apply HoT in Hv); lia). apply (Dbo v); auto. rewrite !in_app_iff; auto.
  - intros d. cbn [flat_map defs]. rewrite !app_nil_r, !defs_substs, !in_app_iff.
    intros [[H|[H|H]]|[[H|[H|H]]|H]]; auto 8; [apply HaT in H | apply HoT in H | apply HaE in H | apply HoE in H]; right; lia.
  - intros v. cbn [flat_map uses]. rewrite !app_nil_r, !uses_substs. cbn [In]. rewrite !in_app_iff, !in_map_iff.
    assert (Hl : In v ins \/ v = c -> snd v < next + k + n + k + n).
    { intro H. assert (snd v < next); [|lia]. apply Hus. cbn [In]. destruct H as [H|H]; auto. }
    intros [H|[[H|[H|H]]|[H|[[H|[H|H]]|H]]]]; auto; try (destruct H as (u & <- & H); apply Hlk; auto; lia); [apply HoT in H | apply HoE in H]; lia.
  - intros a b [].
  - intros e1' E1'. rewrite E0 in E1'. injection E1' as <-. exists e1. split; [|intros v u _ H; exact H].
    clear E0. rewrite run_cons, eval_if, Pc. cbn [andb].
    replace (same_types oT outs) with true by (symmetry; apply same_types_spec, map_fst_fresh_as).
    replace (same_types oE outs) with true by (symmetry; apply same_types_spec, map_fst_fresh_as). cbn [andb].
    rewrite <- (bind_frame _ _ _ _ _ Ea Hc), Ec.
    assert (Hbranch : forall b k' l zs b', block l zs ea = Some ow -> same_types zs rs = true -> next <= b -> k' = k ->
              (forall v, In v (flat_map defs l) -> In v (flat_map defs thn) \/ In v (flat_map defs els)) ->
              (forall v, In v (flat_map uses l) \/ In v zs -> In v (flat_map uses thn) \/ In v tys \/ In v (flat_map uses els) \/ In v eys) ->
              block [Generic ins (fresh false b k') (map (subst (combine args (fresh false b k'))) l) (map (look (combine args (fresh false b k'))) zs) (fresh_as (map fst outs) b')]
                (fresh_as (map fst outs) b') e = Some ow).
    { intros b k' l zs b' Hb Tz Hnb -> Hd Hu. unfold Generic_Spec.block at 1. rewrite run_cons, eval_generic.
      replace (forallb public (fresh false b k)) with true by (symmetry; apply forallb_forall; intros v Hv; apply In_fresh in Hv; unfold public; destruct Hv as [-> _]; auto).
      replace (forallb public (map (look (combine args (fresh false b k))) zs)) with true.
      2:{ symmetry. apply forallb_forall. intros v Hv. apply in_map_iff in Hv. destruct Hv as (u & <- & Hu'). destruct (look_cases (combine args (fresh false b k)) u) as [->|H].
          - rewrite <- (same_types_public _ _ Tz) in Pr. apply (forallb_In _ _ _ Pr); auto.
          - apply in_combine_r in H. apply In_fresh in H. unfold public. destruct H as [-> _]; auto. }
      cbn [andb]. rewrite Ei. destruct (proj1 (bind_some (fresh false b k) iw e)) as (ea' & Ea'); [rewrite length_fresh; eapply bind_length; eauto|]. rewrite Ea'.
      fold k in Ea'. unfold k in *.
      rewrite (renamed_block next b ins args l zs iw e ea ea' ow); auto.
      - cbn [results]. destruct (proj1 (bind_some (fresh_as (map fst outs) b') ow e)) as (eo & Eo'); [rewrite length_fresh_as, map_length; auto|].
        rewrite Eo'. cbn [Generic_Spec.run]. apply (bind_vals _ _ _ _ (NoDup_fresh_as _ _) Eo').
      - intros v Hv H. apply (Dab v Hv). rewrite !in_app_iff. apply Hd in H. tauto.
      - intros v [H|H]; [assert (H' := Hd v H); apply Hdef; tauto|]. apply Hus. right; left. cbn [In]. rewrite !in_app_iff. apply Hu in H. tauto. }
    unfold aT, aE, oT, oE. destruct (truth w); (rewrite Hbranch; [cbn [results]; rewrite Eo; reflexivity | auto | auto | lia | auto | tauto | tauto]).
Qed.
Theorem distribute_if_block next next' pre g new m post zs e ws :
  ssa next (pre ++ g :: post) zs e -> distribute_if next g = Some (new, m, next') ->
  block (pre ++ g :: post) zs e = Some ws ->
  block (pre ++ new ++ map (subst m) post) (map (look m) zs) e = Some ws /\ ssa next' (pre ++ new ++ map (subst m) post) (map (look m) zs) e.
Proof.
  intros Hssa X E. change (g :: post) with ([g] ++ post) in *. eapply sound_block; eauto. intros e0 e1 _ Hs Hr. eapply distribute_if_sound; eauto.
Qed.
End Dist.
