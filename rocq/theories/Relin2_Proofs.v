(** The placement of relinearizations: whole programs, and the integer program has a solution for every legal
    placement. *)
From Coq Require Import List Bool Arith Lia QArith Lqa.
From Verif Require Import Relin_Model Relin_Spec Relin_Proofs RelinStrip_Proofs.
Import ListNotations.
Local Open Scope nat_scope.

Lemma strip_prog_eq p : strip_prog p = Prog (pargs p) (fst (strip (fun v => v) (pcode p))) (map (snd (strip (fun v => v) (pcode p))) (outs p)).
Proof. unfold strip_prog. destruct (strip (fun v => v) (pcode p)). reflexivity. Qed.

Lemma list_max_ge l v : In v l -> v <= list_max l.
Proof. induction l as [|a l IH]; cbn; [tauto|]. intros [->|H]; [|specialize (IH H)]; unfold list_max in *; lia. Qed.
Lemma fresh_top p : top (pcode p) < fresh p.
Proof. unfold fresh. lia. Qed.
Lemma fresh_io p v : In v (pargs p ++ outs p) -> v < fresh p.
Proof. intros H. apply list_max_ge in H. unfold fresh. lia. Qed.

Lemma inv_id sec av : inv sec av av (fun v => v).
Proof. split; auto. apply incl_refl. Qed.

(** the stripped program *)
Lemma strip_prog_ok sec p : wf_prog p -> secretness sec (pcode p) ->
  wf_prog (strip_prog p) /\ secretness sec (pcode (strip_prog p)) /\ norelin (pcode (strip_prog p)).
Proof.
  intros (N & W & O) SC. rewrite strip_prog_eq. destruct (strip_static sec _ _ _ _ W SC (inv_id sec (pargs p))) as (A & B & C & E).
  unfold wf_prog. cbn [pargs pcode outs]. repeat split; auto. eapply incl_map; eauto.
Qed.
Lemma strip_run_plain D ev sec p xs zs : wf_prog p -> secretness sec (pcode p) ->
  run_plain D ev p xs = Some zs -> run_plain D ev (strip_prog p) xs = Some zs.
Proof.
  intros (N & W & O) SC R. rewrite strip_prog_eq. unfold run_plain in *. cbn [pargs pcode outs] in *.
  destruct (assign (pargs p) xs (fun _ => None)) as [e|]; cbn [bind] in *; [|discriminate].
  destruct (plain D ev (pcode p) e) as [e'|] eqn:P; cbn [bind] in R; [|discriminate].
  destruct (strip_plain sec D ev _ _ _ _ e e e' W SC (inv_id sec (pargs p))) as (eQ & P' & S'); auto.
  { intros v _. reflexivity. }
  rewrite P'. cbn [bind]. rewrite <- R. symmetry. eapply lookups_rel; eauto.
Qed.

Lemma sec_after_low sec p v : v < fresh (strip_prog p) -> sec_after sec p v = sec v.
Proof. intros H. unfold sec_after. destruct (Nat.ltb_spec v (fresh (strip_prog p))); auto. lia. Qed.
Lemma sec_after_high sec p v : sec_after sec p (fresh (strip_prog p) + v) = sec v.
Proof.
  unfold sec_after. destruct (Nat.ltb_spec (fresh (strip_prog p) + v) (fresh (strip_prog p))); [lia|]. f_equal. lia.
Qed.

(** the dimensions of the arguments are what the analysis says *)
Definition args_dim (sec : nat -> bool) (dim : nat -> option nat) (dg : nat -> nat) (vs : list nat) : Prop :=
  forall a, In a vs -> sec a = true -> 1 <= dg a /\ match dim a with Some d => d = S (dg a) | None => dg a = 1 end.

Lemma args_F2 D sec mixed dim dg x vs (xs : list (val D)) : good_args sec dg vs xs -> args_dim sec dim dg vs -> Forall (arg_ok sec dim x) vs ->
  Forall2 (okv D sec mixed x) vs xs.
Proof.
  intros G AD AO. unfold good_args in G. rewrite Forall_forall in AO.
  eapply F2_impl; [|exact G]. intros v y Hv E. cbn in E. unfold okv, okq. rewrite E.
  destruct (sec v) eqn:Sv; auto. destruct (AO v Hv Sv) as [[L H] B]. destruct (AD v Hv Sv) as [A1 A2].
  assert (EQ : (q (dg v) == deg x v)%Q).
  { rewrite B. unfold q. destruct (dim v) as [d|]; [subst d|rewrite A2]; [|reflexivity].
    rewrite Nat2Z.inj_succ. unfold Z.succ. rewrite inject_Z_plus. unfold Qminus. change (inject_Z 1) with 1%Q. lra. }
  split; auto. split; [split; auto|].
  - apply q_le. rewrite q_2, EQ. auto.
  - unfold covers. destruct mixed; lra.
Qed.

Theorem optimize_correct D ev sec mixed dim x p dg xs zs :
  wf_prog p -> secretness sec (pcode p) ->
  feasible sec mixed dim x (strip_prog p) -> loops_ok sec mixed x (pcode (strip_prog p)) ->
  good_args sec dg (pargs p) xs -> args_dim sec dim dg (pargs p) ->
  run_plain D ev p (map fst xs) = Some zs ->
  exists ys, run D ev (sec_after sec p) mixed true (optimize sec x p) xs = Some ys /\ map fst ys = zs.
Proof.
  intros W SC F LO G AD R. apply (strip_run_plain _ _ _ _ _ _ W SC) in R.
  destruct (strip_prog_ok _ _ W SC) as (WQ & SQ & NR). assert (PA : pargs (strip_prog p) = pargs p) by (rewrite strip_prog_eq; auto).
  pose proof (sec_after_low sec p) as SL. pose proof (sec_after_high sec p) as SH. revert SL SH.
  generalize (sec_after sec p). unfold optimize. rewrite <- PA in *. clear SC W PA. revert R WQ SQ NR F LO G AD.
  generalize (strip_prog p). clear p. intros p R (N & W & O) SC NR (FA & FC & FL & FE) LO G AD sec' SL SH.
  set (n := fresh p) in *. unfold run_plain in R. unfold run, insert_prog. cbn [pargs pcode outs].
  destruct (assign (pargs p) (map fst xs) (fun _ => None)) as [e|] eqn:A; cbn [bind] in R; [|discriminate].
  destruct (plain D ev (pcode p) e) as [e'|] eqn:P; cbn [bind] in R; [|discriminate].
  destruct (assign_some (pargs p) xs (fun _ => None)) as (ee & A'); [rewrite (assign_length _ _ _ _ A), map_length; auto|].
  match goal with |- context [bind ?a _] => replace a with (Some ee) by (symmetry; exact A') end. cbn [bind].
  assert (R0 : rel D sec mixed x n (pargs p) e ee).
  { rewrite <- (app_nil_r (pargs p)). eapply (rel_assign D ev sec mixed dim x n [] (fun _ => None) (fun _ => None)); eauto.
    - intros v [].
    - intros v Hv. apply fresh_io, in_or_app. auto.
    - eapply args_F2; eauto. }
  destruct (exec_insert D ev sec mixed dim x n sec' SL (fun v _ => SH v) _ _ _ _ _ W SC NR FC LO (fresh_top p) R0 P) as (ee' & X & R').
  fold n. match goal with |- context [bind ?a _] => replace a with (Some ee') by (symmetry; exact X) end. cbn [bind].
  destruct (rel_lookups _ _ _ _ _ _ _ _ _ R' O) as (ys & L1 & L2 & OK).
  match goal with |- context [bind ?a _] => replace a with (Some ys) by (symmetry; exact L2) end. cbn [bind].
  assert (RET : forallb (returnable D) ys = true).
  { apply forallb_forall. intros y Hy. destruct (F2_in_r _ _ _ _ OK Hy) as (v & Hv & Ov). unfold returnable. unfold okv, okq in Ov.
    destruct (snd y) as [d|]; auto. destruct Ov as (Sv & B & C). unfold linear in FL. rewrite Forall_forall in FL.
    apply Nat.eqb_eq. eapply covers_one; eauto. lia. }
  rewrite RET. cbn. exists ys. split; auto. rewrite L1 in R. injection R as <-. auto.
Qed.
