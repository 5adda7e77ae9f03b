(** secret-distribute-generic: moving a generic into the body of a loop. *)
From Coq Require Import List Bool Arith Lia.
From Verif Require Import Generic_Spec Generic_Model Generic_Proofs Generic2_Proofs Generic3_Proofs Generic4_Proofs Generic5_Proofs Generic6_Proofs.
From Verif Require Import Distribute_Spec Distribute_Model Distribute_Proofs Distribute2_Proofs.
Import ListNotations.
Set Default Proof Using "Type".

(** * Lists *)
Lemma nth_error_indexed {A B} (f : nat * A -> B) l : forall s j x,
  nth_error l j = Some x -> nth_error (map f (combine (seq s (length l)) l)) j = Some (f (s + j, x)).
Proof.
  induction l as [|y l IH]; intros s [|j] x H; cbn [length seq combine map nth_error] in *; try discriminate H.
  - injection H as ->. rewrite Nat.add_0_r; auto.
  - rewrite (IH (S s) j x H). do 2 f_equal. f_equal. lia.
Qed.
Lemma length_indexed {A B} (f : nat * A -> B) l s : length (map f (combine (seq s (length l)) l)) = length l.
Proof. rewrite map_length, combine_length, seq_length. apply Nat.min_id. Qed.
Lemma In_indexed {A} (l : list A) j x : In (j, x) (combine (seq 0 (length l)) l) <-> nth_error l j = Some x.
Proof.
  rewrite In_combine_nth. split.
  - intros (i & H1 & H2). assert (Hi : i < length l) by (apply nth_error_Some; congruence).
    apply (nth_error_nth _ _ 0) in H1. rewrite seq_nth in H1 by auto. cbn in H1. congruence.
  - intro H. exists j. assert (Hj : j < length l) by (apply nth_error_Some; congruence).
    split; auto. rewrite (nth_error_nth' _ 0) by (rewrite seq_length; auto). rewrite seq_nth by auto. auto.
Qed.
Lemma same_length_nth {A B} (a : list A) (b : list B) i y : length a = length b -> nth_error b i = Some y -> exists x, nth_error a i = Some x.
Proof. intros H Hi. destruct (nth_error a i) eqn:E; eauto. apply nth_error_None in E. assert (i < length b) by (apply nth_error_Some; congruence). lia. Qed.
Lemma nth_fresh_as types next j v : nth_error (fresh_as types next) j = Some v -> snd v = next + j /\ nth_error types j = Some (fst v).
Proof.
  intro H. assert (Hj : j < length types) by (rewrite <- (length_fresh_as types next); apply nth_error_Some; congruence). split.
  - apply (map_nth_error snd) in H. rewrite map_snd_fresh_as in H. apply (nth_error_nth _ _ 0) in H. rewrite seq_nth in H by auto. auto.
  - apply (map_nth_error fst) in H. rewrite map_fst_fresh_as in H. auto.
Qed.
Lemma look_image f l v : look (map (fun x => (x, f x)) l) v = if mem v l then f v else v.
Proof.
  unfold look, mem. induction l as [|x l IH]; cbn [map find existsb fst]; auto. destruct (veqb_spec v x) as [->|]; cbn [orb snd]; auto.
Qed.
Lemma carried_by_none a inits : forall iters, ~ In a inits -> carried_by a inits iters = [].
Proof.
  induction inits as [|x inits IH]; intros [|t iters] H; cbn [carried_by]; auto. cbn [In] in H. rewrite veqb_false by (intros ->; tauto). apply IH; tauto.
Qed.
Lemma carried_by_once a inits : forall iters,
  length inits = length iters -> (forall i j, nth_error inits i = Some a -> nth_error inits j = Some a -> i = j) -> In a inits ->
  exists j t, nth_error inits j = Some a /\ nth_error iters j = Some t /\ carried_by a inits iters = [t].
Proof.
  induction inits as [|x inits IH]; intros [|t iters] L H Hi; cbn [In length] in *; try tauto; try discriminate L. cbn [carried_by].
  destruct (veqb_spec x a) as [->|N].
  - exists 0, t. cbn [nth_error]. repeat split. rewrite carried_by_none; auto. intro Hi'. apply In_nth_error in Hi'. destruct Hi' as (i & Hi').
    specialize (H 0 (S i) eq_refl Hi'). discriminate H.
  - destruct Hi as [|Hi]; [congruence|]. destruct (IH iters) as (j & t' & H1 & H2 & H3); auto.
    { intros i j Hi' Hj'. specialize (H (S i) (S j) Hi' Hj'). congruence. }
    exists (S j), t'. auto.
Qed.
Lemma flat_map_single {A B} (f : A -> list B) g l : (forall p, In p l -> f p = [g p]) -> flat_map f l = map g l.
Proof. induction l as [|p l IH]; intro H; cbn [flat_map map]; auto. rewrite (H p (or_introl eq_refl)), IH; auto. intros q Hq. apply H; right; auto. Qed.
Lemma NoDup_concealed lift next l : NoDup (map (fun p : nat * val * val => snd p) (concealed_inits lift next l)).
Proof.
  unfold concealed_inits. generalize 0 as s, (length l) as n. induction l as [|x l IH]; intros s n; destruct n as [|n]; cbn [seq combine flat_map map]; try constructor.
  rewrite map_app. apply NoDup_app_iff. split; [|split; [apply IH|]].
  - cbn [fst snd]. destruct (_ && _); cbn [map snd]; repeat constructor; auto.
  - intros v Hv H. cbn [fst snd] in Hv.
    assert (Hs : snd v = next + s) by (destruct (public x && flag lift s); [destruct Hv as [<-|[]]; auto | destruct Hv]).
    apply in_map_iff in H. destruct H as (p & <- & H). apply in_flat_map in H. destruct H as ([j y] & H1 & H2). apply in_combine_l in H1. apply in_seq in H1. cbn [fst snd] in H2.
    destruct (public y && flag lift j); [|destruct H2]. destruct H2 as [<-|[]]. cbn [snd] in *. lia.
Qed.
(** replacing once more *)
Lemma sub_subst (R R1 : val -> val -> Prop) m : (forall v v', R1 v v' -> R v (look m v')) -> forall o o', sub R1 o o' -> sub R o (subst m o').
Proof.
  intro HR.
  assert (Hv : forall xs xs', Forall2 R1 xs xs' -> Forall2 R xs (map (look m) xs')) by (induction 1; cbn [map]; constructor; auto).
  assert (Hs : forall l, Forall (fun o => forall o', sub R1 o o' -> sub R o (subst m o')) l -> forall l', subs R1 l l' -> subs R l (map (subst m) l')).
  { induction 1 as [|o l Ho Hl IH]; intros [|o' l'] H; cbn [subs map] in *; try tauto. destruct H; split; auto. }
  induction o as [n xs rs | r x | r x | ins args body ys outs IH | c inits iv iters body ys rs IH | c thn tys els eys rs IHt IHe] using op_ind2;
    intros o' H; destruct o'; try (cbn in H; tauto); cbn [subst]; rewrite ?sub_generic, ?sub_for, ?sub_if in *; try (cbn [sub] in *; intuition auto; fail); intuition auto.
Qed.
Lemma subs_substs (R R1 : val -> val -> Prop) m l : (forall v v', R1 v v' -> R v (look m v')) -> forall l', subs R1 l l' -> subs R l (map (subst m) l').
Proof.
  intro HR. induction l as [|o l IH]; intros [|o' l'] H; cbn [subs map] in *; try tauto. destruct H; split; auto. eapply sub_subst; eauto.
Qed.
