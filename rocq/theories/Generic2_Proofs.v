(** When the replacement of operations of a block preserves what the block computes. *)
From Coq Require Import List Bool Arith Lia FinFun.
From Verif Require Import Generic_Spec Generic_Model Generic_Proofs.
Import ListNotations.

(** * Lists *)
Lemma NoDup_app_iff {A} (a b : list A) : NoDup (a ++ b) <-> NoDup a /\ NoDup b /\ (forall x, In x a -> ~ In x b).
Proof.
  induction a as [|x a IH]; cbn [app].
  - split; [intro; repeat split; auto using NoDup_nil | tauto].
  - rewrite !NoDup_cons_iff, IH, in_app_iff. cbn [In]. split.
    + intros (Hx & Ha & Hb & H). repeat split; auto. intros y [<- | Hy]; auto.
    + intros ((Hx & Ha) & Hb & H). repeat split; auto. intros [?|?]; [tauto | eapply H; eauto].
Qed.
Lemma In_fresh v s n k : In v (fresh s n k) <-> fst v = s /\ n <= snd v < n + k.
Proof.
  unfold fresh. rewrite in_map_iff. split.
  - intros (i & <- & H). apply in_seq in H. cbn [fst snd]. split; [auto | lia].
  - destruct v as [s' j]; cbn [fst snd]. intros (-> & H). exists (j - n). split; [f_equal; lia | apply in_seq; lia].
Qed.
Lemma NoDup_fresh s n k : NoDup (fresh s n k).
Proof. unfold fresh. apply Injective_map_NoDup; [| apply seq_NoDup]. intros a b H; injection H; lia. Qed.
Lemma length_fresh s n k : length (fresh s n k) = k.
Proof. unfold fresh. rewrite map_length, seq_length; auto. Qed.

Lemma look_notin m v : ~ In v (map fst m) -> look m v = v.
Proof.
  intro H. unfold look. destruct (find _ m) as [p|] eqn:E; auto.
  apply find_some in E. destruct E as [Hi E]. destruct (veqb_spec v (fst p)); try discriminate.
  subst. exfalso; apply H, in_map; auto.
Qed.
Lemma look_in m v : In v (map fst m) -> In (v, look m v) m.
Proof.
  intro H. unfold look. destruct (find _ m) as [p|] eqn:E.
  - apply find_some in E. destruct E as [Hi E]. destruct (veqb_spec v (fst p)); try discriminate. subst. destruct p; auto.
  - apply in_map_iff in H. destruct H as (p & <- & Hp). eapply find_none in E; eauto. cbv beta in E. rewrite veqb_refl in E; discriminate.
Qed.
Lemma look_cases m v : look m v = v \/ In (v, look m v) m.
Proof. destruct (in_dec val_dec v (map fst m)); [right; apply look_in | left; apply look_notin]; auto. Qed.
Lemma map_fst_combine {A B} (a : list A) (b : list B) : length a = length b -> map fst (combine a b) = a.
Proof. revert b; induction a as [|x a IH]; intros [|y b]; cbn; try congruence. intro; f_equal; auto. Qed.
Lemma map_snd_combine {A B} (a : list A) (b : list B) : length a = length b -> map snd (combine a b) = b.
Proof. revert b; induction a as [|x a IH]; intros [|y b]; cbn; try congruence. intro; f_equal; auto. Qed.
Lemma look_combine_nth xs zs i x z :
  NoDup xs -> nth_error xs i = Some x -> nth_error zs i = Some z -> look (combine xs zs) x = z.
Proof.
  revert zs i; induction xs as [|a xs IH]; intros [|b zs] [|i] ND; cbn [nth_error]; try discriminate.
  - intros H1 H2. injection H1 as ->; injection H2 as ->. unfold look; cbn [combine find fst]. rewrite veqb_refl; auto.
  - intros H1 H2. apply NoDup_cons_iff in ND. unfold look; cbn [combine find fst].
    rewrite veqb_false; [apply (IH zs i); tauto |]. intros ->. apply nth_error_In in H1; tauto.
Qed.
Lemma In_nth_error_iff {A} (x : A) l : In x l <-> exists i, nth_error l i = Some x.
Proof. split; [apply In_nth_error | intros (i & H); eapply nth_error_In; eauto]. Qed.
Lemma nth_error_same_length {A B} (l : list A) (l' : list B) i x :
  length l = length l' -> nth_error l i = Some x -> exists y, nth_error l' i = Some y.
Proof.
  intros H E. destruct (nth_error l' i) eqn:E'; [eauto|]. apply nth_error_None in E'.
  assert (i < length l) by (apply nth_error_Some; congruence). lia.
Qed.

(** * Replacement *)
Lemma defs_subst m o : defs (subst m o) = defs o.
Proof.
  assert (Hm : forall l, Forall (fun o => defs (subst m o) = defs o) l -> flat_map defs (map (subst m) l) = flat_map defs l).
  { induction 1 as [|x l Hx Hl IH]; cbn; congruence. }
  induction o using op_ind2; cbn [subst defs]; rewrite ?Hm; auto.
Qed.
Lemma defs_substs m l : flat_map defs (map (subst m) l) = flat_map defs l.
Proof. induction l as [|o l IH]; cbn; rewrite ?defs_subst; congruence. Qed.
Lemma results_subst m o : results (subst m o) = results o.
Proof. destruct o; auto. Qed.
Lemma results_substs m l : flat_map results (map (subst m) l) = flat_map results l.
Proof. induction l as [|o l IH]; cbn; rewrite ?results_subst; congruence. Qed.
Lemma uses_subst m o : uses (subst m o) = map (look m) (uses o).
Proof.
  assert (Hm : forall l, Forall (fun o => uses (subst m o) = map (look m) (uses o)) l -> flat_map uses (map (subst m) l) = map (look m) (flat_map uses l)).
  { induction 1 as [|x l Hx Hl IH]; cbn; rewrite ?map_app; congruence. }
  induction o using op_ind2; cbn [subst uses map]; rewrite ?Hm, ?map_app; auto.
Qed.
Lemma uses_substs m l : flat_map uses (map (subst m) l) = map (look m) (flat_map uses l).
Proof. induction l as [|o l IH]; cbn; rewrite ?uses_subst, ?map_app; congruence. Qed.
Lemma defs_subst_own m o : defs (subst_own m o) = defs o.
Proof.
  assert (Hm : forall l, Forall (fun o => defs (subst_own m o) = defs o) l -> flat_map defs (map (subst_own m) l) = flat_map defs l).
  { induction 1 as [|x l Hx Hl IH]; cbn; congruence. }
  induction o using op_ind2; cbn [subst_own defs]; rewrite ?Hm; auto.
Qed.
Lemma defs_substs_own m l : flat_map defs (map (subst_own m) l) = flat_map defs l.
Proof. induction l as [|o l IH]; cbn; rewrite ?defs_subst_own; congruence. Qed.

Lemma Forall2_map_look (R : val -> val -> Prop) f xs : (forall v, In v xs -> R v (f v)) -> Forall2 R xs (map f xs).
Proof. induction xs as [|x xs IH]; intro H; cbn [map]; constructor; [apply H; left; auto | apply IH; intros; apply H; right; auto]. Qed.
Lemma Forall2_refl_on (R : val -> val -> Prop) xs : (forall v, In v xs -> R v v) -> Forall2 R xs xs.
Proof. intro H. rewrite <- (map_id xs) at 2. apply Forall2_map_look. auto. Qed.
Ltac split_in := intros; cbn [uses In]; rewrite ?in_app_iff; tauto.
Lemma subst_sub (R : val -> val -> Prop) m o : (forall v, In v (uses o) -> R v (look m v)) -> sub R o (subst m o).
Proof.
  assert (Hm : forall l, Forall (fun o => (forall v, In v (uses o) -> R v (look m v)) -> sub R o (subst m o)) l ->
    (forall v, In v (flat_map uses l) -> R v (look m v)) -> subs R l (map (subst m) l)).
  { induction 1 as [|x l Hx Hl IH]; intro H; cbn [map subs]; auto. cbn [flat_map] in H.
    split; [apply Hx | apply IH]; intros; apply H, in_or_app; auto. }
  induction o as [n xs rs | r x | r x | ins args body ys outs IH | c inits iv iters body ys rs IH | c thn tys els eys rs IHt IHe] using op_ind2;
    intro H; cbn [subst].
  - cbn [sub]. repeat split; auto. apply Forall2_map_look; auto.
  - cbn [sub]. split; auto. apply H; left; auto.
  - cbn [sub]. split; auto. apply H; left; auto.
  - rewrite sub_generic. cbn [uses] in H. repeat split; auto; try apply Forall2_map_look; try apply Hm; auto; intros; apply H; rewrite !in_app_iff; auto.
  - rewrite sub_for. cbn [uses] in H. repeat split; auto; try apply Forall2_map_look; try apply Hm; auto; intros; apply H; cbn [In]; rewrite ?in_app_iff; auto.
  - rewrite sub_if. cbn [uses] in H. repeat split; auto; try apply Forall2_map_look; try apply Hm; auto; intros; apply H; cbn [In]; rewrite ?in_app_iff; auto 6.
Qed.
Lemma substs_sub (R : val -> val -> Prop) m l : (forall v, In v (flat_map uses l) -> R v (look m v)) -> subs R l (map (subst m) l).
Proof.
  induction l as [|x l IH]; cbn [flat_map map subs]; auto. intro H.
  split; [apply subst_sub | apply IH]; intros; apply H, in_or_app; auto.
Qed.
Lemma sub_refl (R : val -> val -> Prop) o : (forall v, In v (uses o) -> R v v) -> sub R o o.
Proof.
  assert (Hm : forall l, Forall (fun o => (forall v, In v (uses o) -> R v v) -> sub R o o) l ->
    (forall v, In v (flat_map uses l) -> R v v) -> subs R l l).
  { induction 1 as [|x l Hx Hl IH]; intro H; cbn [map subs]; auto. cbn [flat_map] in H.
    split; [apply Hx | apply IH]; intros; apply H, in_or_app; auto. }
  induction o as [n xs rs | r x | r x | ins args body ys outs IH | c inits iv iters body ys rs IH | c thn tys els eys rs IHt IHe] using op_ind2;
    intro H.
  - cbn [sub]. repeat split; auto. apply Forall2_refl_on; auto.
  - cbn [sub]. split; auto. apply H; left; auto.
  - cbn [sub]. split; auto. apply H; left; auto.
  - rewrite sub_generic. cbn [uses] in H. repeat split; auto; try apply Forall2_refl_on; try apply Hm; auto; intros; apply H; rewrite !in_app_iff; auto.
  - rewrite sub_for. cbn [uses] in H. repeat split; auto; try apply Forall2_refl_on; try apply Hm; auto; intros; apply H; cbn [In]; rewrite ?in_app_iff; auto.
  - rewrite sub_if. cbn [uses] in H. repeat split; auto; try apply Forall2_refl_on; try apply Hm; auto; intros; apply H; cbn [In]; rewrite ?in_app_iff; auto 6.
Qed.
Lemma subs_refl (R : val -> val -> Prop) l : (forall v, In v (flat_map uses l) -> R v v) -> subs R l l.
Proof.
  induction l as [|x l IH]; cbn [flat_map subs]; auto. intro H.
  split; [apply sub_refl | apply IH]; intros; apply H, in_or_app; auto.
Qed.
Lemma subst_own_sub (R : val -> val -> Prop) m o :
  (forall v, In v (uses o) -> R v (look m v)) -> (forall v, In v (uses o) -> R v v) -> sub R o (subst_own m o).
Proof.
  assert (Hm : forall l, Forall (fun o => (forall v, In v (uses o) -> R v (look m v)) -> (forall v, In v (uses o) -> R v v) -> sub R o (subst_own m o)) l ->
    (forall v, In v (flat_map uses l) -> R v (look m v)) -> (forall v, In v (flat_map uses l) -> R v v) -> subs R l (map (subst_own m) l)).
  { induction 1 as [|x l Hx Hl IH]; intros H H'; cbn [map subs]; auto. cbn [flat_map] in H, H'.
    split; [apply Hx | apply IH]; intros; (apply H || apply H'); apply in_or_app; auto. }
  induction o as [n xs rs | r x | r x | ins args body ys outs IH | c inits iv iters body ys rs IH | c thn tys els eys rs IHt IHe] using op_ind2;
    intros H H'; cbn [subst_own].
  - cbn [sub]. repeat split; auto. apply Forall2_map_look; auto.
  - cbn [sub]. split; auto. apply H; left; auto.
  - cbn [sub]. split; auto. apply H; left; auto.
  - rewrite sub_generic. cbn [uses] in H, H'. repeat split; auto.
    + apply Forall2_map_look; intros; apply H; rewrite !in_app_iff; auto.
    + apply subs_refl; intros; apply H'; rewrite !in_app_iff; auto.
    + apply Forall2_refl_on; intros; apply H'; rewrite !in_app_iff; auto.
  - rewrite sub_for. cbn [uses] in H, H'. repeat split; auto; try apply Forall2_map_look; try apply Hm; auto; intros; (apply H || apply H'); cbn [In]; rewrite ?in_app_iff; auto.
  - rewrite sub_if. cbn [uses] in H, H'. repeat split; auto; try apply Forall2_map_look; try apply Hm; auto; intros; (apply H || apply H'); cbn [In]; rewrite ?in_app_iff; auto 6.
Qed.
Lemma substs_own_sub (R : val -> val -> Prop) m l :
  (forall v, In v (flat_map uses l) -> R v (look m v)) -> (forall v, In v (flat_map uses l) -> R v v) -> subs R l (map (subst_own m) l).
Proof.
  induction l as [|x l IH]; cbn [flat_map map subs]; auto. intros H H'.
  split; [apply subst_own_sub | apply IH]; intros; (apply H || apply H'); apply in_or_app; auto.
Qed.
Lemma uses_subst_own m o v : In v (uses (subst_own m o)) -> In v (uses o) \/ exists u, In u (uses o) /\ v = look m u.
Proof.
  assert (Hl : forall xs, In v (map (look m) xs) -> exists u, In u xs /\ v = look m u).
  { intros xs H. apply in_map_iff in H. destruct H as (u & <- & ?). eauto. }
  assert (Hm : forall l, Forall (fun o => In v (uses (subst_own m o)) -> In v (uses o) \/ exists u, In u (uses o) /\ v = look m u) l ->
    In v (flat_map uses (map (subst_own m) l)) -> In v (flat_map uses l) \/ exists u, In u (flat_map uses l) /\ v = look m u).
  { induction 1 as [|x l Hx Hll IH]; cbn [map flat_map]; auto. rewrite !in_app_iff. intros [H|H].
    - destruct (Hx H) as [?|(u & ? & ?)]; [tauto|]. right; exists u; rewrite in_app_iff; auto.
    - destruct (IH H) as [?|(u & ? & ?)]; [tauto|]. right; exists u; rewrite in_app_iff; auto. }
  induction o as [n xs rs | r x | r x | ins args body ys outs IH | c inits iv iters body ys rs IH | c thn tys els eys rs IHt IHe] using op_ind2;
    cbn [subst_own uses In]; rewrite ?in_app_iff.
  - intro H. right. auto.
  - intros [<-|[]]. right; exists x; auto.
  - intros [<-|[]]. right; exists x; auto.
  - intros [H|[H|H]]; auto. right. destruct (Hl _ H) as (u & ? & ?). exists u; rewrite in_app_iff; auto.
  - intros [<-|[H|[H|H]]]; [right; exists c; auto | | |].
    + destruct (Hl _ H) as (u & ? & ?). right; exists u; rewrite !in_app_iff; auto.
    + destruct (Hm _ IH H) as [?|(u & ? & ?)]; [tauto|]. right; exists u; rewrite !in_app_iff; auto.
    + destruct (Hl _ H) as (u & ? & ?). right; exists u; rewrite !in_app_iff; auto.
  - intros [<-|[H|[H|[H|H]]]]; [right; exists c; auto | | | |].
    + destruct (Hm _ IHt H) as [?|(u & ? & ?)]; [tauto|]. right; exists u; rewrite !in_app_iff; auto.
    + destruct (Hl _ H) as (u & ? & ?). right; exists u; rewrite !in_app_iff; auto.
    + destruct (Hm _ IHe H) as [?|(u & ? & ?)]; [tauto|]. right; exists u; rewrite !in_app_iff; auto 6.
    + destruct (Hl _ H) as (u & ? & ?). right; exists u; rewrite !in_app_iff; auto 6.
Qed.

(** * Sound replacements *)
Set Default Proof Using "Type".
Section Sound.
Variable V : Type.
Variable sem : nat -> list V -> option (list V).
Variable trips : V -> nat.
Variable index : nat -> V.
Variable truth : V -> bool.
Notation eval := (eval V sem trips index truth).
Notation run := (run V sem trips index truth).
Notation block := (block V sem trips index truth).
Notation env := (env V).
Notation bind := (bind V).
Notation vals := (vals V).
Notation ssa := (ssa V).

(** [U]: the values read after the operations *)
Record sound (U : val -> Prop) (next next' : nat) (old new : list op) (m : ren) (e : env) : Prop := {
  s_next : next <= next';
  s_nodup : NoDup (flat_map defs new);
  s_defs : forall d, In d (flat_map defs new) -> In d (flat_map defs old) \/ next <= snd d < next';
  s_uses : forall v, In v (flat_map uses new) -> snd v < next';
  s_ren : forall a b, In (a, b) m -> fst a = fst b /\ In a (flat_map results old) /\ snd b < next' /\
            (next <= snd b \/ In b (flat_map results old) \/ e b <> None);
  s_run : forall e1, run old e = Some e1 ->
            exists e1', run new e = Some e1' /\ (forall v w, U v -> e1 v = Some w -> e1' (look m v) = Some w) }.

Lemma ssa_split next l1 l2 zs e e1 : ssa next (l1 ++ l2) zs e -> run l1 e = Some e1 -> ssa next l2 zs e1.
Proof.
  intros (ND & Hd & Hu & He) E. rewrite flat_map_app in *. apply NoDup_app_iff in ND. destruct ND as (N1 & N2 & N12).
  repeat split; auto.
  - intros v Hv. rewrite (run_frame _ _ _ _ _ _ _ _ _ E).
    + apply Hd, in_or_app; auto.
    + intro H. apply results_defs_all in H. eapply N12; eauto.
  - intros v Hv. apply Hu. rewrite flat_map_app, !in_app_iff in *. tauto.
  - intros v Hv. destruct (in_dec val_dec v (flat_map results l1)) as [Hi|Hn].
    + apply Hu. apply results_defs_all in Hi. rewrite !in_app_iff; auto.
    + rewrite (run_frame _ _ _ _ _ _ _ _ _ E) in Hv; auto.
Qed.
Lemma ssa_prefix next l1 l2 zs e : ssa next (l1 ++ l2) zs e -> ssa next l1 [] e.
Proof.
  clear sem trips index truth.
  intros (ND & Hd & Hu & He). rewrite !flat_map_app in *. apply NoDup_app_iff in ND.
  repeat split; try tauto; auto.
  - intros v Hv; apply Hd, in_or_app; auto.
  - intros v Hv. apply Hu. rewrite !in_app_iff in *. cbn [In] in Hv. tauto.
Qed.
Lemma look_bound next' m v : (forall a b, In (a, b) m -> snd b < next') -> snd v < next' -> snd (look m v) < next'.
Proof. intros H Hv. destruct (look_cases m v) as [-> | Hi]; eauto. Qed.

Lemma sound_ssa U next next' pre old new m post zs e e0 :
  ssa next (pre ++ old ++ post) zs e -> sound U next next' old new m e0 ->
  ssa next' (pre ++ new ++ map (subst m) post) (map (look m) zs) e.
Proof.
  intros (ND & Hd & Hu & He) So. destruct So as [Hn Hnd Hdf Hus Hm _].
  rewrite !flat_map_app in *. apply NoDup_app_iff in ND. destruct ND as (N1 & N2 & N12). apply NoDup_app_iff in N2. destruct N2 as (No & Np & Nop).
  assert (Hlt : forall v, In v (flat_map defs pre) \/ In v (flat_map defs old) \/ In v (flat_map defs post) \/ In v (flat_map uses pre) \/ In v (flat_map uses post) \/ In v zs -> snd v < next).
  { intros v H. apply Hu. rewrite !in_app_iff. tauto. }
  assert (Hlk : forall v, snd v < next -> snd (look m v) < next').
  { intros v Hv. apply look_bound; [intros a b H; eapply Hm; eauto | lia]. }
  unfold Generic_Spec.ssa. rewrite !flat_map_app, defs_substs. repeat split.
  - apply NoDup_app_iff. repeat split; auto.
    + apply NoDup_app_iff. repeat split; auto. intros x Hx Hp. destruct (Hdf x Hx) as [H|H]; [eapply Nop; eauto|].
      assert (snd x < next) by (apply Hlt; tauto). lia.
    + intros x Hx. rewrite in_app_iff. intros [H|H].
      * destruct (Hdf x H) as [H'|H']; [eapply N12; eauto; apply in_or_app; auto|]. assert (snd x < next) by (apply Hlt; tauto). lia.
      * eapply N12; eauto. apply in_or_app; auto.
  - intros v Hv. rewrite !in_app_iff in Hv. destruct Hv as [H|[H|H]].
    + apply Hd. rewrite !in_app_iff; auto.
    + destruct (Hdf v H) as [H'|H']; [apply Hd; rewrite !in_app_iff; auto|].
      destruct (e v) eqn:E; auto. assert (snd v < next) by (apply He; congruence). lia.
    + apply Hd. rewrite !in_app_iff; auto.
  - intros v Hv. rewrite uses_substs in Hv. rewrite !in_app_iff, !in_map_iff in Hv.
    destruct Hv as [[H|[H|H]]|[[H|[H|H]]|H]]; try (destruct H as (u & <- & H); apply Hlk); try (apply Nat.lt_le_trans with next; [|lia]; apply Hlt; tauto); try (apply Hlt; tauto).
    + destruct (Hdf v H) as [H'|H']; [|lia]. apply Nat.lt_le_trans with next; [|lia]; apply Hlt; tauto.
    + auto.
  - intros v Hv. apply He in Hv. lia.
Qed.

Theorem sound_block next next' pre old new m post zs e ws :
  ssa next (pre ++ old ++ post) zs e ->
  (forall e0 e1, run pre e = Some e0 -> ssa next old [] e0 -> run old e0 = Some e1 ->
     sound (fun v => In v (flat_map uses post ++ zs)) next next' old new m e0) ->
  block (pre ++ old ++ post) zs e = Some ws ->
  block (pre ++ new ++ map (subst m) post) (map (look m) zs) e = Some ws /\
  ssa next' (pre ++ new ++ map (subst m) post) (map (look m) zs) e.
Proof.
  intros Hssa So E. unfold Generic_Spec.block in *. rewrite (run_app _ _ _ _ _ pre) in *. destruct (run pre e) as [e0|] eqn:E0; try discriminate.
  pose proof (ssa_split _ _ _ _ _ _ Hssa E0) as Hssa0.
  rewrite run_app in E. rewrite run_app. destruct (run old e0) as [e1|] eqn:E1; try discriminate.
  specialize (So e0 e1 eq_refl (ssa_prefix _ _ _ _ _ Hssa0) E1). split; [| eapply sound_ssa; eauto].
  destruct (s_run _ _ _ _ _ _ _ So e1 E1) as (e1' & -> & Hs).
  pose proof (ssa_split _ _ _ _ _ _ Hssa0 E1) as Hssa1.
  destruct (run post e1) as [e2|] eqn:E2; try discriminate.
  set (R := fun v v' => v' = look m v /\ In v (flat_map uses post ++ zs)).
  assert (Ht : typed R).
  { intros v v' (-> & _). destruct (look_cases m v) as [-> | Hi]; auto. eapply s_ren; eauto. }
  destruct Hssa0 as (ND & Hd0 & Hu0 & _). rewrite flat_map_app in ND. apply NoDup_app_iff in ND. destruct ND as (No & Np & Nop).
  assert (Hr : forall d, In d (flat_map defs post) -> forall a b, In (a, b) m -> a <> d /\ b <> d).
  { intros d Hd a b Hi. destruct (s_ren _ _ _ _ _ _ _ So a b Hi) as (_ & Ha & _ & Hb).
    split; intros ->.
    - eapply Nop; eauto using results_defs_all.
    - destruct Hb as [H|[H|H]].
      + assert (snd d < next) by (apply Hu0; rewrite !flat_map_app, !in_app_iff; tauto). lia.
      + eapply Nop; eauto using results_defs_all.
      + apply H, Hd0. rewrite flat_map_app, in_app_iff; auto. }
  assert (Hg : good R (flat_map defs post)).
  { intros v v' d (-> & _) Hd [-> | H].
    - destruct (look_cases m d) as [-> | Hi]; auto. exfalso. destruct (Hr _ Hd _ _ Hi); congruence.
    - destruct (look_cases m v) as [-> | Hi]; auto. exfalso. destruct (Hr _ Hd _ _ Hi); congruence. }
  assert (Hs1 : sim V R e1 e1') by (intros v v' w (-> & Hv) Hw; auto).
  destruct (run_sim V sem trips index truth post R (map (subst m) post) e1 e1' e2 Ht Hg Hs1) as (e2' & -> & Hs2); auto.
  { apply substs_sub. intros v Hv. split; auto. apply in_or_app; auto. }
  eapply sim_vals; eauto. apply Forall2_map_look. intros v Hv. split; auto. apply in_or_app; auto.
Qed.
End Sound.
