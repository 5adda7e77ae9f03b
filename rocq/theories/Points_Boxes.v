(** The box of the domain of a layout is always found by the scan of the constraints. *)
From Coq Require Import ZArith List Bool Lia.
From Verif Require Import NumTheory_Model Rel_Model Rel_Proofs Layout_Spec Layout_Proofs Points_Model Points_Spec Points_Proofs.
Import ListNotations.
Open Scope Z_scope.

Lemma nth_row_last n l k c : (k < n)%nat -> nth k (row n (l ++ [(k, c)])) 0 = c.
Proof.
  intros K. unfold row. rewrite fold_left_app. cbn [fold_left fst snd]. rewrite nth_set, Nat.eqb_refl; [easy|].
  assert (G : forall e, length (fold_left (fun e pc => set e (fst pc) (snd pc)) l e) = length e); [|now rewrite G, repeat_length].
  induction l as [|a l IH]; intros e; cbn; [easy|]. now rewrite IH, set_length.
Qed.
Lemma nth_row_other n l k : ~ In k (map fst l) -> nth k (row n l) 0 = 0.
Proof.
  intros N. unfold row.
  assert (G : forall e, nth k (fold_left (fun e pc => set e (fst pc) (snd pc)) l e) 0 = nth k e 0).
  { induction l as [|(p, c) l IH]; intros e; cbn in *; [easy|]. rewrite IH by tauto.
    assert (S : forall (e : list Z) p k, p <> k -> nth k (set e p c) 0 = nth k e 0).
    { clear. induction e as [|a e IH]; intros [|p] [|k] N; cbn; auto; try easy. }
    apply S. tauto. }
  rewrite G. apply nth_repeat.
Qed.

Definition has_lower (r : rel) (i : nat) : Prop := exists e a, In e (ineqs r) /\ single r e = Some (i, a) /\ 0 < a /\ min64 < - (constant r e / a).
Definition has_upper (r : rel) (i : nat) : Prop := exists e a, In e (ineqs r) /\ single r e = Some (i, a) /\ a <= 0 /\ constant r e / - a < max64.
Definition deep (r : rel) (e : list Z) : Prop := exists k, (nd r <= k < local_end r)%nat /\ nth k e 0 <> 0.
Definition solid (r : rel) : Prop := fits r /\ Forall (deep r) (eqs r).
Definition keeps (r r' : rel) : Prop :=
  solid r -> solid r' /\ nd r' = nd r /\ nr r' = nr r /\ (forall i, has_lower r i -> has_lower r' i) /\ (forall i, has_upper r i -> has_upper r' i).

Lemma nth_firstn (l : list Z) : forall n k, (k < n)%nat -> nth k (firstn n l) 0 = nth k l 0.
Proof. induction l as [|a l IH]; intros [|n] [|k] K; cbn; auto; try lia. apply IH. lia. Qed.
Lemma single_deep r e : length e = cols r -> deep r e -> single r e = None.
Proof.
  intros L (k & K & N). unfold single.
  pose proof (nonzeros_in (firstn (local_end r) e) 0 k) as H. rewrite firstn_length, L in H. rewrite nth_firstn in H by lia. specialize (H ltac:(unfold cols, local_end in *; lia) N).
  destruct (nonzeros _ _) as [|(v, a) [|]]; try easy. destruct H as [E|[]]. injection E as E1 E2. destruct (Nat.ltb_spec v (nd r)); [lia|reflexivity].
Qed.
Lemma scan_low r l : forall b i, (forall v a e, In e l -> single r e = Some (v, a) -> (v < length (fst b))%nat) -> (i < length (fst b))%nat ->
  nth i (fst b) 0 <= nth i (fst (fold_left (scan_ineq r) l b)) 0 /\
  (forall e a, In e l -> single r e = Some (i, a) -> 0 < a -> - (constant r e / a) <= nth i (fst (fold_left (scan_ineq r) l b)) 0) /\
  length (fst (fold_left (scan_ineq r) l b)) = length (fst b).
Proof.
  induction l as [|e l IH]; intros (lb, ub) i V I; cbn [fold_left].
  - splits; [cbn; lia|easy].
  - cbn [fst] in *. destruct (single r e) as [(v, a)|] eqn:S.
    + assert (Vv : (v < length lb)%nat) by (apply (V v a e); auto; now left).
      destruct (IH (scan_ineq r (lb, ub) e) i) as (A & B & C).
      { intros v' a' e' E'. cbn [scan_ineq]. rewrite S. destruct (0 <? a); cbn [fst]; rewrite ?set_length; intros; apply (V v' a' e'); auto; now right. }
      { cbn [scan_ineq]. rewrite S. destruct (0 <? a); cbn [fst]; now rewrite ?set_length. }
      cbn [scan_ineq] in *. rewrite S in *. destruct (Z.ltb_spec 0 a) as [P|P]; cbn [fst] in *; rewrite ?set_length in *.
      * splits.
        -- rewrite nth_set in A by easy. destruct (Nat.eqb_spec i v) as [->|]; lia.
        -- intros e' a' [->|I'] S' P'; [|now apply B]. rewrite S in S'. injection S' as -> ->. rewrite nth_set, Nat.eqb_refl in A by easy. lia.
      * splits. intros e' a' [->|I'] S' P'; [|now apply B]. rewrite S in S'. injection S' as -> ->. lia.
    + destruct (IH (lb, ub) i) as (A & B & C); [intros v' a' e' E'; apply V; now right|easy|]. cbn [scan_ineq]. rewrite S. splits.
      intros e' a' [->|I'] S' P'; [congruence|now apply B].
Qed.
Lemma scan_upp r l : forall b i, (forall v a e, In e l -> single r e = Some (v, a) -> (v < length (snd b))%nat) -> (i < length (snd b))%nat ->
  nth i (snd (fold_left (scan_ineq r) l b)) 0 <= nth i (snd b) 0 /\
  (forall e a, In e l -> single r e = Some (i, a) -> a <= 0 -> nth i (snd (fold_left (scan_ineq r) l b)) 0 <= constant r e / - a) /\
  length (snd (fold_left (scan_ineq r) l b)) = length (snd b).
Proof.
  induction l as [|e l IH]; intros (lb, ub) i V I; cbn [fold_left].
  - splits; [cbn; lia|easy].
  - cbn [snd] in *. destruct (single r e) as [(v, a)|] eqn:S.
    + assert (Vv : (v < length ub)%nat) by (apply (V v a e); auto; now left).
      destruct (IH (scan_ineq r (lb, ub) e) i) as (A & B & C).
      { intros v' a' e' E'. cbn [scan_ineq]. rewrite S. destruct (0 <? a); cbn [snd]; rewrite ?set_length; intros; apply (V v' a' e'); auto; now right. }
      { cbn [scan_ineq]. rewrite S. destruct (0 <? a); cbn [snd]; now rewrite ?set_length. }
      cbn [scan_ineq] in *. rewrite S in *. destruct (Z.ltb_spec 0 a) as [P|P]; cbn [snd] in *; rewrite ?set_length in *.
      * splits. intros e' a' [->|I'] S' P'; [|now apply B]. rewrite S in S'. injection S' as -> ->. lia.
      * splits.
        -- rewrite nth_set in A by easy. destruct (Nat.eqb_spec i v) as [->|]; lia.
        -- intros e' a' [->|I'] S' P'; [|now apply B]. rewrite S in S'. injection S' as -> ->. rewrite nth_set, Nat.eqb_refl in A by easy. lia.
    + destruct (IH (lb, ub) i) as (A & B & C); [intros v' a' e' E'; apply V; now right|easy|]. cbn [scan_ineq]. rewrite S. splits.
      intros e' a' [->|I'] S' P'; [congruence|now apply B].
Qed.
Lemma single_dom r e v a : single r e = Some (v, a) -> (v < nd r)%nat.
Proof. unfold single. destruct (nonzeros _ _) as [|(v', a') [|]]; try discriminate. destruct (Nat.ltb_spec v' (nd r)); [|discriminate]. now intros [= <- <-]. Qed.
Lemma scan_eqs_none r l : forall b, Forall (fun e => single r e = None) l -> scan_eqs r l b = Some b.
Proof. induction l as [|e l IH]; intros b F; [easy|]. inversion F; subst. cbn. rewrite H1. now apply IH. Qed.
Lemma resolve_id bound s l : forall i, Forall (fun b => b <> s) l -> resolve bound s i l = Some l.
Proof. induction l as [|b l IH]; intros i F; [easy|]. inversion F; subst. cbn. destruct (Z.eqb_spec b s); [easy|]. now rewrite IH. Qed.
Lemma box_found r lower upper : solid r -> (forall i, (i < nd r)%nat -> has_lower r i /\ has_upper r i) -> exists b, domain_box r lower upper = Some b.
Proof.
  intros (F & D) H. unfold domain_box.
  set (b0 := (repeat min64 (nd r), repeat max64 (nd r))).
  assert (Lo : forall i, (i < nd r)%nat -> nth i (fst (fold_left (scan_ineq r) (ineqs r) b0)) 0 <> min64 /\ nth i (snd (fold_left (scan_ineq r) (ineqs r) b0)) 0 <> max64).
  { intros i I. destruct (H i I) as ((e & a & E & S & P & Q) & (e' & a' & E' & S' & P' & Q')).
    destruct (scan_low r (ineqs r) b0 i) as (_ & A & _).
    { intros v c f _ X. cbn. rewrite repeat_length. now apply (single_dom r f v c). }
    { cbn. now rewrite repeat_length. }
    destruct (scan_upp r (ineqs r) b0 i) as (_ & B & _).
    { intros v c f _ X. cbn [snd b0]. rewrite repeat_length. now apply (single_dom r f v c). }
    { cbn [snd b0]. now rewrite repeat_length. }
    specialize (A e a E S P). specialize (B e' a' E' S' P'). lia. }
  assert (Le : length (fst (fold_left (scan_ineq r) (ineqs r) b0)) = nd r /\ length (snd (fold_left (scan_ineq r) (ineqs r) b0)) = nd r).
  { assert (G : forall l b, length (fst (fold_left (scan_ineq r) l b)) = length (fst b) /\ length (snd (fold_left (scan_ineq r) l b)) = length (snd b)).
    { induction l as [|e l IH]; intros b; cbn [fold_left]; [easy|]. destruct (IH (scan_ineq r b e)) as (-> & ->). destruct b as (lb, ub). cbn [scan_ineq].
      destruct (single r e) as [(v, a)|]; [|easy]. destruct (0 <? a); cbn [fst snd]; now rewrite ?set_length. }
    destruct (G (ineqs r) b0) as (-> & ->). cbn [fst snd b0]. now rewrite !repeat_length. }
  destruct (fold_left (scan_ineq r) (ineqs r) b0) as (lb, ub). cbn [fst snd] in *.
  rewrite scan_eqs_none.
  - rewrite !resolve_id; [eauto| |]; apply Forall_forall; intros x X; apply (In_nth _ _ 0) in X as (i & I & <-); apply Lo; lia.
  - rewrite Forall_forall in D. apply Forall_forall. intros e E. apply single_deep; [|now apply D]. destruct F as (F & _). rewrite Forall_forall in F. now apply F.
Qed.

(** * The constructions keep the bounds *)
Lemma keeps_refl r : keeps r r. Proof. intros S. splits. Qed.
Lemma keeps_trans r1 r2 r3 : keeps r1 r2 -> keeps r2 r3 -> keeps r1 r3.
Proof. intros A B S. destruct (A S) as (A1 & A2 & A3 & A4 & A5). destruct (B A1) as (B1 & B2 & B3 & B4 & B5). splits; congruence. Qed.
Lemma keeps_ineq r e : length e = cols r -> keeps r (add_ineq r e).
Proof.
  intros L (F & D). splits; [|intros i (f & a & I & Q)|intros i (f & a & I & Q)].
  - split; [now apply fits_ineq|exact D].
  - exists f, a. split; [cbn; apply in_or_app; now left|exact Q].
  - exists f, a. split; [cbn; apply in_or_app; now left|exact Q].
Qed.
Lemma keeps_eq r e : length e = cols r -> deep r e -> keeps r (add_eq r e).
Proof.
  intros L De (F & D). splits. split; [now apply fits_eq|]. cbn. apply Forall_app. split; [exact D|]. constructor; [exact De|constructor].
Qed.
Lemma widen_single r e v a : length e = cols r -> single r e = Some (v, a) ->
  single (append_local r) (widen (local_end r) 1 e) = Some (v, a) /\ constant (append_local r) (widen (local_end r) 1 e) = constant r e.
Proof.
  intros L Sg. assert (Lc : cols r = S (local_end r)) by (unfold cols, local_end; lia).
  assert (Lf : length (firstn (local_end r) e) = local_end r) by (rewrite firstn_length; lia). split.
  - unfold single in *. replace (local_end (append_local r)) with (local_end r + 1)%nat by (unfold local_end; cbn; lia).
    unfold widen. rewrite app_assoc, firstn_app. rewrite (firstn_all2 (firstn (local_end r) e ++ repeat 0 1)) by (rewrite app_length, repeat_length; lia).
    rewrite app_length, repeat_length, Lf. replace (_ - _)%nat with 0%nat by lia. rewrite firstn_O, app_nil_r.
    assert (N : forall l j, nonzeros j (l ++ repeat 0 1) = nonzeros j l).
    { induction l as [|b l IH]; intros j; cbn [app nonzeros]; [reflexivity|]. now rewrite IH. }
    rewrite N. exact Sg.
  - unfold constant. replace (cols (append_local r) - 1)%nat with (local_end r + 1)%nat by (unfold cols, local_end; cbn; lia). rewrite Lc. replace (S (local_end r) - 1)%nat with (local_end r) by lia.
    unfold widen. rewrite app_nth2 by lia. rewrite app_nth2 by (rewrite repeat_length; lia). rewrite repeat_length, Lf. replace (_ - _ - _)%nat with 0%nat by lia.
    rewrite <- (firstn_skipn (local_end r) e) at 2. rewrite app_nth2 by lia. rewrite Lf, Nat.sub_diag. reflexivity.
Qed.
Lemma keeps_local r : keeps r (append_local r).
Proof.
  intros (F & D). pose proof F as (F1 & F2). rewrite Forall_forall in F1, F2. splits.
  - split; [now apply fits_local|]. cbn. rewrite Forall_map. rewrite Forall_forall in D |- *. intros e E. destruct (D e E) as (k & K & N). exists k.
    split; [unfold local_end in *; cbn; lia|]. unfold widen. rewrite app_nth1 by (rewrite firstn_length, (F1 e E); unfold cols, local_end in *; lia). rewrite nth_firstn by lia. exact N.
  - intros i (e & a & E & S & P). destruct (widen_single r e i a (F2 e E) S) as (A & B). exists (widen (local_end r) 1 e), a. rewrite B. splits; try apply P. cbn. now apply in_map.
  - intros i (e & a & E & S & P). destruct (widen_single r e i a (F2 e E) S) as (A & B). exists (widen (local_end r) 1 e), a. rewrite B. splits; try apply P. cbn. now apply in_map.
Qed.
Lemma keeps_bounds r p lo up : keeps r (add_bounds r p lo up).
Proof.
  unfold add_bounds, lower_bound, upper_bound. destruct up.
  - eapply keeps_trans; apply keeps_ineq; apply row_length.
  - apply keeps_ineq. apply row_length.
Qed.
Lemma keeps_lower r p v : keeps r (lower_bound r p v). Proof. apply keeps_ineq, row_length. Qed.
Lemma keeps_upper r p v : keeps r (upper_bound r p v). Proof. apply keeps_ineq, row_length. Qed.
Lemma keeps_bound_all sizes : forall r p, keeps r (bound_all r p sizes).
Proof. induction sizes as [|s sizes IH]; intros r p; cbn [bound_all]; [apply keeps_refl|]. eapply keeps_trans; [apply keeps_bounds|apply IH]. Qed.
Lemma keeps_floor r e m : length e = cols r -> keeps r (add_floor_div r e m).
Proof.
  intros L. unfold add_floor_div. eapply keeps_trans; [apply keeps_local|]. eapply keeps_trans; apply keeps_ineq.
  - rewrite set_length, widen_length, L. unfold append_local, widen_all, cols. cbn. lia.
  - rewrite !set_length, map_length, widen_length, L. unfold append_local, widen_all, cols. cbn. lia.
Qed.
Lemma keeps_mod r e m : length e = cols r -> keeps r (fst (add_mod r e m)).
Proof.
  intros L. unfold add_mod. cbn [fst]. eapply keeps_trans; [apply keeps_floor, L|]. eapply keeps_trans; [apply keeps_local|].
  set (r1 := append_local (add_floor_div r e m)).
  assert (X : length (firstn (local_at r1) e ++ repeat 0 (cols r1 - local_at r1)) = cols r1).
  { rewrite app_length, firstn_length, repeat_length, L. unfold r1, append_local, add_floor_div, widen_all, cols, local_at. cbn. lia. }
  apply keeps_eq; [now rewrite !set_length|]. exists (local_end r1 - 1)%nat. split.
  - unfold local_end, r1. cbn. lia.
  - rewrite nth_set, Nat.eqb_refl; [lia|]. rewrite !set_length, X. unfold cols, local_end. lia.
Qed.
Lemma keeps_constraint r l k c : (nd r <= k < local_end r)%nat -> c <> 0 -> keeps r (add_constraint r (l ++ [(k, c)]) true).
Proof.
  intros K C. apply keeps_eq; [apply row_length|]. exists k. split; [easy|]. rewrite nth_row_last; [easy|]. unfold cols, local_end in *. lia.
Qed.
Lemma keeps_swap r p q a b : (nd r <= p < local_end r)%nat -> a <> 0 -> p <> q -> keeps r (add_constraint r [(p, a); (q, b)] true).
Proof.
  intros K C N. apply keeps_eq; [apply row_length|]. exists p. split; [easy|]. unfold row. cbn [fold_left fst snd].
  destruct (Nat.lt_ge_cases q (cols r)) as [Q|Q].
  - rewrite nth_set by (now rewrite set_length, repeat_length). destruct (Nat.eqb_spec p q); [easy|]. rewrite nth_set, Nat.eqb_refl; [easy|]. rewrite repeat_length. unfold cols, local_end in *. lia.
  - assert (S : forall (e : list Z) q, (length e <= q)%nat -> set e q b = e) by (induction e as [|x e IH]; intros [|q'] H; cbn in *; auto; try lia; rewrite IH; auto; lia).
    rewrite S by (now rewrite set_length, repeat_length). rewrite nth_set, Nat.eqb_refl; [easy|]. rewrite repeat_length. unfold cols, local_end in *. lia.
Qed.
Lemma keeps_mod_eq r l m v : keeps r (add_mod_eq r l m v).
Proof.
  unfold add_mod_eq. destruct (add_mod r (row (cols r) l) m) as [r1 p] eqn:E. pose proof (keeps_mod r (row (cols r) l) m (row_length _ _)) as K.
  destruct (shape_mod r (row (cols r) l) m) as (Sd & Sr & Sl & Sp). rewrite E in *. cbn [fst snd] in *. eapply keeps_trans; [exact K|].
  apply (keeps_constraint r1 [(v, 1)]); [|lia]. assert (P : p = (local_end r1 - 1)%nat) by (unfold add_mod in E; now injection E as <- <-). unfold local_end in *. lia.
Qed.
(** bounds of a variable of the domain *)
Lemma nonzeros_one l v a : forall j, (j <= v < j + length l)%nat -> a <> 0 -> nth (v - j) l 0 = a -> (forall k, (k < length l)%nat -> (k + j)%nat <> v -> nth k l 0 = 0) -> nonzeros j l = [(v, a)].
Proof.
  induction l as [|b l IH]; intros j J A N Z0; [cbn in J; lia|]. cbn [nonzeros length] in *. destruct (Nat.eq_dec j v) as [->|D].
  - rewrite Nat.sub_diag in N. cbn in N. subst b. destruct (Z.eqb_spec a 0); [easy|]. f_equal.
    assert (G : forall l j, (forall k, (k < length l)%nat -> nth k l 0 = 0) -> nonzeros j l = []).
    { clear. induction l as [|b l IH]; intros j H; [easy|]. cbn. pose proof (H 0%nat ltac:(cbn; lia)) as B. cbn in B. subst b. cbn. apply IH. intros k K. apply (H (S k)). cbn; lia. }
    apply G. intros k K. apply (Z0 (S k)); lia.
  - pose proof (Z0 0%nat ltac:(lia) ltac:(lia)) as B. cbn in B. subst b. cbn. apply IH; auto; [lia| |].
    + replace (v - j)%nat with (S (v - S j)) in N by lia. exact N.
    + intros k K W. apply (Z0 (S k)); lia.
Qed.
Lemma single_bound r p a c : (p < nd r)%nat -> a <> 0 ->
  single r (row (cols r) [(p, a); ((cols r - 1)%nat, c)]) = Some (p, a) /\ constant r (row (cols r) [(p, a); ((cols r - 1)%nat, c)]) = c.
Proof.
  intros P A. assert (Lc : cols r = S (local_end r)) by (unfold cols, local_end; lia). assert (Pe : (p < local_end r)%nat) by (unfold local_end; lia). split.
  - unfold single. rewrite (nonzeros_one _ p a).
    + destruct (Nat.ltb_spec p (nd r)); [easy|lia].
    + rewrite firstn_length, row_length. lia.
    + exact A.
    + rewrite Nat.sub_0_r, nth_firstn by lia. unfold row. cbn [fold_left fst snd]. rewrite nth_set by (rewrite set_length, repeat_length; lia).
      destruct (Nat.eqb_spec p (cols r - 1)); [lia|]. rewrite nth_set, Nat.eqb_refl by (rewrite repeat_length; lia). easy.
    + intros k K W. rewrite firstn_length, row_length in K. rewrite nth_firstn by lia. apply nth_row_other. cbn. lia.
  - unfold constant. apply (nth_row_last _ [(p, a)]). lia.
Qed.
Lemma bounds_found r p u : (p < nd r)%nat -> u < max64 -> has_lower (add_bounds r p 0 (Some u)) p /\ has_upper (add_bounds r p 0 (Some u)) p.
Proof.
  intros P U. unfold add_bounds. split.
  - destruct (single_bound r p 1 (- 0) P ltac:(lia)) as (A & B). exists (row (cols r) [(p, 1); ((cols r - 1)%nat, - 0)]), 1. split; [cbn; apply in_or_app; left; apply in_or_app; right; now left|]. split; [exact A|]. split; [lia|].
    change (min64 < - (constant r (row (cols r) [(p, 1); ((cols r - 1)%nat, - 0)]) / 1)). rewrite B. reflexivity.
  - destruct (single_bound r p (-1) u P ltac:(lia)) as (A & B). exists (row (cols r) [(p, -1); ((cols r - 1)%nat, u)]), (-1). split; [cbn; apply in_or_app; right; now left|]. split; [exact A|]. split; [lia|].
    change (constant r (row (cols r) [(p, -1); ((cols r - 1)%nat, u)]) / 1 < max64). rewrite B. now rewrite Z.div_1_r.
Qed.
Lemma all_found sizes : forall r p, solid r -> (p + length sizes <= nd r)%nat -> Forall (fun s => s <= max64) sizes ->
  forall i, (p <= i < p + length sizes)%nat -> has_lower (bound_all r p sizes) i /\ has_upper (bound_all r p sizes) i.
Proof.
  induction sizes as [|s sizes IH]; intros r p So L F i I; [cbn in I; lia|]. inversion F; subst. cbn [bound_all length] in *.
  destruct (keeps_bounds r p 0 (Some (s - 1)) So) as (S' & D & _). destruct (Nat.eq_dec i p) as [->|N].
  - destruct (bounds_found r p (s - 1)) as (A & B); [lia|lia|]. destruct (keeps_bound_all sizes (add_bounds r p 0 (Some (s - 1))) (S p) S') as (_ & _ & _ & K1 & K2). auto.
  - apply IH; auto; lia.
Qed.
Lemma solid_space a b c : solid (space a b c).
Proof. split; [apply fits_space|constructor]. Qed.

(** * The layouts *)
Definition ready (n : nat) (r : rel) : Prop := solid r /\ nd r = n /\ nr r = 2%nat /\ forall i, (i < n)%nat -> has_lower r i /\ has_upper r i.
Lemma ready_keeps n r r' : ready n r -> keeps r r' -> ready n r'.
Proof.
  intros (S & D & R & H) K. destruct (K S) as (S' & D' & R' & L & U). split; [easy|]. split; [congruence|]. split; [congruence|]. intros i I. destruct (H i I). auto.
Qed.
Lemma ready_all shape : Forall (fun s => s <= max64) shape -> ready (length shape) (bound_all (space (length shape) 2 0) 0 shape).
Proof.
  intros F. destruct (keeps_bound_all shape (space (length shape) 2 0) 0 (solid_space _ _ _)) as (S & D & R & _). split; [easy|]. split; [easy|]. split; [easy|].
  intros i I. apply all_found; [apply solid_space|cbn; lia|auto|lia].
Qed.
Lemma local_end_nd r : (nd r + nr r <= local_end r)%nat. Proof. unfold local_end. lia. Qed.
Ltac keep :=
  match goal with
  | |- ready _ (add_mod_eq _ _ _ _) => eapply ready_keeps; [|apply keeps_mod_eq]
  | |- ready _ (add_bounds _ _ _ _) => eapply ready_keeps; [|apply keeps_bounds]
  | |- ready _ (lower_bound _ _ _) => eapply ready_keeps; [|apply keeps_lower]
  | |- ready _ (upper_bound _ _ _) => eapply ready_keeps; [|apply keeps_upper]
  end.
Lemma ready_row_major shape slots : Forall (fun s => s <= max64) shape -> ready (length shape) (row_major shape slots).
Proof.
  intros F. unfold row_major. set (r0 := bound_all _ _ _). set (r1 := add_bounds r0 _ _ _). set (r2 := add_bounds r1 _ _ _).
  set (c := fst (row_major_coeffs shape) ++ repeat 0 3).
  assert (Q0 : ready (length shape) r0) by (now apply ready_all). assert (Q2 : ready (length shape) r2) by (unfold r2, r1; keep; keep; exact Q0).
  assert (Lc : length c = cols r2).
  { unfold c. rewrite app_length, repeat_length. replace (length (fst (row_major_coeffs shape))) with (length shape).
    - destruct (dims_bound_all shape (space (length shape) 2 0) 0) as (A & B & C). change (cols r2) with (cols r0). unfold cols. fold r0 in A, B, C. rewrite A, B, C. cbn. lia.
    - clear. induction shape as [|s shape IH]; [easy|]. cbn. destruct (row_major_coeffs shape). cbn in *. now f_equal. }
  set (r3 := add_floor_div r2 c slots). assert (Q3 : ready (length shape) r3) by (eapply ready_keeps; [exact Q2|]; now apply keeps_floor).
  set (r4 := add_constraint r3 _ true).
  assert (Q4 : ready (length shape) r4).
  { eapply ready_keeps; [exact Q3|]. apply keeps_swap; [|lia|]; destruct Q3 as (_ & D & R & _); unfold range_at, local_end.
    - lia.
    - assert (nl r3 = S (nl r2)) by (unfold r3; cbn; lia). lia. }
  assert (L4 : length (c ++ repeat 0 (cols r4 - length c)) = cols r4).
  { rewrite app_length, repeat_length. assert (cols r4 = S (cols r2)) by (unfold r4, r3, cols; cbn; lia). lia. }
  pose proof (keeps_mod r4 _ slots L4) as K5. pose proof (shape_mod r4 (c ++ repeat 0 (cols r4 - length c)) slots) as S5.
  destruct (add_mod r4 (c ++ repeat 0 (cols r4 - length c)) slots) as [r5 rhs] eqn:E5. cbn [fst snd] in *.
  assert (Q5 : ready (length shape) r5) by (eapply ready_keeps; eauto).
  pose proof (keeps_mod r5 (row (cols r5) [((range_at r5 + 1)%nat, 1)]) (padded (elements shape)) (row_length _ _)) as K6.
  destruct (add_mod r5 _ _) as [r6 lhs] eqn:E6. cbn [fst] in K6.
  assert (Q6 : ready (length shape) r6) by (eapply ready_keeps; eauto).
  eapply ready_keeps; [exact Q6|]. apply (keeps_constraint r6 [(rhs, 1)]); [|lia].
  assert (lhs = (local_end r6 - 1)%nat) by (unfold add_mod in E6; now injection E6 as <- <-). assert (nl r6 = (nl r5 + 2)%nat) by (unfold add_mod in E6; injection E6 as <- <-; cbn; lia). unfold local_end in *. lia.
Qed.
Lemma ready_diagonal rows columns slots r : rows <= max64 -> columns <= max64 -> diagonal [rows; columns] slots = Some r -> ready 2 r.
Proof.
  intros H1 H2 E. unfold diagonal in E. destruct (_ <? _) in E; [discriminate|]. apply some_inj in E. subst r. do 6 keep. apply (ready_all [rows; columns]). auto.
Qed.
Lemma ready_bicyclic rows columns slots r : bicyclic [rows; columns] slots = Some r -> ready 2 r.
Proof.
  intros E. unfold bicyclic in E. destruct (negb _) in E; [discriminate|]. apply some_inj in E. subst r. cbn [length]. do 4 keep.
  assert (U : forall x, u32 x - 1 < max64) by (intros x; unfold u32, max64; pose proof (Z.mod_pos_bound x (2 ^ 32)); lia).
  cbn [dim nth]. set (r1 := add_bounds _ 0 _ _). assert (S1 : solid r1 /\ nd r1 = 2%nat /\ nr r1 = 2%nat) by (split; [|split; reflexivity]; apply keeps_bounds, solid_space).
  destruct S1 as (S1 & D1 & R1). destruct (keeps_bounds r1 1 0 (Some (u32 columns - 1)) S1) as (S2 & D2 & R2 & L2 & U2). split; [exact S2|]. split; [congruence|]. split; [congruence|].
  intros i I. assert (i = 0 \/ i = 1)%nat as [-> | ->] by lia.
  - destruct (bounds_found (space 2 2 0) 0 (u32 rows - 1)) as (A & B); [cbn; lia|apply U|]. split; [apply L2, A|apply U2, B].
  - apply bounds_found; [lia|apply U].
Qed.
Lemma ready_bicyclic_diagonal n0 n1 first stride slots : n0 <= max64 -> n1 <= max64 -> ready 2 (bicyclic_diagonal [n0; n1] first stride slots).
Proof.
  intros H0 H1. unfold bicyclic_diagonal. cbn [dim nth length].
  set (r0 := add_bounds (space 2 2 0) _ _ _). set (r1 := add_bounds r0 _ _ _).
  assert (S1 : solid r1 /\ nd r1 = 2%nat /\ nr r1 = 2%nat) by (split; [|split; reflexivity]; apply keeps_bounds, keeps_bounds, solid_space). destruct S1 as (S1 & D1 & R1).
  assert (G : forall a b, a <= max64 -> b <= max64 -> ready 2 (add_bounds (add_bounds r1 0 0 (Some (a - 1))) 1 0 (Some (b - 1)))).
  { intros a b Ha Hb. set (r2 := add_bounds r1 0 _ _). assert (S2 : solid r2) by (apply keeps_bounds, S1).
    destruct (keeps_bounds r2 1 0 (Some (b - 1)) S2) as (S3 & D3 & R3 & L3 & U3). split; [exact S3|]. split; [rewrite D3; exact D1|]. split; [rewrite R3; exact R1|].
    intros i I. assert (i = 0 \/ i = 1)%nat as [-> | ->] by lia.
    - destruct (bounds_found r1 0 (a - 1)) as (A & B); [lia|lia|]. split; [apply L3, A|apply U3, B].
    - apply bounds_found; [change (nd r2) with (nd r1)|]; lia. }
  destruct first; do 2 keep; apply G; assumption.
Qed.
Lemma ready_tricyclic h m n slots r : h <= max64 -> m <= max64 -> n <= max64 -> tricyclic [h; m; n] slots = Some r -> ready 3 r.
Proof. intros H1 H2 H3 E. unfold tricyclic in E. cbn [length Nat.eqb negb] in E. apply some_inj in E. subst r. do 5 keep. apply (ready_all [h; m; n]). auto. Qed.
Lemma ready_per_row rows columns slots r : rows <= max64 -> columns <= max64 -> per_row [rows; columns] slots = Some r -> ready 2 r.
Proof.
  intros H1 H2 E. unfold per_row in E. destruct (_ || _)%bool in E; [discriminate|]. set (r0 := bound_all _ _ _) in E.
  assert (Q0 : ready 2 r0) by (apply (ready_all [rows; columns]); auto). set (r1 := add_bounds r0 _ _ _) in E. set (r2 := add_bounds r1 _ _ _) in E.
  assert (Q2 : ready 2 r2) by (unfold r2, r1; keep; keep; exact Q0). set (r3 := add_constraint r2 _ true) in E.
  assert (Q3 : ready 2 r3). { eapply ready_keeps; [exact Q2|]. apply (keeps_constraint r2 [(0%nat, -1)]); [|lia]. destruct Q2 as (_ & D & R & _). unfold range_at, local_end. lia. }
  pose proof (keeps_mod r3 (row (cols r3) [((range_at r3 + 1)%nat, 1)]) (next_power_of_two (dim [rows; columns] 1)) (row_length _ _)) as K.
  destruct (add_mod r3 _ _) as [r4 p] eqn:E4. cbn [fst] in K. assert (Q4 : ready 2 r4) by (eapply ready_keeps; eauto). apply some_inj in E. subst r.
  eapply ready_keeps; [exact Q4|]. assert (p = (local_end r4 - 1)%nat) by (unfold add_mod in E4; now injection E4 as <- <-).
  assert (nl r4 = (nl r3 + 2)%nat) by (unfold add_mod in E4; injection E4 as <- <-; cbn; lia). destruct Q4 as (_ & D & R & _). apply keeps_swap; [|lia|]; unfold local_end in *; lia.
Qed.
Lemma ready_box n r lower upper : ready n r -> exists b, domain_box r lower upper = Some b.
Proof. intros (S & D & _ & H). apply box_found; auto. now rewrite D. Qed.
Lemma fits_formed r : fits r -> well_formed r.
Proof. intros (A & B) e [E|E]; [rewrite Forall_forall in A; now apply A|rewrite Forall_forall in B; now apply B]. Qed.
Lemma ready_enumerate n r lower upper image wrapped : ready n r -> exists pts, enumerate r lower upper image wrapped = Some pts.
Proof.
  intros Q. destruct (ready_box n r lower upper Q) as ((lb, ub) & E). unfold enumerate. rewrite E. destruct (box_loop lb ub); [|eauto].
  assert (L : length lb = length ub).
  { unfold domain_box in E. destruct (scan_eqs _ _ _) as [(l, u)|] eqn:X; [|discriminate].
    assert (Rl : forall bound s l i k, resolve bound s i l = Some k -> length k = length l).
    { clear. induction l as [|b l IH]; intros i k E; cbn in E; [now injection E as <-|]. destruct (if b =? s then bound i else Some b); [|discriminate]. destruct (resolve bound s (S i) l) eqn:Y; [|discriminate]. injection E as <-. cbn. f_equal. eauto. }
    destruct (resolve lower min64 0 l) eqn:A; [|discriminate]. destruct (resolve upper max64 0 u) eqn:B; [|discriminate]. injection E as <- <-. rewrite (Rl _ _ _ _ _ A), (Rl _ _ _ _ _ B).
    assert (Ge : forall es b c, scan_eqs r es b = Some c -> length (fst c) = length (fst b) /\ length (snd c) = length (snd b)).
    { clear. induction es as [|e es IH]; intros b c E; cbn [scan_eqs] in E; [now injection E as <-|]. destruct (single r e) as [(v, a)|]; [|now apply IH]. destruct (negb _) in E; [discriminate|].
      apply IH in E. cbn [fst snd] in E. now rewrite !set_length in E. }
    apply Ge in X as (X1 & X2). cbn [fst snd] in X1, X2. rewrite X1, X2.
    assert (Gi : forall es b, length (fst b) = length (snd b) -> length (fst (fold_left (scan_ineq r) es b)) = length (snd (fold_left (scan_ineq r) es b))).
    { clear. induction es as [|e es IH]; intros (l, u) E; cbn [fold_left]; [easy|]. apply IH. cbn [scan_ineq]. destruct (single r e) as [(v, a)|]; [|easy]. destruct (0 <? a); cbn [fst snd] in *; now rewrite ?set_length. }
    apply Gi. cbn [fst snd]. now rewrite !repeat_length. }
  destruct (for_each_run image lb ub (fun d s g => s ++ [(d, firstn (nr r) g)]) (fun _ => false) (@nil (list Z * list Z)) L) as [Z0|(Z0 & _)]; rewrite Z0; eauto.
Qed.
