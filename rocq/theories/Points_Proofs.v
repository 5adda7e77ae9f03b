From Coq Require Import ZArith List Bool Lia Sorting.Sorted.
From Verif Require Import Rel_Model Rel_Proofs Layout_Spec Layout_Proofs Points_Model Points_Spec.
Import ListNotations.
Open Scope Z_scope.

(** * The box of the domain *)
Lemma nonzeros_nil l : forall j x, nonzeros j l = [] -> dot l x = 0.
Proof.
  induction l as [|a l IH]; intros j x E; [easy|]. cbn in E. destruct (Z.eqb_spec a 0) as [->|]; [|discriminate].
  destruct x; [easy|]. cbn. now rewrite (IH (S j)).
Qed.
Lemma nonzeros_ge l : forall j v a, In (v, a) (nonzeros j l) -> (j <= v < j + length l)%nat /\ a <> 0 /\ nth (v - j) l 0 = a.
Proof.
  induction l as [|b l IH]; intros j v a H; [easy|]. cbn in H.
  assert (K : In (v, a) (nonzeros (S j) l) -> (j <= v < j + length (b :: l))%nat /\ a <> 0 /\ nth (v - j) (b :: l) 0 = a).
  { intros I. apply IH in I as (A & B & C). cbn [length]. splits; try lia. replace (v - j)%nat with (S (v - S j)) by lia. exact C. }
  destruct (Z.eqb_spec b 0) as [->|N]; [auto|]. destruct H as [[= <- <-]|H]; [|auto]. cbn [length]. rewrite Nat.sub_diag. splits; lia.
Qed.
Lemma nonzeros_single l : forall j v a x, nonzeros j l = [(v, a)] -> dot l x = a * nth (v - j) x 0.
Proof.
  induction l as [|b l IH]; intros j v a x E; [easy|]. cbn in E. destruct (Z.eqb_spec b 0) as [->|N].
  - pose proof (nonzeros_ge l (S j) v a) as G. rewrite E in G. destruct G as (G & _); [now left|].
    replace (v - j)%nat with (S (v - S j)) by lia. destruct x; [cbn; lia|]. cbn. now rewrite (IH (S j) v a).
  - injection E as -> -> E. rewrite Nat.sub_diag. destruct x; [cbn; lia|]. cbn. rewrite (nonzeros_nil l (S v)) by easy. lia.
Qed.
Lemma nonzeros_in l : forall j k, (k < length l)%nat -> nth k l 0 <> 0 -> In ((j + k)%nat, nth k l 0) (nonzeros j l).
Proof.
  induction l as [|b l IH]; intros j k K N; [easy|]. cbn [nonzeros]. destruct k.
  - cbn in N |- *. destruct (Z.eqb_spec b 0); [easy|]. left. f_equal; lia.
  - cbn [nth length] in *. specialize (IH (S j) k ltac:(lia) N). replace (S j + k)%nat with (j + S k)%nat in IH by lia.
    destruct (b =? 0); [easy|]. now right.
Qed.
Lemma single_value r e v a d g x : length e = cols r -> single r e = Some (v, a) -> length d = nd r -> length g = nr r -> length x = nl r ->
  (v < nd r)%nat /\ a <> 0 /\ value e (d ++ g ++ x) = a * nth v d 0 + constant r e.
Proof.
  intros L E D G X. unfold single in E. destruct (nonzeros _ _) as [|(v', a') [|]] eqn:N; try discriminate.
  destruct (Nat.ltb_spec v' (nd r)) as [V|]; [|discriminate]. injection E as <- <-.
  pose proof (nonzeros_ge (firstn (local_end r) e) 0 v' a') as (_ & A & _); [rewrite N; now left|]. splits.
  unfold value. rewrite <- (firstn_skipn (local_end r) e) at 1.
  assert (Lc : cols r = (local_end r + 1)%nat) by (unfold cols, local_end; lia).
  rewrite dot_app by (rewrite firstn_length, L, !app_length, D, G, X; unfold cols, local_end; lia).
  rewrite (nonzeros_single _ 0 v' a') by exact N. rewrite Nat.sub_0_r, app_nth1 by lia. f_equal.
  unfold constant. rewrite Lc. replace (local_end r + 1 - 1)%nat with (local_end r) by lia.
  assert (S : length (skipn (local_end r) e) = 1%nat) by (rewrite skipn_length; lia).
  destruct (skipn (local_end r) e) as [|c [|]] eqn:K; try discriminate. cbn. rewrite <- (firstn_skipn (local_end r) e), K.
  rewrite (app_nth2 (firstn (local_end r) e) [c]) by (rewrite firstn_length; lia). rewrite firstn_length, L. replace (_ - _)%nat with 0%nat by lia. cbn. lia.
Qed.

Definition low (r : rel) (i : nat) (b : Z) : Prop := forall d g, relates r d g -> b <= nth i d 0.
Definition upp (r : rel) (i : nat) (b : Z) : Prop := forall d g, relates r d g -> nth i d 0 <= b.
Definition inv (n : nat) (P : nat -> Z -> Prop) (s : Z) (l : list Z) : Prop := length l = n /\ forall i, (i < n)%nat -> nth i l 0 = s \/ P i (nth i l 0).
Lemma inv_set n P s l v b : inv n P s l -> (v < n)%nat -> P v b -> (forall x y, {Z.max x y = x} + {Z.max x y = y}) ->
  inv n P s (set l v (Z.max (nth v l 0) b)) /\ inv n P s (set l v (Z.min (nth v l 0) b)).
Proof.
  intros (L & H) V B _. split; (split; [now rewrite set_length|]); intros i I; rewrite !nth_set by lia; (destruct (Nat.eqb_spec i v) as [->|]; [|auto]).
  - destruct (Z.max_dec (nth v l 0) b) as [-> | ->]; [auto|now right].
  - destruct (Z.min_dec (nth v l 0) b) as [-> | ->]; [auto|now right].
Qed.
Lemma scan_ineqs_inv r l : forall b, incl l (ineqs r) -> well_formed r ->
  inv (nd r) (low r) min64 (fst b) -> inv (nd r) (upp r) max64 (snd b) ->
  inv (nd r) (low r) min64 (fst (fold_left (scan_ineq r) l b)) /\ inv (nd r) (upp r) max64 (snd (fold_left (scan_ineq r) l b)).
Proof.
  induction l as [|e l IH]; intros (lb, ub) I W A B; [auto|]. cbn [fold_left]. apply IH; [intros y Y; apply I; now right|easy| |];
    cbn [scan_ineq]; (destruct (single r e) as [(v, a)|] eqn:E; [|easy]); cbn [fst snd] in *.
  - destruct (Z.ltb_spec 0 a) as [P|]; [|easy]. cbn [fst].
    assert (Ie : In e (ineqs r)) by (apply I; now left).
    assert (V : forall d g, relates r d g -> (v < nd r)%nat /\ 0 <= a * nth v d 0 + constant r e).
    { intros d g (D & G & x & X & (_ & S)). destruct (single_value r e v a d g x) as (V & _ & Q); auto. split; [easy|]. rewrite <- Q. rewrite Forall_forall in S. now apply S. }
    assert (Vn : (v < nd r)%nat). { unfold single in E. destruct (nonzeros _ _) as [|(v', a') [|]]; try discriminate. destruct (Nat.ltb_spec v' (nd r)); [|discriminate]. now injection E as <- <-. }
    apply inv_set; auto; [|exact Z.max_dec]. intros d g R. destruct (V d g R) as (_ & Q).
    pose proof (Z.div_mod (constant r e) a ltac:(lia)). pose proof (Z.mod_pos_bound (constant r e) a P). nia.
  - destruct (Z.ltb_spec 0 a) as [P|P]; [easy|]. cbn [snd].
    assert (Ie : In e (ineqs r)) by (apply I; now left).
    assert (V : forall d g, relates r d g -> a <> 0 /\ 0 <= a * nth v d 0 + constant r e).
    { intros d g (D & G & x & X & (_ & S)). destruct (single_value r e v a d g x) as (V & N & Q); auto. split; [easy|]. rewrite <- Q. rewrite Forall_forall in S. now apply S. }
    assert (Vn : (v < nd r)%nat). { unfold single in E. destruct (nonzeros _ _) as [|(v', a') [|]]; try discriminate. destruct (Nat.ltb_spec v' (nd r)); [|discriminate]. now injection E as <- <-. }
    apply inv_set; auto; [|exact Z.max_dec]. intros d g R. destruct (V d g R) as (N & Q).
    pose proof (Z.div_mod (constant r e) (- a) ltac:(lia)). pose proof (Z.mod_pos_bound (constant r e) (- a) ltac:(lia)). nia.
Qed.
Lemma scan_eqs_inv r l : forall b c, incl l (eqs r) -> well_formed r ->
  inv (nd r) (low r) min64 (fst b) -> inv (nd r) (upp r) max64 (snd b) -> scan_eqs r l b = Some c ->
  inv (nd r) (low r) min64 (fst c) /\ inv (nd r) (upp r) max64 (snd c).
Proof.
  induction l as [|e l IH]; intros b c I W A B E; [now injection E as <-|]. cbn [scan_eqs] in E.
  assert (I' : incl l (eqs r)) by (intros y Y; apply I; now right).
  destruct (single r e) as [(v, a)|] eqn:S; [|now apply (IH b c)].
  destruct (Z.eqb_spec (Z.rem (- constant r e) a) 0) as [M|]; [|discriminate]. cbn [negb] in E.
  assert (Ie : In e (eqs r)) by (apply I; now left).
  assert (V : forall d g, relates r d g -> nth v d 0 = Z.quot (- constant r e) a).
  { intros d g (D & G & x & X & (F & _)). destruct (single_value r e v a d g x) as (V & N & Q); auto. rewrite Forall_forall in F. rewrite (F e Ie) in Q.
    replace (- constant r e) with (nth v d 0 * a) by lia. now rewrite Z.quot_mul. }
  assert (Vn : (v < nd r)%nat). { unfold single in S. destruct (nonzeros _ _) as [|(v', a') [|]]; try discriminate. destruct (Nat.ltb_spec v' (nd r)); [|discriminate]. now injection S as <- <-. }
  apply (IH _ c I' W) in E; auto; cbn [fst snd]; (apply inv_set; auto; [|exact Z.max_dec]); intros d g R; rewrite (V d g R); lia.
Qed.
Lemma resolve_ok n P bound s l : forall i k, resolve bound s i l = Some k -> (i + length l = n)%nat ->
  (forall j, (i <= j < n)%nat -> nth (j - i) l 0 = s \/ P j (nth (j - i) l 0)) -> (forall j b, (j < n)%nat -> bound j = Some b -> P j b) ->
  length k = length l /\ forall j, (i <= j < n)%nat -> P j (nth (j - i) k 0).
Proof.
  induction l as [|b l IH]; intros i k E L H B.
  - injection E as <-. split; [easy|]. cbn in L. intros; lia.
  - cbn in E, L. destruct (if b =? s then bound i else Some b) as [c|] eqn:C; [|discriminate].
    destruct (resolve bound s (S i) l) as [k'|] eqn:K; [|discriminate]. injection E as <-.
    destruct (IH (S i) k' K) as (Lk & Hk); [lia| |exact B|].
    { intros j J. specialize (H j ltac:(lia)). replace (j - i)%nat with (S (j - S i)) in H by lia. exact H. }
    split; [cbn; lia|]. intros j J. destruct (Nat.eq_dec j i) as [->|N].
    + rewrite Nat.sub_diag. cbn. specialize (H i ltac:(lia)). rewrite Nat.sub_diag in H. cbn in H.
      destruct (Z.eqb_spec b s) as [->|D]; [apply B; auto; lia|]. injection C as <-. now destruct H.
    + replace (j - i)%nat with (S (j - S i)) by lia. cbn. apply Hk. lia.
Qed.
Lemma box_ok r lower upper lb ub : well_formed r -> bounds_hold r lower upper -> domain_box r lower upper = Some (lb, ub) ->
  length lb = nd r /\ length ub = nd r /\ forall d g, relates r d g -> forall i, (i < nd r)%nat -> nth i lb 0 <= nth i d 0 <= nth i ub 0.
Proof.
  intros W B E. unfold domain_box in E.
  destruct (scan_ineqs_inv r (ineqs r) (repeat min64 (nd r), repeat max64 (nd r))) as (A1 & A2); [apply incl_refl|easy| | |].
  - split; [apply repeat_length|]. intros i I. left. cbn. rewrite (nth_indep _ 0 min64) by (now rewrite repeat_length). apply nth_repeat.
  - split; [apply repeat_length|]. intros i I. left. cbn [snd]. rewrite (nth_indep _ 0 max64) by (now rewrite repeat_length). apply nth_repeat.
  - destruct (scan_eqs r (eqs r) _) as [(l, u)|] eqn:S; [|discriminate].
    eapply scan_eqs_inv in S as ((L1 & L2) & (U1 & U2)); eauto; [|apply incl_refl]. cbn [fst snd] in *.
    destruct (resolve lower min64 0 l) as [l'|] eqn:R1; [|discriminate]. destruct (resolve upper max64 0 u) as [u'|] eqn:R2; [|discriminate]. injection E as <- <-.
    eapply (resolve_ok (nd r) (low r)) in R1 as (K1 & K2); [|cbn; lia| |].
    eapply (resolve_ok (nd r) (upp r)) in R2 as (K3 & K4); [|cbn; lia| |].
    + splits; try lia. intros d g R i I. specialize (K2 i ltac:(lia) d g R). specialize (K4 i ltac:(lia) d g R). rewrite Nat.sub_0_r in *. lia.
    + intros j J. rewrite Nat.sub_0_r. apply U2. lia.
    + intros j b J Bj d g R. pose proof (proj2 (B d g j b R) Bj). destruct R as (D & _). now rewrite app_nth1 in H by lia.
    + intros j J. rewrite Nat.sub_0_r. apply L2. lia.
    + intros j b J Bj d g R. pose proof (proj1 (B d g j b R) Bj). destruct R as (D & _). now rewrite app_nth1 in H by lia.
Qed.

(** * The walk through the box *)
Fixpoint range (k : Z) (n : nat) : list Z := match n with O => [] | S n => k :: range (k + 1) n end.
Lemma in_range n : forall k x, In x (range k n) <-> k <= x < k + Z.of_nat n.
Proof. induction n as [|n IH]; intros k x; cbn [range In]; [lia|]. rewrite IH. lia. Qed.
Lemma range_length n : forall k, length (range k n) = n.
Proof. induction n; intros; cbn; auto. Qed.
Lemma flat_map_length {A B} (f : A -> list B) l n : (forall x, length (f x) = n) -> length (flat_map f l) = (length l * n)%nat.
Proof. intros H. induction l; cbn; [easy|]. rewrite app_length, H, IHl. reflexivity. Qed.
Fixpoint lex (lb ub : list Z) : list (list Z) :=
  match lb, ub with
  | l :: lb, u :: ub => flat_map (fun p => map (cons p) (lex lb ub)) (range l (Z.to_nat (u - l + 1)))
  | _, _ => [[]]
  end.
Definition inside (lb ub d : list Z) : Prop := length d = length lb /\ forall i, (i < length lb)%nat -> nth i lb 0 <= nth i d 0 <= nth i ub 0.
Lemma in_lex lb : forall ub d, length lb = length ub -> (In d (lex lb ub) <-> inside lb ub d).
Proof.
  unfold inside. induction lb as [|l lb IH]; intros [|u ub] d L; try discriminate.
  - cbn. split; [intros [<-|[]]; split; [easy|]; intros; lia|]. intros (H & _). destruct d; [now left|discriminate].
  - cbn [lex length]. rewrite in_flat_map. split.
    + intros (p & P & M). apply in_map_iff in M as (d' & <- & M). apply IH in M as (M1 & M2); [|now injection L]. apply in_range in P. split; [cbn; lia|].
      intros [|i] I; cbn; [lia|]. apply M2. lia.
    + intros (D & H). destruct d as [|p d]; [discriminate|]. exists p. split.
      * apply in_range. specialize (H 0%nat ltac:(lia)). cbn in H. lia.
      * apply in_map. apply IH; [now injection L|]. split; [now injection D|]. intros i I. apply (H (S i)). lia.
Qed.
Lemma lex_length lb : forall ub, length lb = length ub -> Forall (fun n => 0 < n) (sizes lb ub) -> length (lex lb ub) = Z.to_nat (elements (sizes lb ub)) /\ 0 < elements (sizes lb ub).
Proof.
  induction lb as [|l lb IH]; intros [|u ub] L P; try discriminate; [split; [easy|cbn; lia]|].
  cbn [sizes] in P. inversion P as [|? ? P1 P2]; subst. destruct (IH ub) as (A & B); [now injection L|easy|].
  cbn [lex sizes elements fold_right]. fold (elements (sizes lb ub)). split; [|nia]. rewrite (flat_map_length _ _ (length (lex lb ub))) by (intros; apply map_length).
  rewrite range_length, A. rewrite <- Z2Nat.inj_mul by lia. reflexivity.
Qed.
Lemma nodup_app {A} (a b : list A) : NoDup a -> NoDup b -> (forall x, In x a -> ~ In x b) -> NoDup (a ++ b).
Proof.
  induction a as [|x a IH]; intros P Q D; [easy|]. inversion P; subst. cbn. constructor.
  - rewrite in_app_iff. intros [?|?]; [easy|]. apply (D x); [now left|easy].
  - apply IH; auto. intros y Y. apply D. now right.
Qed.
Lemma nodup_flat_map {A B} (f : A -> list B) l : NoDup l -> (forall x, In x l -> NoDup (f x)) -> (forall x y z, In x l -> In y l -> In z (f x) -> In z (f y) -> x = y) ->
  NoDup (flat_map f l).
Proof.
  induction l as [|x l IH]; intros P Q D; [constructor|]. inversion P; subst. cbn. apply nodup_app; [apply Q; now left| |].
  - apply IH; auto; [intros y Y; apply Q; now right|]. intros a b z A0 B0. apply D; now right.
  - intros z Z0. rewrite in_flat_map. intros (y & Y & Z1). assert (x = y) by (apply (D x y z); auto; [now left|now right]). now subst.
Qed.
Lemma nodup_map {A B} (f : A -> B) l : NoDup l -> (forall x y, In x l -> In y l -> f x = f y -> x = y) -> NoDup (map f l).
Proof.
  induction l as [|a l IH]; intros N H; [constructor|]. inversion N; subst. cbn. constructor.
  - rewrite in_map_iff. intros (b & E & B'). assert (b = a) by (apply H; [now right|now left|easy]). now subst.
  - apply IH; auto. intros x y X Y. apply H; now right.
Qed.
Lemma range_nodup n : forall k, NoDup (range k n).
Proof. induction n; intros k; cbn; constructor; auto. rewrite in_range. lia. Qed.
Lemma lex_nodup lb : forall ub, length lb = length ub -> NoDup (lex lb ub).
Proof.
  induction lb as [|l lb IH]; intros [|u ub] L; try discriminate; [cbn; repeat constructor; auto|].
  cbn [lex]. specialize (IH ub ltac:(now injection L)). apply nodup_flat_map; [apply range_nodup| |].
  - intros x _. apply FinFun.Injective_map_NoDup; [|easy]. intros a b E. now injection E.
  - intros x y z _ _ A B. apply in_map_iff in A as (a & <- & _). apply in_map_iff in B as (b & E & _). now injection E.
Qed.

(** consecutive points from [p] on; the last one gives [e] *)
Fixpoint path (lb ub p : list Z) (l : list (list Z)) (e : list Z * bool) : Prop :=
  match l with
  | [] => next_point p lb ub = e
  | q :: l => next_point p lb ub = (q, true) /\ path lb ub q l e
  end.
Lemma path_app lb ub l : forall p q m e, path lb ub p l (q, true) -> path lb ub q m e -> path lb ub p (l ++ q :: m) e.
Proof. induction l as [|a l IH]; intros p q m e A B; cbn in *; [auto|]. destruct A. split; [easy|]. now apply IH. Qed.
Lemma path_cons lb ub lo hi x l : forall p, path lb ub p l (lb, false) ->
  path (lo :: lb) (hi :: ub) (x :: p) (map (cons x) l) (if x + 1 <=? hi then (x + 1 :: lb, true) else (lo :: lb, false)).
Proof.
  induction l as [|q l IH]; intros p H; cbn [path map next_point] in *; [now rewrite H|]. destruct H as (A & B). rewrite A. split; [easy|]. now apply IH.
Qed.
Lemma path_lex lb : forall ub, length lb = length ub -> Forall (fun n => 0 < n) (sizes lb ub) -> exists l, lex lb ub = lb :: l /\ path lb ub lb l (lb, false).
Proof.
  induction lb as [|lo lb IH]; intros [|hi ub] L P; try discriminate; [exists []; split; reflexivity|].
  cbn [sizes] in P. inversion P as [|? ? P1 P2]; subst. destruct (IH ub) as (m & M & W); [now injection L|easy|]. clear IH L P2 P. cbn [lex]. rewrite M.
  assert (G : forall n x, x + Z.of_nat n = hi -> exists l, flat_map (fun p => map (cons p) (lb :: m)) (range x (S n)) = (x :: lb) :: l /\ path (lo :: lb) (hi :: ub) (x :: lb) l (lo :: lb, false)).
  { induction n as [|n Hn]; intros x X.
    - exists (map (cons x) m). split; [cbn; now rewrite app_nil_r|]. pose proof (path_cons lb ub lo hi x m lb W) as Q. destruct (Z.leb_spec (x + 1) hi); [lia|exact Q].
    - destruct (Hn (x + 1) ltac:(lia)) as (l & E & Q). exists (map (cons x) m ++ (x + 1 :: lb) :: l). split.
      + cbn [range flat_map]. cbn [range flat_map] in E. rewrite E. reflexivity.
      + apply path_app; [|exact Q]. pose proof (path_cons lb ub lo hi x m lb W) as T. destruct (Z.leb_spec (x + 1) hi); [exact T|lia]. }
  specialize (G (Z.to_nat (hi - lo)) lo ltac:(lia)). replace (Z.to_nat (hi - lo + 1)) with (S (Z.to_nat (hi - lo))) by lia. exact G.
Qed.
(** what the loop computes *)
Fixpoint run {S : Type} (visit : S -> list Z -> S) (stop : S -> bool) (l : list (list Z)) (s : S) : S :=
  match l with
  | [] => s
  | d :: l => let s := visit s d in if stop s then s else run visit stop l s
  end.
Lemma grid_run {S : Type} visit stop lb ub l : forall fuel p e (s : S), path lb ub p l (e, false) -> (length l < fuel)%nat ->
  grid fuel visit stop lb ub p s = Some (run visit stop (p :: l) s).
Proof.
  induction l as [|q l IH]; intros [|fuel] p e s P F; try (cbn in F; lia); cbn [grid run path] in *.
  - rewrite P. now destruct (stop _).
  - destruct P as (A & B). rewrite A. destruct (stop (visit s p)); [easy|]. rewrite (IH fuel q e) by (auto; cbn in F; lia). reflexivity.
Qed.
Lemma for_each_run {S : Type} image lb ub on stop (s : S) : length lb = length ub ->
  for_each image lb ub on stop s = Some (run (fun s d => fold_left (on d) (image d) s) stop (lex lb ub) s) \/
  (for_each image lb ub on stop s = Some s /\ lex lb ub = []).
Proof.
  intros L. unfold for_each. destruct (existsb _ _) eqn:E.
  - right. split; [easy|]. revert ub L E. induction lb as [|lo lb IH]; intros [|hi ub] L E; try discriminate. cbn in E |- *.
    destruct (Z.leb_spec (hi - lo + 1) 0) as [A|A].
    + replace (Z.to_nat (hi - lo + 1)) with 0%nat by lia. reflexivity.
    + cbn in E. rewrite IH by (auto; now injection L). cbn. now induction (range _ _).
  - left. assert (P : Forall (fun n => 0 < n) (sizes lb ub)).
    { apply Forall_forall. intros n N. destruct (Z.ltb_spec 0 n) as [|G]; [easy|]. assert (X : existsb (fun n => n <=? 0) (sizes lb ub) = true); [|congruence].
      apply existsb_exists. exists n. split; [easy|]. apply Z.leb_le. lia. }
    destruct (path_lex lb ub L P) as (l & E' & W). destruct (lex_length lb ub L P) as (Le & Lp). rewrite E' in *. apply grid_run with (1 := W). cbn in Le. lia.
Qed.
Lemma run_all {S : Type} (visit : S -> list Z -> S) l : forall s, run visit (fun _ => false) l s = fold_left visit l s.
Proof. induction l; intros; cbn; auto. Qed.

(** * The points of a relation *)
Lemma collect (f : list Z -> list Z) image (l : list (list Z)) : forall s,
  fold_left (fun s d => fold_left (fun s g => s ++ [(d, f g)]) (image d) s) l s = s ++ flat_map (fun d => map (fun g => (d, f g)) (image d)) l.
Proof.
  assert (H : forall (d : list Z) (gs : list (list Z)) s, fold_left (fun s g => s ++ [(d, f g)]) gs s = s ++ map (fun g => (d, f g)) gs).
  { intros d. induction gs as [|g gs IH]; intros s; cbn; [now rewrite app_nil_r|]. rewrite IH, <- app_assoc. reflexivity. }
  induction l as [|d l IH]; intros s; cbn; [now rewrite app_nil_r|]. rewrite IH, H, <- app_assoc. reflexivity.
Qed.
Lemma enumerate_ok r lower upper image wrapped pts : well_formed r -> bounds_hold r lower upper -> lists_images r image -> lists_points r wrapped ->
  enumerate r lower upper image wrapped = Some pts -> NoDup pts /\ forall d g, In (d, g) pts <-> relates r d g.
Proof.
  intros W B I (Nw & Lw) E. unfold enumerate in E. destruct (domain_box r lower upper) as [(lb, ub)|] eqn:D; [|discriminate].
  destruct (box_ok r lower upper lb ub W B D) as (L1 & L2 & H). destruct (box_loop lb ub).
  - assert (E' : pts = flat_map (fun d => map (fun g => (d, firstn (nr r) g)) (image d)) (lex lb ub)).
    { destruct (for_each_run image lb ub (fun d s g => s ++ [(d, firstn (nr r) g)]) (fun _ => false) []) as [Q|(Q & X)]; [congruence| |]; rewrite E in Q; apply some_inj in Q.
      - rewrite run_all, collect in Q. exact Q.
      - rewrite X. exact Q. }
    assert (K : forall d g, length d = nd r -> In g (image d) -> firstn (nr r) g = g).
    { intros d g Ld G. apply (I d Ld) in G. destruct G as (_ & G & _). rewrite <- G. apply firstn_all. }
    assert (Q : forall d, In d (lex lb ub) -> length d = nd r) by (intros d M; apply in_lex in M as (M & _); lia).
    subst pts. split.
    + apply nodup_flat_map; [apply lex_nodup; lia| |].
      * intros d M. assert (X : map (fun g => (d, firstn (nr r) g)) (image d) = map (fun g => (d, g)) (image d)).
        { apply map_ext_in. intros g G. f_equal. apply (K d); auto. }
        rewrite X. apply FinFun.Injective_map_NoDup; [intros a b Eab; now injection Eab|]. apply I. auto.
      * intros x y z _ _ X Y. apply in_map_iff in X as (a & <- & _). apply in_map_iff in Y as (b & Eb & _). now injection Eb.
    + intros d g. rewrite in_flat_map. split.
      * intros (d' & M & N). apply in_map_iff in N as (g' & Eg & G). pose proof (K d' g' (Q _ M) G) as F. injection Eg as <- <-. rewrite F. apply I; auto.
      * intros R. exists d. assert (Ld : length d = nd r) by apply R. split; [apply in_lex; [lia|]; split; [lia|]; rewrite L1; intros; now apply (H d g)|].
        apply in_map_iff. exists g. apply (I d Ld) in R. split; [f_equal; apply (K d); auto|easy].
  - apply some_inj in E. subst pts.
    assert (S : forall d g, relates r d g -> split_point r (d ++ g) = (d, g)).
    { intros d g (D1 & D2 & _). unfold split_point. rewrite <- D1 at 1. rewrite firstn_app, firstn_all, Nat.sub_diag. cbn. rewrite app_nil_r. f_equal.
      rewrite <- D1, skipn_app, skipn_all, Nat.sub_diag. cbn. rewrite <- D2. apply firstn_all. }
    split.
    + apply nodup_map; [easy|]. intros x y X Y. apply Lw in X as (d & g & -> & X). apply Lw in Y as (d' & g' & -> & Y). rewrite !S by easy. congruence.
    + intros d g. rewrite in_map_iff. split.
      * intros (p & Ep & P). apply Lw in P as (d' & g' & -> & P). rewrite S in Ep by easy. now injection Ep as <- <-.
      * intros R. exists (d ++ g). split; [now apply S|]. apply Lw. eauto.
Qed.

(** * The ciphertexts without an element *)
Fixpoint trues (l : list bool) : Z := match l with [] => 0 | b :: l => (if b then 1 else 0) + trues l end.
Lemma trues_le l : 0 <= trues l <= Z.of_nat (length l).
Proof. induction l as [|[] l IH]; cbn [trues length]; lia. Qed.
Lemma trues_all l : trues l = Z.of_nat (length l) -> forall i, (i < length l)%nat -> nth i l false = true.
Proof.
  induction l as [|b l IH]; intros E i I; [cbn in I; lia|]. cbn [trues length] in *. pose proof (trues_le l). destruct b; [|lia].
  destruct i; [easy|]. cbn. apply IH; lia.
Qed.
Lemma trues_none n : trues (repeat false n) = 0.
Proof. induction n as [|n IH]; [easy|]. cbn [repeat trues]. now rewrite IH. Qed.
Lemma mark_length l : forall i, length (mark l i) = length l.
Proof. induction l; intros [|i]; cbn; auto. Qed.
Lemma nth_mark l : forall i k, (i < length l)%nat -> nth k (mark l i) false = if (k =? i)%nat then true else nth k l false.
Proof. induction l as [|b l IH]; intros [|i] [|k] I; cbn in *; try lia; auto. apply IH. lia. Qed.
Lemma trues_mark l : forall i, (i < length l)%nat -> nth i l false = false -> trues (mark l i) = trues l + 1.
Proof.
  induction l as [|b l IH]; intros [|i] I E; cbn [trues mark nth length] in *; try (exfalso; lia); try subst b; try rewrite IH by (auto; lia); lia.
Qed.
Definition marked (cts : Z) (P : Z -> Prop) (s : list bool * Z) : Prop :=
  Z.of_nat (length (fst s)) = Z.max 0 cts /\ snd s = trues (fst s) /\ forall ct, 0 <= ct < cts -> (nth (Z.to_nat ct) (fst s) false = true <-> P ct).
Lemma mark_step cts P g s : marked cts P s -> marked cts (fun ct => P ct \/ nth 0 g 0 = ct) (mark_ct cts s g).
Proof.
  intros (L & C & H). unfold mark_ct. destruct (Z.leb_spec 0 (nth 0 g 0)) as [A|A]; cbn [andb].
  2:{ split; [easy|split; [easy|]]. intros ct Ct. rewrite H by easy. intuition lia. }
  destruct (Z.ltb_spec (nth 0 g 0) cts) as [B|B]; cbn [andb].
  2:{ split; [easy|split; [easy|]]. intros ct Ct. rewrite H by easy. intuition lia. }
  destruct (nth (Z.to_nat (nth 0 g 0)) (fst s) false) eqn:E; cbn [negb].
  - split; [easy|split; [easy|]]. intros ct Ct. rewrite H by easy. split; [auto|]. intros [?|X]; [easy|]. subst ct. apply H; easy.
  - split; [|split]; cbn [fst snd].
    + now rewrite mark_length.
    + rewrite trues_mark by (auto; lia). lia.
    + intros ct Ct. rewrite nth_mark by lia. destruct (Nat.eqb_spec (Z.to_nat ct) (Z.to_nat (nth 0 g 0))) as [X|X].
      * split; [|easy]. intros _. right. lia.
      * rewrite H by easy. split; [auto|]. intros [?|Y]; [easy|]. subst ct. easy.
Qed.
Lemma mark_list cts gs : forall P s, marked cts P s -> marked cts (fun ct => P ct \/ exists g, In g gs /\ nth 0 g 0 = ct) (fold_left (mark_ct cts) gs s).
Proof.
  induction gs as [|g gs IH]; intros P s M; cbn.
  - destruct M as (A & B & C). split; [easy|split; [easy|]]. intros ct Ct. rewrite C by easy. split; [auto|]. intros [?|(? & [] & _)]; easy.
  - destruct (IH _ _ (mark_step cts P g s M)) as (A & B & C). split; [easy|split; [easy|]]. intros ct Ct. rewrite C by easy. split.
    + intros [[?|?]|(h & ? & ?)]; [auto|right; exists g; auto|right; exists h; auto].
    + intros [?|(h & [-> |?] & ?)]; [auto|auto|right; exists h; auto].
Qed.
Lemma mark_run cts image l : forall P s, marked cts P s ->
  marked cts (fun ct => P ct \/ exists d g, In d l /\ In g (image d) /\ nth 0 g 0 = ct)
    (run (fun s d => fold_left (mark_ct cts) (image d) s) (fun s => snd s =? cts) l s).
Proof.
  induction l as [|d l IH]; intros P s M; cbn [run].
  - destruct M as (A & B & C). split; [easy|split; [easy|]]. intros ct Ct. rewrite C by easy. split; [auto|]. intros [?|(? & ? & [] & _)]; easy.
  - pose proof (mark_list cts (image d) P s M) as M1. destruct (Z.eqb_spec (snd (fold_left (mark_ct cts) (image d) s)) cts) as [E|E].
    + destruct M1 as (A & B & C). split; [easy|split; [easy|]]. intros ct Ct. split.
      * intros N. apply C in N as [?|(g & G & X)]; auto. right. exists d, g. splits. now left.
      * intros _. apply trues_all; lia.
    + destruct (IH _ _ M1) as (A & B & C).
      split; [easy|split; [easy|]]. intros ct Ct. rewrite C by easy. split.
      * intros [[?|(g & G & X)]|(d' & g & D & G & X)]; [auto| |]; right; [exists d, g|exists d', g]; splits; [now left|now right].
      * intros [?|(d' & g & [-> |D] & G & X)]; [auto| |]; [left; right; exists g; auto|right; exists d', g; auto].
Qed.
Lemma in_unseen l : forall k ct, In ct (unseen k l) <-> k <= ct < k + Z.of_nat (length l) /\ nth (Z.to_nat (ct - k)) l false = false.
Proof.
  induction l as [|b l IH]; intros k ct; [cbn; lia|]. cbn [unseen length].
  assert (S : k < ct -> Z.to_nat (ct - k) = S (Z.to_nat (ct - (k + 1)))) by lia.
  destruct b; cbn [In]; rewrite IH; split.
  - intros (A & B). rewrite S by lia. cbn. split; [lia|easy].
  - intros (A & B). destruct (Z.eq_dec ct k) as [->|N]; [rewrite Z.sub_diag in B; easy|]. rewrite S in B by lia. split; [lia|easy].
  - intros [<-|(A & B)]; [rewrite Z.sub_diag; cbn; split; [lia|easy]|]. rewrite S by lia. cbn. split; [lia|easy].
  - intros (A & B). destruct (Z.eq_dec ct k) as [->|N]; [auto|]. right. rewrite S in B by lia. split; [lia|easy].
Qed.
Lemma unseen_sorted l : forall k, StronglySorted Z.lt (unseen k l).
Proof.
  induction l as [|b l IH]; intros k; cbn; [constructor|]. destruct b; [apply IH|]. constructor; [apply IH|]. apply Forall_forall. intros x X. apply in_unseen in X. lia.
Qed.
Lemma complement_ok r lower upper image cts l : well_formed r -> bounds_hold r lower upper -> lists_images r image ->
  complement r lower upper image cts = Some l ->
  StronglySorted Z.lt l /\ forall ct, In ct l <-> 0 <= ct < cts /\ forall d slot, ~ relates r d [ct; slot].
Proof.
  intros W B I E. unfold complement in E. destruct (Nat.eqb_spec (nr r) 2) as [N|]; [|discriminate]. cbn [negb] in E.
  destruct (domain_box r lower upper) as [(lb, ub)|] eqn:D; [|discriminate].
  destruct (box_ok r lower upper lb ub W B D) as (L1 & L2 & H).
  assert (M : exists s, for_each image lb ub (fun _ => mark_ct cts) (fun s => snd s =? cts) (repeat false (Z.to_nat cts), 0) = Some s /\
    marked cts (fun ct => False \/ exists d g, In d (lex lb ub) /\ In g (image d) /\ nth 0 g 0 = ct) s).
  { assert (M0 : marked cts (fun _ => False) (repeat false (Z.to_nat cts), 0)).
    { split; [|split]; cbn [fst snd]; [rewrite repeat_length; lia| |].
      - symmetry. apply trues_none.
      - intros ct Ct. rewrite (nth_repeat false). easy. }
    destruct (for_each_run image lb ub (fun _ => mark_ct cts) (fun s => snd s =? cts) (repeat false (Z.to_nat cts), 0)) as [Q|(Q & X)]; [congruence| |]; rewrite Q; eexists; (split; [reflexivity|]).
    - apply mark_run; auto.
    - rewrite X. destruct M0 as (A0 & B0 & C0). split; [easy|split; [easy|]]. intros ct Ct. rewrite C0 by easy. split; [auto|]. intros [?|(? & ? & [] & _)]; easy. }
  destruct M as ((seen & n) & Q & (A & _ & C)). rewrite Q in E. apply some_inj in E. subst l. cbn [fst] in *. split; [apply unseen_sorted|].
  intros ct. rewrite in_unseen. replace (ct - 0) with ct by lia. split.
  - intros (Ct & F). split; [lia|]. intros d slot R. assert (T : nth (Z.to_nat ct) seen false = true); [|congruence]. apply C; [lia|]. right. exists d, [ct; slot].
    assert (Ld : length d = nd r) by apply R. splits; [|now apply I]. apply in_lex; [lia|]. split; [lia|]. rewrite L1. intros. now apply (H d [ct; slot]).
  - intros (Ct & F). split; [lia|]. destruct (nth (Z.to_nat ct) seen false) eqn:T; [|easy]. apply C in T as [[]|(d & g & M & G & X)]; [|lia].
    assert (Ld : length d = nd r) by (apply in_lex in M as (M & _); lia). apply I in G; auto. assert (Lg : length g = 2%nat) by (destruct G as (_ & G & _); lia).
    destruct g as [|c [|s [|]]]; try discriminate. cbn in X. subst c. destruct (F d s G).
Qed.

(** * Tensors *)
Lemma at_index_some {A} (l : list A) i x : at_index l i = Some x <-> 0 <= i /\ nth_error l (Z.to_nat i) = Some x.
Proof. unfold at_index. destruct (Z.ltb_spec i 0); split; [easy|lia|easy|easy]. Qed.
Lemma nth_error_replace {A} (l : list A) : forall i x k, (i < length l)%nat -> nth_error (replace l i x) k = if (k =? i)%nat then Some x else nth_error l k.
Proof. induction l as [|a l IH]; intros [|i] x [|k] I; cbn in *; try lia; auto. apply IH. lia. Qed.
Lemma replace_length {A} (l : list A) : forall i x, length (replace l i x) = length l.
Proof. induction l; intros [|i] x; cbn; auto. Qed.
Lemma get_shaped {T} shape : forall (t : tensor T) d, shaped shape t -> (in_box shape d <-> exists x, get t d = Some x).
Proof.
  induction shape as [|n shape IH]; intros t d S; cbn in S.
  - destruct S as (x & ->). split; [intros B; inversion B; subst; now exists x|]. intros (y & E). destruct d; [constructor|discriminate].
  - destruct S as (l & -> & L & F). rewrite Forall_forall in F. split.
    + intros B. inversion B as [|? i ? d' I B']; subst. cbn.
      destruct (nth_error l (Z.to_nat i)) as [t|] eqn:E; [|apply nth_error_None in E; lia].
      assert (Q : at_index l i = Some t) by (apply at_index_some; split; [lia|easy]). rewrite Q. apply IH; auto. apply F. eapply nth_error_In. eauto.
    + intros (x & E). destruct d as [|i d]; [discriminate|]. cbn in E. destruct (at_index l i) as [t|] eqn:Q; [|discriminate]. apply at_index_some in Q as (I & Q).
      assert (I' : (Z.to_nat i < length l)%nat) by (apply nth_error_Some; congruence). constructor; [lia|]. apply (IH t); [apply F; eapply nth_error_In; eauto|]. now exists x.
Qed.
Lemma put_shaped {T} shape : forall (t : tensor T) d x, shaped shape t -> in_box shape d ->
  exists t', put t d x = Some t' /\ shaped shape t' /\ get t' d = Some x /\ forall e, e <> d -> get t' e = get t e.
Proof.
  induction shape as [|n shape IH]; intros t d x S B; inversion B as [|? i ? d' I B']; subst; cbn in S.
  - destruct S as (y & ->). exists (Elem x). cbn. splits; [now exists x|]. intros [|i e] N; [easy|reflexivity].
  - destruct S as (l & -> & L & F). rewrite Forall_forall in F. cbn [put].
    destruct (nth_error l (Z.to_nat i)) as [t|] eqn:E; [|apply nth_error_None in E; lia].
    assert (Q : at_index l i = Some t) by (apply at_index_some; split; [lia|easy]). rewrite Q.
    destruct (IH t d' x) as (t' & P & S' & G & H); auto; [apply F; eapply nth_error_In; eauto|]. rewrite P. exists (Vector (replace l (Z.to_nat i) t')).
    assert (I' : (Z.to_nat i < length l)%nat) by lia. splits.
    + cbn. exists (replace l (Z.to_nat i) t'). rewrite replace_length. splits. apply Forall_forall. intros u U.
      apply In_nth_error in U as (k & K). rewrite nth_error_replace in K by easy. destruct (k =? Z.to_nat i)%nat; [now injection K as <-|]. apply F. eapply nth_error_In. eauto.
    + cbn. assert (Q' : at_index (replace l (Z.to_nat i) t') i = Some t') by (apply at_index_some; split; [lia|]; now rewrite nth_error_replace, Nat.eqb_refl by easy). now rewrite Q'.
    + intros [|j e] N; [reflexivity|]. cbn. unfold at_index. destruct (Z.ltb_spec j 0); [easy|]. rewrite nth_error_replace by easy.
      destruct (Nat.eqb_spec (Z.to_nat j) (Z.to_nat i)) as [J|J]; [|easy]. assert (j = i) by lia. subst j. rewrite E. apply H. congruence.
Qed.
Lemma get_ext {T} shape : forall t u : tensor T, shaped shape t -> shaped shape u -> (forall d, in_box shape d -> get t d = get u d) -> t = u.
Proof.
  induction shape as [|n shape IH]; intros t u S U E; cbn in S, U.
  - destruct S as (x & ->). destruct U as (y & ->). specialize (E [] ltac:(constructor)). cbn in E. congruence.
  - destruct S as (l & -> & L & F). destruct U as (m & -> & M & G). f_equal. rewrite Forall_forall in F, G. apply nth_ext with (d := Vector []) (d' := Vector []); [lia|]. intros k K.
    apply IH; [apply F, nth_In; lia|apply G, nth_In; lia|]. intros d B. specialize (E (Z.of_nat k :: d)). cbn in E. unfold at_index in E.
    destruct (Z.ltb_spec (Z.of_nat k) 0); [lia|]. rewrite Nat2Z.id in E. rewrite !nth_error_nth' with (d := Vector []) in E by lia. apply E. constructor; [lia|easy].
Qed.
Lemma filled_shaped {T} shape (x : T) : Forall (fun n => 0 <= n) shape -> shaped shape (filled shape x).
Proof.
  induction 1 as [|n shape P F IH]; cbn; [now exists x|]. eexists. split; [reflexivity|]. rewrite repeat_length. split; [lia|]. apply Forall_forall. intros t I. apply repeat_spec in I. now subst.
Qed.
Lemma get_filled {T} shape (x : T) : forall d, in_box shape d -> get (filled shape x) d = Some x.
Proof.
  induction shape as [|n shape IH]; intros d B; inversion B as [|? i ? d' I B']; subst; cbn; [easy|].
  unfold at_index. destruct (Z.ltb_spec i 0); [lia|]. rewrite nth_error_repeat by lia. now apply IH.
Qed.
Lemma range_pair (r : rel) d (g : list Z) : nr r = 2%nat -> relates r d g -> g = [nth 0 g 0; nth 1 g 0].
Proof. intros N (_ & G & _). rewrite N in G. destruct g as [|a [|b [|]]]; try discriminate. reflexivity. Qed.

(** packing *)
Lemma write_ok {T} (t : tensor T) shape cts slots pts : forall out, shaped shape t -> shaped [cts; slots] out ->
  (forall d g, In (d, g) pts -> in_box shape d /\ in_box [cts; slots] [nth 0 g 0; nth 1 g 0]) ->
  (forall d e g h, In (d, g) pts -> In (e, h) pts -> nth 0 g 0 = nth 0 h 0 -> nth 1 g 0 = nth 1 h 0 -> d = e) ->
  exists out', write_points t pts out = Some out' /\ shaped [cts; slots] out' /\
    (forall d g, In (d, g) pts -> get out' [nth 0 g 0; nth 1 g 0] = get t d) /\
    (forall ct slot, (forall d g, In (d, g) pts -> [nth 0 g 0; nth 1 g 0] <> [ct; slot]) -> get out' [ct; slot] = get out [ct; slot]).
Proof.
  induction pts as [|(d, g) pts IH]; intros out S O B F; cbn [write_points].
  - exists out. splits; easy.
  - destruct (B d g ltac:(now left)) as (Bd & Bg). pose proof (proj1 (get_shaped shape t d S) Bd) as (x & X). rewrite X.
    destruct (put_shaped [cts; slots] out [nth 0 g 0; nth 1 g 0] x O Bg) as (o & P & So & G & H). rewrite P.
    destruct (IH o S So) as (o' & W & So' & A & C).
    { intros d' g' I. apply B. now right. }
    { intros d' e' g' h' I J. apply F; now right. }
    exists o'. splits.
    + intros d' g' [[= <- <-]|I]; [|now apply A].
      destruct (in_dec (list_eq_dec Z.eq_dec) [nth 0 g 0; nth 1 g 0] (map (fun p : list Z * list Z => [nth 0 (snd p) 0; nth 1 (snd p) 0]) pts)) as [I|I].
      * apply in_map_iff in I as ((d', g') & E & I). cbn [snd] in E. injection E as E1 E2. rewrite <- E1, <- E2, (A d' g' I).
        rewrite (F d' d g' g); auto; [now right|now left].
      * rewrite C, G; [now rewrite X|]. intros d' g' J E. apply I. apply in_map_iff. now exists (d', g').
    + intros ct slot N. rewrite C by (intros d' g' I; apply (N d' g'); now right). apply H. intros E. apply (N d g); [now left|easy].
Qed.
(** unpacking *)
Lemma read_ok {T} (m t : tensor T) shape cts slots pts : forall out, shaped shape t -> shaped shape out -> shaped [cts; slots] m ->
  (forall d g, In (d, g) pts -> in_box shape d /\ in_box [cts; slots] [nth 0 g 0; nth 1 g 0] /\ get m [nth 0 g 0; nth 1 g 0] = get t d) ->
  (forall d, in_box shape d -> get out d = get t d \/ exists g, In (d, g) pts) ->
  read_points m pts out = Some t.
Proof.
  induction pts as [|(d, g) pts IH]; intros out S O M B F; cbn [read_points].
  - f_equal. apply (get_ext shape); auto. intros d D. now destruct (F d D) as [?|(? & [])].
  - destruct (B d g ltac:(now left)) as (Bd & Bg & E). pose proof (proj1 (get_shaped _ _ _ M) Bg) as (x & X). rewrite X.
    destruct (put_shaped shape out d x O Bd) as (o & P & So & G & H). rewrite P. apply IH; auto.
    { intros d' g' I. apply B. now right. }
    intros d' D'. destruct (list_eq_dec Z.eq_dec d' d) as [->|N].
    + left. congruence.
    + destruct (F d' D') as [Q|(g' & [[= ? ?]|I])]; [left; rewrite H; auto|congruence|right; now exists g'].
Qed.
