(** Meaning of the operations on integer relations. *)
From Coq Require Import ZArith List Bool Lia.
From Verif Require Import NumTheory_Model Rel_Model.
Import ListNotations.
Open Scope Z_scope.

(** * Rows *)
Lemma dot_app a b x y : length a = length x -> dot (a ++ b) (x ++ y) = dot a x + dot b y.
Proof. revert x. induction a as [|c a IH]; intros [|z x] H; cbn in *; try lia. rewrite IH by lia. lia. Qed.
Lemma dot_zeros n x : dot (repeat 0 n) x = 0.
Proof. revert x. induction n as [|n IH]; intros [|z x]; cbn; rewrite ?IH; reflexivity. Qed.
Lemma dot_nil_r c : dot c [] = 0.
Proof. now destruct c. Qed.
Lemma set_length l p c : length (set l p c) = length l.
Proof. revert p. induction l as [|a l IH]; intros [|p]; cbn; auto. Qed.
Lemma dot_set l p c x : (p < length l)%nat -> dot (set l p c) x = dot l x + (c - nth p l 0) * nth p x 0.
Proof.
  revert p x. induction l as [|a l IH]; intros [|p] [|z x] H; cbn in *; try lia. rewrite (IH p x) by lia. lia.
Qed.
Lemma nth_set l p c k : (p < length l)%nat -> nth k (set l p c) 0 = if (k =? p)%nat then c else nth k l 0.
Proof.
  revert p k. induction l as [|a l IH]; intros [|p] [|k] H; cbn in *; try lia; auto. apply IH. lia.
Qed.
Lemma dot_opp c x : dot (map Z.opp c) x = - dot c x.
Proof. revert x. induction c as [|a c IH]; intros [|z x]; cbn; try lia. rewrite IH. lia. Qed.

Definition lin (l : list (nat * Z)) (x : list Z) : Z := fold_right (fun pc s => snd pc * nth (fst pc) x 0 + s) 0 l.
Lemma row_length n l : length (row n l) = n.
Proof.
  unfold row. enough (H : forall e, length (fold_left (fun e pc => set e (fst pc) (snd pc)) l e) = length e) by (rewrite H; apply repeat_length).
  induction l as [|[p c] l IH]; intros e; cbn; auto. now rewrite IH, set_length.
Qed.
Lemma dot_sets l e x : NoDup (map fst l) -> Forall (fun pc => (fst pc < length e)%nat) l ->
  dot (fold_left (fun e pc => set e (fst pc) (snd pc)) l e) x =
  dot e x + fold_right (fun pc s => (snd pc - nth (fst pc) e 0) * nth (fst pc) x 0 + s) 0 l.
Proof.
  revert e. induction l as [|[p c] l IH]; intros e N F; cbn [fold_left fold_right fst snd]; [lia|].
  cbn [map fst] in N. apply NoDup_cons_iff in N. destruct N as (Ni & N). apply Forall_cons_iff in F. cbn [fst] in F. destruct F as (Hp & F).
  rewrite IH; [|easy|]. 2:{ eapply Forall_impl; [|exact F]. intros a. now rewrite set_length. }
  rewrite dot_set by easy.
  enough (E : fold_right (fun (pc : nat * Z) s => (snd pc - nth (fst pc) (set e p c) 0) * nth (fst pc) x 0 + s) 0 l =
    fold_right (fun (pc : nat * Z) s => (snd pc - nth (fst pc) e 0) * nth (fst pc) x 0 + s) 0 l) by (rewrite E; lia).
  clear IH F N. induction l as [|[p' c'] l IH]; auto. cbn [fold_right fst snd map In] in *. rewrite IH by tauto.
  rewrite nth_set by easy. destruct (Nat.eqb_spec p' p) as [->|]; [tauto|reflexivity].
Qed.
Lemma dot_row n l x : NoDup (map fst l) -> Forall (fun pc => (fst pc < n)%nat) l -> dot (row n l) x = lin l x.
Proof.
  intros N F. unfold row. rewrite dot_sets by (rewrite ?repeat_length; easy). rewrite dot_zeros, Z.add_0_l. unfold lin.
  clear N. induction F as [|[p c] l Hp F IH]; auto. cbn [fold_right fst snd]. rewrite IH.
  rewrite nth_repeat. lia.
Qed.
Lemma lin_app l x y : Forall (fun pc => (fst pc < length x)%nat) l -> lin l (x ++ y) = lin l x.
Proof.
  unfold lin. induction 1 as [|[p c] l Hp F IH]; auto. cbn [fold_right fst snd] in *. rewrite IH. now rewrite app_nth1.
Qed.

Lemma widen_length k num e : length (widen k num e) = (length e + num)%nat.
Proof. unfold widen. rewrite !app_length, repeat_length, firstn_length, skipn_length. lia. Qed.
Lemma dot_widen k num e x y z : length x = k -> length y = num -> (k <= length e)%nat ->
  dot (widen k num e) (x ++ y ++ z) = dot e (x ++ z).
Proof.
  intros Hx Hy He. unfold widen. rewrite dot_app by (rewrite firstn_length; lia).
  rewrite dot_app by (rewrite repeat_length; lia). rewrite dot_zeros.
  rewrite <- (firstn_skipn k e) at 3. rewrite dot_app by (rewrite firstn_length; lia). lia.
Qed.

(** * Relations *)
Definition fits (r : rel) : Prop := Forall (fun e => length e = cols r) (eqs r) /\ Forall (fun e => length e = cols r) (ineqs r).
Lemma fits_space a b c : fits (space a b c).
Proof. split; constructor. Qed.
Lemma fits_eq r e : fits r -> length e = cols r -> fits (add_eq r e).
Proof. intros (A & B) H. split; [|exact B]. apply Forall_app. now split; [|constructor]. Qed.
Lemma fits_ineq r e : fits r -> length e = cols r -> fits (add_ineq r e).
Proof. intros (A & B) H. split; [exact A|]. apply Forall_app. now split; [|constructor]. Qed.
Lemma sat_eq r e x : sat (add_eq r e) x <-> sat r x /\ value e x = 0.
Proof. unfold sat. cbn. rewrite Forall_app. split; [intros ((A & B) & C); inversion B; tauto|intros ((A & B) & C); repeat split; auto]. Qed.
Lemma sat_ineq r e x : sat (add_ineq r e) x <-> sat r x /\ 0 <= value e x.
Proof. unfold sat. cbn. rewrite Forall_app. split; [intros (A & B & C); inversion C; tauto|intros ((A & B) & C); repeat split; auto]. Qed.
Lemma fits_widen r k num : fits r -> Forall (fun e => length e = (cols r + num)%nat) (map (widen k num) (eqs r)) /\
  Forall (fun e => length e = (cols r + num)%nat) (map (widen k num) (ineqs r)).
Proof. intros (A & B). rewrite !Forall_map. split; eapply Forall_impl; try eassumption; intros e H; cbn in H; rewrite widen_length; lia. Qed.
Lemma fits_local r : fits r -> fits (append_local r).
Proof.
  intros F. destruct (fits_widen r (local_end r) 1 F) as (A & B). unfold fits, append_local, widen_all, cols in *. cbn [nd nr nl eqs ineqs].
  split; eapply Forall_impl; try eassumption; intros e H; cbn in H; rewrite H; lia.
Qed.
Lemma fits_domain r p num : fits r -> fits (insert_domain r p num).
Proof.
  intros F. destruct (fits_widen r p num F) as (A & B). unfold fits, insert_domain, widen_all, cols in *. cbn [nd nr nl eqs ineqs].
  split; eapply Forall_impl; try eassumption; intros e H; cbn in H; rewrite H; lia.
Qed.
Lemma fits_range r p num : fits r -> fits (insert_range r p num).
Proof.
  intros F. destruct (fits_widen r (nd r + p) num F) as (A & B). unfold fits, insert_range, widen_all, cols in *. cbn [nd nr nl eqs ineqs].
  split; eapply Forall_impl; try eassumption; intros e H; cbn in H; rewrite H; lia.
Qed.
(** the new columns do not matter *)
Lemma sat_widen r k num x y z d g l : fits r -> length x = k -> length y = num -> (k + length z + 1 = cols r)%nat ->
  sat (Rel d g l (map (widen k num) (eqs r)) (map (widen k num) (ineqs r))) (x ++ y ++ z) <-> sat r (x ++ z).
Proof.
  intros (A & B) Hx Hy Hk. unfold sat. cbn [eqs ineqs].
  assert (V : forall e, length e = cols r -> value (widen k num e) (x ++ y ++ z) = value e (x ++ z)).
  { intros e He. unfold value. rewrite <- !app_assoc. apply dot_widen; auto. lia. }
  rewrite !Forall_map. split; intros (P & Q); split.
  all: rewrite Forall_forall in *; intros e I; specialize (A e); specialize (B e).
  - rewrite <- V by auto. now apply P.
  - rewrite <- V by auto. now apply Q.
  - rewrite V by auto. now apply P.
  - rewrite V by auto. now apply Q.
Qed.
Lemma sat_local r x q : fits r -> length x = local_end r -> (sat (append_local r) (x ++ [q]) <-> sat r x).
Proof.
  intros F Hx. rewrite <- (app_nil_r [q]). unfold append_local, widen_all. rewrite sat_widen; auto.
  - now rewrite app_nil_r.
  - unfold cols, local_end in *. cbn. lia.
Qed.
Lemma value_set e p c x : (p < length e)%nat -> (p < length x)%nat -> value (set e p c) x = value e x + (c - nth p e 0) * nth p x 0.
Proof. intros H1 H2. unfold value. rewrite dot_set by easy. now rewrite app_nth1. Qed.

Lemma last_app {A} (l : list A) a d : last (l ++ [a]) d = a.
Proof. induction l as [|b l IH]; auto. cbn [app last]. rewrite IH. now destruct (l ++ [a]) eqn:E; [destruct l|]. Qed.
Lemma split_last (e : list Z) : (0 < length e)%nat -> e = firstn (length e - 1) e ++ [last e 0].
Proof.
  intros H. destruct e as [|a e] using rev_ind; [easy|]. rewrite last_app, app_length. cbn [length].
  replace (length e + 1 - 1)%nat with (length e) by lia. rewrite firstn_app, Nat.sub_diag, firstn_all, firstn_O, app_nil_r. reflexivity.
Qed.
Lemma fits_floor r e m : fits r -> length e = cols r -> fits (add_floor_div r e m).
Proof.
  intros F H. unfold add_floor_div. apply fits_ineq; [apply fits_ineq; [now apply fits_local|]|].
  - rewrite set_length, widen_length, H. unfold append_local, widen_all, cols. cbn. lia.
  - rewrite !set_length, map_length, widen_length, H. unfold append_local, widen_all, cols. cbn. lia.
Qed.
Lemma sat_floor r e m x q : fits r -> length e = cols r -> length x = local_end r -> 0 < m ->
  (sat (add_floor_div r e m) (x ++ [q]) <-> sat r x /\ q = value e x / m).
Proof.
  intros F He Hx Hm. unfold add_floor_div. rewrite !sat_ineq, sat_local by easy.
  assert (Hc : length e = (length x + 1)%nat) by (unfold cols, local_end in *; lia).
  set (w := widen (length e - 1) 1 e).
  assert (Hw : length w = (length x + 2)%nat) by (unfold w; rewrite widen_length; lia).
  assert (Ew : w = firstn (length x) e ++ [0; last e 0]).
  { unfold w, widen. rewrite Hc. replace (length x + 1 - 1)%nat with (length x) by lia. f_equal. cbn [repeat app]. f_equal.
    rewrite (split_last e) at 1 by lia. rewrite Hc. replace (length x + 1 - 1)%nat with (length x) by lia.
    rewrite skipn_app. rewrite skipn_all2 by (rewrite firstn_length; lia). rewrite firstn_length. replace (length x - Nat.min (length x) (length e))%nat with 0%nat by lia. reflexivity. }
  assert (Lf : length (firstn (length x) e) = length x) by (rewrite firstn_length; lia).
  assert (N0 : nth (length x) w 0 = 0) by (rewrite Ew, app_nth2, Lf, Nat.sub_diag by lia; reflexivity).
  assert (N1 : nth (length x + 1) w 0 = last e 0) by (rewrite Ew, app_nth2, Lf by lia; replace (length x + 1 - length x)%nat with 1%nat by lia; reflexivity).
  assert (Vw : value w (x ++ [q]) = value e x).
  { unfold value, w. rewrite <- app_assoc. rewrite (dot_widen (length e - 1) 1 e x [q] [1]) by (cbn; lia). reflexivity. }
  replace (length w - 2)%nat with (length x) by lia. replace (length w - 1)%nat with (length x + 1)%nat by lia.
  assert (V1 : value (set w (length x) (- m)) (x ++ [q]) = value e x - m * q).
  { rewrite value_set by (rewrite ?app_length; cbn; lia). rewrite N0, Vw, app_nth2, Nat.sub_diag by lia. cbn. lia. }
  assert (V2 : value (set (set (map Z.opp w) (length x) m) (length x + 1) (m - 1 - last w 0)) (x ++ [q]) = m * q - value e x + m - 1).
  { unfold value. rewrite dot_set by (rewrite set_length, map_length; lia).
    rewrite dot_set by (rewrite map_length; lia). rewrite dot_opp. rewrite nth_set by (rewrite map_length; lia).
    replace (length x + 1 =? length x)%nat with false by (symmetry; apply Nat.eqb_neq; lia).
    assert (No : forall k, nth k (map Z.opp w) 0 = - nth k w 0) by (intros k; exact (map_nth Z.opp w 0 k)). rewrite !No, N0, N1. fold (value w (x ++ [q])). rewrite Vw.
    assert (Lw : last w 0 = last e 0) by (rewrite Ew; change [0; last e 0] with ([0] ++ [last e 0]); rewrite app_assoc; apply last_app).
    rewrite Lw. rewrite (app_nth1 (x ++ [q])) by (rewrite app_length; cbn; lia). rewrite (app_nth2 x) by lia. rewrite Nat.sub_diag.
    rewrite (app_nth2 (x ++ [q])) by (rewrite app_length; cbn; lia). rewrite app_length. cbn [length]. replace (length x + 1 - (length x + 1))%nat with 0%nat by lia.
    cbn [nth]. unfold value. lia. }
  rewrite V1, V2. split.
  - intros ((A & B) & C). split; [easy|]. apply Z.div_unique with (value e x - m * q); lia.
  - intros (A & ->). pose proof (Z.div_mod (value e x) m ltac:(lia)). pose proof (Z.mod_pos_bound (value e x) m Hm). refine (conj (conj A _) _); lia.
Qed.

Ltac splits := repeat match goal with |- _ /\ _ => split end; auto.
(** the local coefficients of a row are zero *)
Definition no_locals (r : rel) (e : list Z) : Prop :=
  length e = cols r /\ forall k, (local_at r <= k < local_end r)%nat -> nth k e 0 = 0.
Lemma row_ext (a b : list Z) : length a = length b -> (forall k, nth k a 0 = nth k b 0) -> a = b.
Proof. intros H E. apply nth_ext with 0 0; auto. Qed.
Lemma last_nth (e : list Z) : last e 0 = nth (length e - 1) e 0.
Proof.
  destruct e as [|a e] using rev_ind; [easy|]. rewrite last_app, app_length. cbn [length].
  rewrite app_nth2 by lia. replace (length e + 1 - 1 - length e)%nat with 0%nat by lia. reflexivity.
Qed.
Lemma nd_local r : nd (append_local r) = nd r. Proof. reflexivity. Qed.
Lemma shape_mod r e m : nd (fst (add_mod r e m)) = nd r /\ nr (fst (add_mod r e m)) = nr r /\ nl (fst (add_mod r e m)) = (nl r + 2)%nat /\
  snd (add_mod r e m) = (local_end r + 1)%nat.
Proof. unfold add_mod, append_local, add_floor_div, widen_all, local_end. cbn. splits; lia. Qed.
Lemma mod_row r e x q w m : no_locals r e -> length x = local_end r ->
  let r1 := append_local (add_floor_div r e m) in
  value (set (set (set (firstn (local_at r1) e ++ repeat 0 (cols r1 - local_at r1)) (cols r1 - 1) (last e 0)) (local_end r1 - 1 - 1) (- m)) (local_end r1 - 1) (-1))
    (x ++ [q; w]) = value e x - m * q - w.
Proof.
  intros (He & Hz) Hx r1.
  assert (C1 : cols r1 = (local_end r + 3)%nat) by (unfold r1, add_floor_div, append_local, widen_all, cols, local_end; cbn; lia).
  assert (L1 : local_at r1 = local_at r) by reflexivity.
  assert (E1 : local_end r1 = (local_end r + 2)%nat) by (unfold r1, add_floor_div, append_local, widen_all, local_end; cbn; lia).
  rewrite C1, L1, E1. set (n := local_end r) in *. set (k := local_at r) in *.
  assert (Hk : (k <= n)%nat) by (unfold k, n, local_at, local_end; lia).
  assert (Hc : length e = (n + 1)%nat) by (unfold n, cols, local_end in *; lia).
  replace (n + 2 - 1 - 1)%nat with n by lia. replace (n + 2 - 1)%nat with (n + 1)%nat by lia. replace (n + 3 - 1)%nat with (n + 2)%nat by lia.
  set (b := firstn k e ++ repeat 0 (n + 3 - k)).
  assert (Lb : length b = (n + 3)%nat) by (unfold b; rewrite app_length, firstn_length, repeat_length; lia).
  unfold value. rewrite !dot_set by (rewrite ?set_length; lia). rewrite !nth_set by (rewrite ?set_length; lia).
  replace (n =? n + 2)%nat with false by (symmetry; apply Nat.eqb_neq; lia).
  replace (n + 1 =? n)%nat with false by (symmetry; apply Nat.eqb_neq; lia).
  replace (n + 1 =? n + 2)%nat with false by (symmetry; apply Nat.eqb_neq; lia).
  assert (Zb : forall j, (k <= j)%nat -> nth j b 0 = 0).
  { intros j Hj. unfold b. rewrite app_nth2 by (rewrite firstn_length; lia). apply nth_repeat. }
  rewrite !Zb by lia.
  rewrite <- app_assoc. cbn [app].
  rewrite !app_nth2 by lia. rewrite Hx. replace (n + 2 - n)%nat with 2%nat by lia. replace (n - n)%nat with 0%nat by lia. replace (n + 1 - n)%nat with 1%nat by lia. cbn [nth].
  enough (E : dot e (x ++ [1]) = dot b (x ++ [q; w; 1]) + last e 0) by lia.
  assert (Ee : e = firstn k e ++ repeat 0 (n - k) ++ [last e 0]).
  { apply row_ext; [rewrite !app_length, firstn_length, repeat_length; cbn; lia|]. intros j.
    destruct (Nat.lt_ge_cases j k) as [Hj|Hj].
    - rewrite app_nth1 by (rewrite firstn_length; lia). rewrite <- (firstn_skipn k e) at 1. rewrite app_nth1 by (rewrite firstn_length; lia). reflexivity.
    - rewrite app_nth2 by (rewrite firstn_length; lia). rewrite firstn_length. replace (Nat.min k (length e)) with k by lia.
      destruct (Nat.lt_ge_cases j n) as [Hj'|Hj'].
      + rewrite app_nth1 by (rewrite repeat_length; lia). rewrite nth_repeat. apply Hz. fold k n. lia.
      + rewrite app_nth2 by (rewrite repeat_length; lia). rewrite repeat_length. destruct (Nat.eq_dec j n) as [->|Hn].
        * replace (n - k - (n - k))%nat with 0%nat by lia. cbn [nth]. rewrite last_nth. f_equal. lia.
        * rewrite !nth_overflow; [reflexivity|cbn; lia|lia]. }
  rewrite Ee at 1. unfold b. rewrite <- (firstn_skipn k x).
  rewrite <- !app_assoc. rewrite (dot_app (firstn k e) (repeat 0 (n - k) ++ [last e 0])), (dot_app (firstn k e) (repeat 0 (n + 3 - k))) by (rewrite !firstn_length; lia). rewrite (dot_zeros (n + 3 - k)).
  rewrite dot_app by (rewrite repeat_length, skipn_length; lia). rewrite dot_zeros. cbn. lia.
Qed.
Lemma fits_mod r e m : fits r -> length e = cols r -> fits (fst (add_mod r e m)).
Proof.
  intros F H. unfold add_mod. cbn [fst]. apply fits_eq; [apply fits_local; now apply fits_floor|].
  rewrite !set_length, app_length, firstn_length, repeat_length, H.
  unfold append_local, add_floor_div, widen_all, cols, local_at. cbn. lia.
Qed.
Lemma sat_mod r e m x q w : fits r -> no_locals r e -> length x = local_end r -> 0 < m ->
  (sat (fst (add_mod r e m)) (x ++ [q; w]) <-> sat r x /\ q = value e x / m /\ w = value e x mod m).
Proof.
  intros F He Hx Hm. unfold add_mod. cbn [fst]. rewrite sat_eq. rewrite mod_row by auto.
  change [q; w] with ([q] ++ [w]). rewrite app_assoc. rewrite sat_local; [|apply fits_floor; [easy|apply He]|].
  2:{ rewrite app_length, Hx. unfold add_floor_div, append_local, widen_all, local_end. cbn. lia. }
  rewrite sat_floor; try easy; [|apply He]. split.
  - intros ((A & ->) & C). splits. pose proof (Z.div_mod (value e x) m ltac:(lia)). lia.
  - intros (A & -> & ->). splits. pose proof (Z.div_mod (value e x) m ltac:(lia)). lia.
Qed.

(** * Related points *)
Lemma relates_space a b d g : relates (space a b 0) d g <-> length d = a /\ length g = b.
Proof.
  unfold relates, sat. cbn. split; [tauto|]. intros (A & B). splits. exists []. splits.
Qed.
Definition points (r : rel) (l : list (nat * Z)) : Prop := NoDup (map fst l) /\ Forall (fun pc => (fst pc < local_at r)%nat) l.
Lemma points_cols r l : points r l -> Forall (fun pc => (fst pc < cols r)%nat) l.
Proof. intros (_ & F). eapply Forall_impl; [|exact F]. intros a H. cbn in H. unfold cols, local_at in *. lia. Qed.
Lemma value_points r l d g x : points r l -> length d = nd r -> length g = nr r -> value (row (cols r) l) (d ++ g ++ x) = lin l (d ++ g).
Proof.
  intros P Hd Hg. unfold value. rewrite dot_row; [|apply P|now apply points_cols]. rewrite !app_assoc, <- app_assoc. apply lin_app.
  destruct P as (_ & F). eapply Forall_impl; [|exact F]. intros a H. cbn in H. rewrite app_length. unfold local_at in H. lia.
Qed.
Lemma relates_rows r l e d g : (forall x, length x = nl r -> (e (d ++ g ++ x) = true <-> l)) ->
  ((length d = nd r /\ length g = nr r /\ exists x, length x = nl r /\ sat r (d ++ g ++ x) /\ e (d ++ g ++ x) = true) <-> relates r d g /\ l).
Proof. unfold relates. intros H. split; [intros (A & B & x & C & D & E); rewrite H in E by easy; splits; now exists x|].
  intros ((A & B & x & C & D) & L). splits. exists x. splits. now apply H. Qed.
Lemma relates_eq r l d g : points r l -> (relates (add_constraint r l true) d g <-> relates r d g /\ lin l (d ++ g) = 0).
Proof.
  intros P. unfold relates, add_constraint. cbn [add_eq nd nr nl]. split.
  - intros (A & B & x & C & S). apply sat_eq in S. rewrite value_points in S by auto. splits; [exists x; tauto|tauto].
  - intros ((A & B & x & C & S) & L). splits. exists x. split; [easy|]. apply sat_eq. now rewrite value_points.
Qed.
Lemma relates_lower r p v d g : (p < local_at r)%nat -> (relates (lower_bound r p v) d g <-> relates r d g /\ v <= nth p (d ++ g) 0).
Proof.
  intros P. unfold relates, lower_bound. cbn [add_ineq nd nr nl].
  assert (V : forall x, length d = nd r -> length g = nr r -> length x = nl r ->
     value (row (cols r) [(p, 1); ((cols r - 1)%nat, - v)]) (d ++ g ++ x) = nth p (d ++ g) 0 - v).
  { intros x Hd Hg Hx. assert (Hc : cols r = (length (d ++ g ++ x) + 1)%nat) by (rewrite !app_length; unfold cols; lia).
    unfold value. rewrite dot_row. 2:{ repeat constructor; cbn; [|tauto]. unfold local_at, cols in *. intros [H|[]]. lia. }
    2:{ unfold local_at, cols in *. repeat constructor; cbn; lia. }
    unfold lin. cbn [fold_right fst snd]. rewrite Hc. replace (length (d ++ g ++ x) + 1 - 1)%nat with (length (d ++ g ++ x)) by lia.
    rewrite (app_nth2 (d ++ g ++ x) [1] 0 (Nat.le_refl (length (d ++ g ++ x)))). rewrite Nat.sub_diag. rewrite (app_nth1 (d ++ g ++ x)) by (rewrite !app_length; unfold local_at in P; lia).
    rewrite (app_assoc d g x), (app_nth1 (d ++ g) x) by (rewrite app_length; unfold local_at in P; lia). cbn [nth]. lia. }
  split.
  - intros (A & B & x & C & S). apply sat_ineq in S. rewrite V in S by auto. splits; [exists x; tauto|lia].
  - intros ((A & B & x & C & S) & L). splits. exists x. split; [easy|]. apply sat_ineq. rewrite V by auto. split; [easy|lia].
Qed.
Lemma relates_upper r p v d g : (p < local_at r)%nat -> (relates (upper_bound r p v) d g <-> relates r d g /\ nth p (d ++ g) 0 <= v).
Proof.
  intros P. unfold relates, upper_bound. cbn [add_ineq nd nr nl].
  assert (V : forall x, length d = nd r -> length g = nr r -> length x = nl r ->
     value (row (cols r) [(p, -1); ((cols r - 1)%nat, v)]) (d ++ g ++ x) = v - nth p (d ++ g) 0).
  { intros x Hd Hg Hx. assert (Hc : cols r = (length (d ++ g ++ x) + 1)%nat) by (rewrite !app_length; unfold cols; lia).
    unfold value. rewrite dot_row. 2:{ repeat constructor; cbn; [|tauto]. unfold local_at, cols in *. intros [H|[]]. lia. }
    2:{ unfold local_at, cols in *. repeat constructor; cbn; lia. }
    unfold lin. cbn [fold_right fst snd]. rewrite Hc. replace (length (d ++ g ++ x) + 1 - 1)%nat with (length (d ++ g ++ x)) by lia.
    rewrite (app_nth2 (d ++ g ++ x) [1] 0 (Nat.le_refl (length (d ++ g ++ x)))). rewrite Nat.sub_diag. rewrite (app_nth1 (d ++ g ++ x)) by (rewrite !app_length; unfold local_at in P; lia).
    rewrite (app_assoc d g x), (app_nth1 (d ++ g) x) by (rewrite app_length; unfold local_at in P; lia). cbn [nth]. lia. }
  split.
  - intros (A & B & x & C & S). apply sat_ineq in S. rewrite V in S by auto. splits; [exists x; tauto|lia].
  - intros ((A & B & x & C & S) & L). splits. exists x. split; [easy|]. apply sat_ineq. rewrite V by auto. split; [easy|lia].
Qed.
Lemma relates_bounds r p lo up d g : (p < local_at r)%nat ->
  (relates (add_bounds r p lo (Some up)) d g <-> relates r d g /\ lo <= nth p (d ++ g) 0 <= up).
Proof. intros P. unfold add_bounds. rewrite relates_upper by exact P. rewrite relates_lower by exact P. tauto. Qed.
Lemma fits_bound_l r p v : fits r -> fits (lower_bound r p v).
Proof. intros F. apply fits_ineq; auto. apply row_length. Qed.
Lemma fits_bound_u r p v : fits r -> fits (upper_bound r p v).
Proof. intros F. apply fits_ineq; auto. apply row_length. Qed.
Lemma fits_bounds r p lo up : fits r -> fits (add_bounds r p lo up).
Proof. intros F. unfold add_bounds. destruct up; [apply fits_bound_u|]; now apply fits_bound_l. Qed.
Lemma fits_constraint r l b : fits r -> fits (add_constraint r l b).
Proof. intros F. unfold add_constraint. destruct b; [apply fits_eq|apply fits_ineq]; auto; apply row_length. Qed.
Lemma no_locals_row r l : points r l -> no_locals r (row (cols r) l).
Proof.
  intros (N & F). split; [apply row_length|]. intros k Hk. unfold row.
  assert (G : forall e, Forall (fun pc => (fst pc < length e)%nat) l -> nth k (fold_left (fun e pc => set e (fst pc) (snd pc)) l e) 0 = nth k e 0).
  { clear N. induction F as [|[p c] l Hp F IH]; intros e He; auto. cbn [fold_left fst snd] in *. apply Forall_cons_iff in He. cbn [fst] in He. rewrite IH.
    - rewrite nth_set by tauto. replace (k =? p)%nat with false; [easy|]. symmetry. apply Nat.eqb_neq. lia.
    - eapply Forall_impl; [|apply He]. intros a. now rewrite set_length. }
  rewrite G; [apply nth_repeat|]. rewrite repeat_length. apply points_cols. now split.
Qed.
Lemma local_at_mod r e m : local_at (fst (add_mod r e m)) = local_at r. Proof. reflexivity. Qed.
(** a new variable equal to another one *)
Lemma relates_mod_eq r l m v d g : fits r -> points r l -> (v < local_at r)%nat -> 0 < m ->
  (relates (add_mod_eq r l m v) d g <-> relates r d g /\ lin l (d ++ g) mod m = nth v (d ++ g) 0).
Proof.
  intros F P Hv Hm. unfold add_mod_eq. destruct (add_mod r (row (cols r) l) m) as [r1 p] eqn:E.
  destruct (shape_mod r (row (cols r) l) m) as (Sd & Sr & Sl & Sp). rewrite E in *. cbn [fst snd] in *.
  pose proof (sat_mod r (row (cols r) l) m) as SM. rewrite E in SM. cbn [fst] in SM.
  assert (C1 : cols r1 = (local_end r + 3)%nat) by (unfold cols, local_end; lia).
  assert (V : forall x q w, length d = nd r -> length g = nr r -> length x = nl r ->
     value (row (cols r1) [(v, 1); (p, -1)]) (d ++ g ++ x ++ [q; w]) = nth v (d ++ g) 0 - w).
  { intros x q w Hd Hg Hx. unfold value. rewrite dot_row. 2:{ repeat constructor; cbn; [|tauto]. unfold local_at, local_end in *. intros [H|[]]. lia. }
    2:{ rewrite C1. unfold local_at, local_end in *. repeat constructor; cbn; lia. }
    unfold lin. cbn [fold_right fst snd]. rewrite Sp.
    rewrite (app_nth1 (d ++ g ++ x ++ [q; w])) by (rewrite !app_length; unfold local_at in Hv; lia).
    rewrite (app_assoc d g), (app_nth1 (d ++ g)) by (rewrite app_length; unfold local_at in Hv; lia).
    rewrite (app_nth1 ((d ++ g) ++ x ++ [q; w])) by (rewrite !app_length; cbn; unfold local_end; lia).
    rewrite (app_assoc (d ++ g) x), (app_nth2 ((d ++ g) ++ x)) by (rewrite !app_length; unfold local_end; lia).
    rewrite !app_length. replace (local_end r + 1 - (length d + length g + length x))%nat with 1%nat by (unfold local_end; lia). cbn [nth]. lia. }
  unfold relates. cbn [add_eq nd nr nl]. rewrite Sd, Sr, Sl. split.
  - intros (A & B & y & C & S). assert (exists x q w, y = x ++ [q; w] /\ length x = nl r) as (x & q & w & -> & Lx).
    { exists (firstn (nl r) y). assert (Ls : length (skipn (nl r) y) = 2%nat) by (rewrite skipn_length; lia).
      destruct (skipn (nl r) y) as [|q [|w [|]]] eqn:Es; try (cbn in Ls; lia). exists q, w. rewrite <- Es, firstn_skipn. split; [easy|]. rewrite firstn_length. lia. }
    apply sat_eq in S. rewrite V in S by auto. destruct S as (S & W). rewrite !app_assoc in S. rewrite <- (app_assoc d g x) in S.
    apply SM in S; auto; [|now apply no_locals_row|rewrite !app_length; unfold local_end; lia].
    rewrite value_points in S by auto. destruct S as (S & _ & Ew). split; [splits; now exists x|]. lia.
  - intros ((A & B & x & C & S) & L). splits. exists (x ++ [lin l (d ++ g) / m; lin l (d ++ g) mod m]).
    split; [rewrite app_length; cbn; lia|]. apply sat_eq. rewrite V by auto. split; [|lia]. rewrite !app_assoc. rewrite <- (app_assoc d g x).
    apply SM; auto; [now apply no_locals_row|rewrite !app_length; unfold local_end; lia|]. rewrite value_points by auto. tauto.
Qed.
Lemma fits_mod_eq r l m v : fits r -> fits (add_mod_eq r l m v).
Proof.
  intros F. unfold add_mod_eq. destruct (add_mod r (row (cols r) l) m) as [r1 p] eqn:E. apply fits_eq; [|apply row_length].
  change r1 with (fst (r1, p)). rewrite <- E. apply fits_mod; auto. apply row_length.
Qed.
Lemma dims_mod_eq r l m v : nd (add_mod_eq r l m v) = nd r /\ nr (add_mod_eq r l m v) = nr r.
Proof.
  unfold add_mod_eq. destruct (add_mod r (row (cols r) l) m) as [r1 p] eqn:E.
  destruct (shape_mod r (row (cols r) l) m) as (Sd & Sr & _). rewrite E in *. now cbn.
Qed.

(** the part of a row on the visible variables *)
Definition vis (r : rel) (e y : list Z) : Z := dot (firstn (local_at r) e) y + last e 0.
Lemma value_vis r e d g x : no_locals r e -> length d = nd r -> length g = nr r -> length x = nl r -> value e (d ++ g ++ x) = vis r e (d ++ g).
Proof.
  intros (He & Hz) Hd Hg Hx. unfold vis.
  assert (Ee : e = firstn (local_at r) e ++ repeat 0 (nl r) ++ [last e 0]).
  { set (k := local_at r) in *. assert (Hk : length e = (k + nl r + 1)%nat) by (unfold k, cols, local_at in *; lia).
    apply row_ext; [rewrite !app_length, firstn_length, repeat_length; cbn; lia|]. intros j.
    destruct (Nat.lt_ge_cases j k) as [Hj|Hj].
    - rewrite app_nth1 by (rewrite firstn_length; lia). rewrite <- (firstn_skipn k e) at 1. rewrite app_nth1 by (rewrite firstn_length; lia). reflexivity.
    - rewrite app_nth2 by (rewrite firstn_length; lia). rewrite firstn_length. replace (Nat.min k (length e)) with k by lia.
      destruct (Nat.lt_ge_cases (j - k) (nl r)) as [Hj'|Hj'].
      + rewrite app_nth1 by (rewrite repeat_length; lia). rewrite nth_repeat. apply Hz. unfold k, local_at, local_end in *. lia.
      + rewrite app_nth2 by (rewrite repeat_length; lia). rewrite repeat_length. destruct (Nat.eq_dec (j - k) (nl r)) as [Hn|Hn].
        * rewrite Hn, Nat.sub_diag. cbn [nth]. rewrite last_nth. f_equal. lia.
        * rewrite !nth_overflow; [reflexivity|cbn; lia|lia]. }
  assert (Lf : length (firstn (local_at r) e) = length (d ++ g)) by (rewrite firstn_length, app_length; unfold cols, local_at in *; lia).
  unfold value. rewrite Ee at 1. rewrite (app_assoc d g x), <- (app_assoc (d ++ g) x).
  rewrite (dot_app (firstn (local_at r) e)) by exact Lf. rewrite (dot_app (repeat 0 (nl r))) by (rewrite repeat_length; lia). rewrite dot_zeros. cbn [dot]. lia.
Qed.
Lemma vis_row r l y : points r l -> length y = local_at r -> vis r (row (cols r) l) y = lin l y.
Proof.
  intros P Hy. set (d := firstn (nd r) y). set (g := skipn (nd r) y).
  assert (E : y = d ++ g) by (symmetry; apply firstn_skipn).
  assert (Ld : length d = nd r) by (unfold d; rewrite firstn_length; unfold local_at in Hy; lia).
  assert (Lg : length g = nr r) by (unfold g; rewrite skipn_length; unfold local_at in Hy; lia).
  rewrite E. rewrite <- (value_vis r _ d g (repeat 0 (nl r))); auto; [|now apply no_locals_row|apply repeat_length]. now apply value_points.
Qed.
Lemma relates_add_mod r e m f d g (Q : Z -> Prop) : fits r -> no_locals r e -> 0 < m ->
  (forall x q w, length d = nd r -> length g = nr r -> length x = nl r -> (value f (d ++ g ++ x ++ [q; w]) = 0 <-> Q w)) ->
  (relates (add_eq (fst (add_mod r e m)) f) d g <-> relates r d g /\ Q (vis r e (d ++ g) mod m)).
Proof.
  intros F He Hm V. destruct (shape_mod r e m) as (Sd & Sr & Sl & _).
  unfold relates. cbn [add_eq nd nr nl]. rewrite Sd, Sr, Sl. split.
  - intros (A & B & y & C & S). assert (exists x q w, y = x ++ [q; w] /\ length x = nl r) as (x & q & w & -> & Lx).
    { exists (firstn (nl r) y). assert (Ls : length (skipn (nl r) y) = 2%nat) by (rewrite skipn_length; lia).
      destruct (skipn (nl r) y) as [|q [|w [|]]] eqn:Es; try (cbn in Ls; lia). exists q, w. rewrite <- Es, firstn_skipn. split; [easy|]. rewrite firstn_length. lia. }
    apply sat_eq in S. rewrite V in S by auto. destruct S as (S & W). rewrite !app_assoc in S. rewrite <- (app_assoc d g x) in S.
    apply sat_mod in S; auto; [|rewrite !app_length; unfold local_end; lia].
    rewrite (value_vis r) in S by auto. destruct S as (S & _ & Ew). split; [splits; now exists x|]. now subst w.
  - intros ((A & B & x & C & S) & L). splits. exists (x ++ [vis r e (d ++ g) / m; vis r e (d ++ g) mod m]).
    split; [rewrite app_length; cbn; lia|]. apply sat_eq. rewrite V by auto. split; [|easy]. rewrite !app_assoc. rewrite <- (app_assoc d g x).
    apply sat_mod; auto; [rewrite !app_length; unfold local_end; lia|]. rewrite (value_vis r) by auto. tauto.
Qed.
Lemma relates_bound_all sizes : forall r p d g, (p + length sizes <= local_at r)%nat ->
  (relates (bound_all r p sizes) d g <-> relates r d g /\ forall i, (i < length sizes)%nat -> 0 <= nth (p + i) (d ++ g) 0 < nth i sizes 0).
Proof.
  induction sizes as [|s sizes IH]; intros r p d g H; cbn [bound_all length].
  - split; [intros R; split; [easy|]; intros i Hi; lia|tauto].
  - cbn [length] in H. rewrite IH; [|change (local_at (add_bounds r p 0 (Some (s - 1)))) with (local_at r); lia].
    rewrite relates_bounds by lia. split.
    + intros ((R & B) & K). split; [easy|]. intros [|i] Hi; cbn [nth].
      * rewrite Nat.add_0_r. lia.
      * rewrite <- Nat.add_succ_comm. apply K. lia.
    + intros (R & K). split; [split; [easy|]|].
      * specialize (K 0%nat ltac:(lia)). rewrite Nat.add_0_r in K. cbn [nth] in K. lia.
      * intros i Hi. specialize (K (S i) ltac:(lia)). now rewrite <- Nat.add_succ_comm in K.
Qed.
Lemma fits_bound_all sizes : forall r p, fits r -> fits (bound_all r p sizes).
Proof. induction sizes as [|s sizes IH]; intros r p F; cbn [bound_all]; auto. apply IH. now apply fits_bounds. Qed.
Lemma dims_bound_all sizes : forall r p, nd (bound_all r p sizes) = nd r /\ nr (bound_all r p sizes) = nr r /\ nl (bound_all r p sizes) = nl r.
Proof. induction sizes as [|s sizes IH]; intros r p; cbn [bound_all]; auto. destruct (IH (add_bounds r p 0 (Some (s - 1))) (S p)) as (-> & -> & ->). auto. Qed.
