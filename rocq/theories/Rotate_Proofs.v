(** Proofs about the rotation patterns. *)
From Coq Require Import ZArith List Bool Lia.
From Verif Require Import Words ModArith_Proofs Rotate_Spec Rotate_Model.
Import ListNotations.
Open Scope Z_scope.

(** ** Rows *)
Section Rows.
Variable E : Type.
Notation rot := (rot E).

Lemma rot_length s l : length (rot s l) = length l.
Proof. destruct l; auto. unfold rot. rewrite map_length, seq_length. reflexivity. Qed.
Lemma nth_rot s l d j : (j < length l)%nat -> nth j (rot s l) d = nth (Z.to_nat ((Z.of_nat j + s) mod Z.of_nat (length l))) l d.
Proof.
  intros H. destruct l as [|e l]; [cbn in H; lia|]. unfold rot.
  set (f := fun j => _). rewrite (nth_indep _ d (f 0%nat)) by (rewrite map_length, seq_length; auto). rewrite (map_nth f), seq_nth by auto. cbn [Nat.add]. unfold f.
  apply nth_indep. pose proof (Z.mod_pos_bound (Z.of_nat j + s) (Z.of_nat (length (e :: l))) ltac:(cbn [length]; lia)). lia.
Qed.
Lemma rot_ext s s' l : (forall j, 0 <= j < Z.of_nat (length l) -> (j + s) mod Z.of_nat (length l) = (j + s') mod Z.of_nat (length l)) -> rot s l = rot s' l.
Proof.
  intros H. destruct l as [|e l]; auto. unfold rot. apply map_ext_in. intros j Hj. apply in_seq in Hj. rewrite H by lia. reflexivity.
Qed.
Lemma rot_congr s s' l : s mod Z.of_nat (length l) = s' mod Z.of_nat (length l) -> rot s l = rot s' l.
Proof. intros H. apply rot_ext. intros j _. destruct (Z.eq_dec (Z.of_nat (length l)) 0) as [E0|E0].
  - rewrite E0, !Zmod_0_r in *. lia.
  - rewrite <- (Z.add_mod_idemp_r j s), <- (Z.add_mod_idemp_r j s') by auto. rewrite H. reflexivity.
Qed.
Lemma nth_ext_len (l m : list E) : length l = length m -> (forall d j, (j < length l)%nat -> nth j l d = nth j m d) -> l = m.
Proof.
  revert m. induction l as [|a l IH]; intros [|b m] L H; try discriminate; auto. f_equal.
  - apply (H a 0%nat). cbn. lia.
  - apply IH; [cbn in L; lia|]. intros d j Hj. apply (H d (S j)). cbn. lia.
Qed.
Lemma rot_rot s s' l : rot s (rot s' l) = rot (s + s') l.
Proof.
  apply nth_ext_len; [rewrite !rot_length; reflexivity|]. intros d j Hj. rewrite !rot_length in Hj.
  rewrite nth_rot by (rewrite rot_length; auto). rewrite rot_length.
  pose proof (Z.mod_pos_bound (Z.of_nat j + s) (Z.of_nat (length l)) ltac:(lia)) as B.
  rewrite nth_rot by lia. rewrite nth_rot by auto. rewrite Z2Nat.id by lia. rewrite Zplus_mod_idemp_l. do 3 f_equal. lia.
Qed.
Lemma rot_0 l : rot 0 l = l.
Proof.
  apply nth_ext_len; [apply rot_length|]. intros d j Hj. rewrite rot_length in Hj. rewrite nth_rot by auto. rewrite Z.add_0_r, Z.mod_small by lia.
  rewrite Nat2Z.id. reflexivity.
Qed.
Lemma rot_repeat s e n : rot s (repeat e n) = repeat e n.
Proof.
  apply nth_ext_len; [apply rot_length|]. intros d j Hj. rewrite rot_length in Hj. rewrite nth_rot by auto. rewrite repeat_length in *.
  rewrite !(nth_indep _ d e) by (rewrite repeat_length; auto; pose proof (Z.mod_pos_bound (Z.of_nat j + s) (Z.of_nat n) ltac:(lia)); lia).
  rewrite !nth_repeat. reflexivity.
Qed.
End Rows.

Lemma map2_length {A B C} (f : A -> B -> C) l : forall m, length l = length m -> length (map2 f l m) = length l.
Proof. induction l as [|a l IH]; intros [|b m] H; try discriminate; cbn; auto. Qed.
Lemma nth_map2 {A B C} (f : A -> B -> C) l : forall m j a b c, length l = length m -> (j < length l)%nat -> nth j (map2 f l m) c = f (nth j l a) (nth j m b).
Proof. induction l as [|x l IH]; intros [|y m] [|j] a b c H Hj; try discriminate; cbn in *; try lia; auto. apply IH; lia. Qed.
Lemma rot_map2 E (f : E -> E -> E) s l m : length l = length m -> map2 f (rot E s l) (rot E s m) = rot E s (map2 f l m).
Proof.
  intros L. apply nth_ext_len; [rewrite rot_length, !map2_length; rewrite ?rot_length; auto|].
  intros d j Hj. rewrite map2_length in Hj by (rewrite !rot_length; auto). rewrite rot_length in Hj.
  rewrite (nth_map2 f _ _ j d d d) by (rewrite !rot_length; auto). rewrite !nth_rot by lia.
  rewrite nth_rot by (rewrite map2_length; auto). rewrite map2_length by auto.
  pose proof (Z.mod_pos_bound (Z.of_nat j + s) (Z.of_nat (length l)) ltac:(lia)).
  rewrite (nth_map2 f _ _ _ d d d) by lia. rewrite <- L. reflexivity.
Qed.
Lemma rot_rows E (f : E -> E -> E) s n u : forall v, Forall (fun r => length r = n) u -> Forall (fun r => length r = n) v ->
  map2 (map2 f) (map (rot E s) u) (map (rot E s) v) = map (rot E s) (map2 (map2 f) u v).
Proof.
  induction u as [|a u IH]; intros [|b v] Hu Hv; auto. cbn. inversion Hu; inversion Hv; subst. rewrite rot_map2 by congruence. f_equal. auto.
Qed.

(** ** Signed words *)
Lemma sgn_congr w x : 1 <= w -> is_word w x -> exists k, sgn w x = x + k * 2 ^ w.
Proof. intros Hw H. unfold sgn. destruct (x <? 2 ^ (w - 1)); [exists 0|exists (-1)]; lia. Qed.
Lemma divide_mod n m x k : 0 < n -> (n | m) -> (x + k * m) mod n = x mod n.
Proof. intros Hn [q ->]. replace (x + k * (q * n)) with (x + (k * q) * n) by ring. apply Z_mod_plus_full. Qed.
Lemma wrap_divide n w x : 0 < n -> 0 <= w -> (n | 2 ^ w) -> wrap w x mod n = x mod n.
Proof.
  intros Hn Hw D. unfold wrap. rewrite (Z.mod_eq x (2 ^ w)) by (apply Z.pow_nonzero; lia).
  replace (x - 2 ^ w * (x / 2 ^ w)) with (x + (- (x / 2 ^ w)) * 2 ^ w) by ring. apply divide_mod; auto.
Qed.
Lemma sgn_divide n w x : 0 < n -> 1 <= w -> (n | 2 ^ w) -> is_word w x -> sgn w x mod n = x mod n.
Proof. intros Hn Hw D H. destruct (sgn_congr w x Hw H) as [k ->]. apply divide_mod; auto. Qed.

Lemma sty_eqb_ok a b : sty_eqb a b = true <-> a = b.
Proof. destruct a, b; cbn; split; intros H; try discriminate; auto; [apply Z.eqb_eq in H; subst; auto|inversion H; apply Z.eqb_refl]. Qed.
Lemma sty_eqb_refl a : sty_eqb a a = true. Proof. apply sty_eqb_ok. auto. Qed.
Lemma sexp_eqb_ok a : forall b, sexp_eqb a b = true -> a = b.
Proof.
  induction a; intros [] H; cbn in H; try discriminate.
  - apply Nat.eqb_eq in H. subst. auto.
  - apply andb_prop in H. destruct H as [H1 H2]. apply sty_eqb_ok in H1. apply Z.eqb_eq in H2. subst. auto.
  - apply andb_prop in H. destruct H. f_equal; auto.
  - apply andb_prop in H. destruct H. f_equal; auto.
  - apply andb_prop in H. destruct H. f_equal; auto.
  - apply andb_prop in H. destruct H as [H1 H2]. apply sty_eqb_ok in H1. f_equal; auto.
Qed.
Lemma ttype_eqb_ok a b : ttype_eqb a b = true <-> a = b.
Proof.
  unfold ttype_eqb. destruct a as [l n], b as [m k]. cbn [fst snd]. destruct (list_eq_dec Z.eq_dec l m); cbn.
  - subst. rewrite Z.eqb_eq. split; intros H; [subst; auto|inversion H; auto].
  - split; intros H; [discriminate|inversion H; contradiction].
Qed.
Lemma ttype_eqb_refl a : ttype_eqb a a = true. Proof. apply ttype_eqb_ok. auto. Qed.

(** ** Expressions *)
Section Exprs.
Variable E : Type.
Variable sem : arith -> E -> E -> E.
Variable styp : nat -> sty.
Variable sval : nat -> Z.
Variable ttyp : nat -> ttype.
Variable tval : nat -> list (list E).
Variable xval : nat -> E.
Notation seval := (seval styp sval).
Notation typeof := (typeof E ttyp).
Notation teval := (teval E sem styp sval ttyp tval).
Notation xeval := (xeval E sem styp sval ttyp tval xval).

Notation sok := (sok styp sval).
Notation shifts_ok := (shifts_ok E styp sval).
Notation const_free := (const_free E).
Lemma sok_range T s x : 1 <= width T -> sok T s -> seval s = Some x -> fst x = T /\ is_word (width T) (snd x).
Proof.
  assert (P : forall w y, 1 <= w -> is_word w (wrap w y)).
  { intros w y Hw. unfold is_word, wrap. apply Z.mod_pos_bound. apply Z.pow_pos_nonneg; lia. }
  intros HT. revert x. induction s as [y|t v|a IHa b IHb|a IHa b IHb|a IHa b IHb|t a IHa]; intros x Hs H; cbn [Rotate_Spec.seval Rotate_Spec.sok] in *.
  - injection H as <-. cbn. auto.
  - injection H as <-. cbn. auto.
  - destruct Hs as [Ha Hb]. destruct (seval a) as [u|] eqn:Ea; [|discriminate]. destruct (seval b) as [v|] eqn:Eb; [|discriminate]. cbn [bind] in H.
    destruct (IHa _ Ha eq_refl) as [<- Wa]. destruct (sty_eqb _ _); [|discriminate]. injection H as <-. cbn. split; auto. apply P. auto.
  - destruct Hs as [Ha Hb]. destruct (seval a) as [u|] eqn:Ea; [|discriminate]. destruct (seval b) as [v|] eqn:Eb; [|discriminate]. cbn [bind] in H.
    destruct (IHa _ Ha eq_refl) as [<- Wa]. destruct (sty_eqb _ _); [|discriminate]. injection H as <-. cbn. split; auto. apply P. auto.
  - destruct Hs as [Ha Hb]. destruct (seval a) as [u|] eqn:Ea; [|discriminate]. destruct (seval b) as [v|] eqn:Eb; [|discriminate]. cbn [bind] in H.
    destruct (IHa _ Ha eq_refl) as [<- Wa]. destruct (IHb _ Hb eq_refl) as [F Wb]. destruct (sty_eqb _ _); [|discriminate]. unfold remui in H.
    destruct (Z.eqb_spec (snd v) 0); [discriminate|]. cbn [bind] in H. injection H as <-. cbn. split; auto. unfold is_word in *.
    pose proof (Z.mod_pos_bound (snd u) (snd v) ltac:(lia)). lia.
  - destruct Hs as [-> [T' Ha]]. destruct (seval a) as [u|] eqn:Ea; [|discriminate]. cbn [bind] in H. injection H as <-. cbn. split; auto.
Qed.
Lemma seval_add T a b x y : 1 <= width T -> sok T a -> sok T b -> seval a = Some x -> seval b = Some y ->
  seval (SAdd a b) = Some (T, addi (width T) (snd x) (snd y)).
Proof.
  intros HT Ha Hb Ea Eb. destruct (sok_range T a x HT Ha Ea) as [F1 _]. destruct (sok_range T b y HT Hb Eb) as [F2 _].
  cbn [Rotate_Spec.seval]. rewrite Ea, Eb. cbn [bind]. rewrite F1, F2, sty_eqb_refl. reflexivity.
Qed.
Lemma seval_sub T a b x y : 1 <= width T -> sok T a -> sok T b -> seval a = Some x -> seval b = Some y ->
  seval (SSub a b) = Some (T, subi (width T) (snd x) (snd y)).
Proof.
  intros HT Ha Hb Ea Eb. destruct (sok_range T a x HT Ha Ea) as [F1 _]. destruct (sok_range T b y HT Hb Eb) as [F2 _].
  cbn [Rotate_Spec.seval]. rewrite Ea, Eb. cbn [bind]. rewrite F1, F2, sty_eqb_refl. reflexivity.
Qed.


(** the tensors passed in have their types *)
Hypothesis tval_ok : tensors_ok E ttyp tval.

Definition shaped (ty : ttype) (v : list (list E)) : Prop := length v = rows_of (fst ty) /\ Forall (fun r => length r = Z.to_nat (snd ty)) v.
Lemma chunks_shape k n l : length l = (k * n)%nat -> length (chunks E k n l) = k /\ Forall (fun r => length r = n) (chunks E k n l).
Proof.
  revert l. induction k as [|k IH]; intros l H; [cbn; auto|]. cbn [chunks length]. destruct (IH (skipn n l)) as [A B].
  { rewrite skipn_length. cbn in H. lia. }
  split; [lia|]. constructor; auto. rewrite firstn_length. cbn in H. lia.
Qed.
Lemma teval_shape t : forall ty v, typeof t = Some ty -> teval t = Some v -> shaped ty v.
Proof.
  induction t as [x|ty d|a IHa s|o a IHa b IHb]; intros ty' v Ht Hv; cbn [Rotate_Spec.typeof Rotate_Spec.teval] in *.
  - injection Ht as <-. injection Hv as <-. apply tval_ok.
  - injection Ht as <-. destruct ty as [lead n]. destruct d as [e|l].
    + injection Hv as <-. split; [apply repeat_length|]. apply Forall_forall. intros r Hr. apply repeat_spec in Hr. subst. cbn. apply repeat_length.
    + destruct (Nat.eqb_spec (length l) (rows_of lead * Z.to_nat n)); [|discriminate]. injection Hv as <-. apply chunks_shape. auto.
  - destruct (teval a) as [u|]; [|discriminate]. destruct (seval s) as [x|]; [|discriminate]. cbn [bind] in Hv. injection Hv as <-.
    destruct (IHa _ _ Ht eq_refl) as [L F]. split; [rewrite map_length; auto|]. apply Forall_map. eapply Forall_impl; [|exact F]. intros r Hr. cbn. rewrite rot_length. auto.
  - destruct (typeof a) as [ta|]; [|discriminate]. destruct (typeof b) as [tb|]; [|discriminate]. cbn [bind] in *.
    destruct (ttype_eqb ta tb) eqn:Q; [|discriminate]. apply ttype_eqb_ok in Q. subst tb. injection Ht as <-.
    destruct (teval a) as [u|]; [|discriminate]. destruct (teval b) as [w|]; [|discriminate]. cbn [bind] in Hv. injection Hv as <-.
    destruct (IHa _ _ eq_refl eq_refl) as [L F]. destruct (IHb _ _ eq_refl eq_refl) as [L' F']. split; [rewrite map2_length; lia|].
    clear -F F'. revert w F'. induction u as [|r u IH]; intros [|r' w] F'; cbn; auto. inversion F; inversion F'; subst. constructor; auto. rewrite map2_length; lia.
Qed.

Lemma typeof_op o a b ty : typeof (TOp o a b) = Some ty <-> typeof a = Some ty /\ typeof b = Some ty.
Proof.
  cbn [Rotate_Spec.typeof]. destruct (typeof a) as [x|], (typeof b) as [y|]; cbn [bind]; try (split; [discriminate|intros [? ?]; discriminate]).
  destruct (ttype_eqb x y) eqn:Q.
  - apply ttype_eqb_ok in Q. subst. intuition.
  - split; [discriminate|]. intros [[= ->] [= ->]]. rewrite ttype_eqb_refl in Q. discriminate.
Qed.
Lemma teval_op o a b ty v : typeof (TOp o a b) = Some ty ->
  (teval (TOp o a b) = Some v <-> exists u w, teval a = Some u /\ teval b = Some w /\ v = map2 (map2 (sem o)) u w).
Proof.
  intros Ht. apply typeof_op in Ht. destruct Ht as [Ha Hb]. cbn [Rotate_Spec.teval]. rewrite Ha, Hb. cbn [bind]. rewrite ttype_eqb_refl.
  destruct (teval a) as [u|], (teval b) as [w|]; cbn [bind]; split; try discriminate; try (intros (u' & w' & H1 & H2 & H3); congruence).
  intros [= <-]. exists u, w. auto.
Qed.

Section Step.
Variable T : sty.
Variable lead : list Z.
Variable k : Z.
Hypothesis Hk : 0 <= k < width T.
Hypothesis Hk62 : k <= 62.
Notation n := (2 ^ k).
Lemma n_pos : 0 < n. Proof. apply Z.pow_pos_nonneg; lia. Qed.
Lemma n_div w : k <= w -> (n | 2 ^ w).
Proof. intros H. exists (2 ^ (w - k)). rewrite <- Z.pow_add_r by lia. f_equal. lia. Qed.
Lemma n_divw : (n | 2 ^ width T). Proof. apply n_div. lia. Qed.
Definition amount (x : sty * Z) : Z := sgn (width (fst x)) (snd x).
Lemma teval_rot a s v : sok T s ->
  (teval (TRot a s) = Some v <-> exists u x, teval a = Some u /\ seval s = Some (T, x) /\ is_word (width T) x /\ v = map (rot E (sgn (width T) x)) u).
Proof.
  intros Hs. cbn [Rotate_Spec.teval]. destruct (teval a) as [u|]; cbn [bind]; [|split; [discriminate|intros (u' & x & H & _); discriminate]].
  destruct (seval s) as [x|] eqn:Es; cbn [bind]; [|split; [discriminate|intros (u' & x & _ & H & _); discriminate]].
  destruct (sok_range T s x ltac:(lia) Hs Es) as [F W]. destruct x as [t x]. cbn in *. subst t. split.
  - intros [= <-]. exists u, x. auto.
  - intros (u' & x' & [= <-] & [= <-] & _ & ->). reflexivity.
Qed.
Lemma rot_rows_congr ty v s s' : snd ty = n -> shaped ty v -> s mod n = s' mod n -> map (rot E s) v = map (rot E s') v.
Proof.
  intros En [_ F] H. apply map_ext_in. intros r Hr. rewrite Forall_forall in F. specialize (F r Hr). apply rot_congr.
  rewrite F, En, Z2Nat.id by (pose proof n_pos; lia). exact H.
Qed.
Lemma add_amount x y : is_word (width T) x -> is_word (width T) y ->
  sgn (width T) (addi (width T) x y) mod n = (sgn (width T) x + sgn (width T) y) mod n.
Proof.
  intros Hx Hy. pose proof n_pos. pose proof n_divw. unfold addi.
  rewrite sgn_divide; try lia; auto; [|unfold is_word, wrap; apply Z.mod_pos_bound; apply Z.pow_pos_nonneg; lia].
  rewrite wrap_divide by (auto; lia). rewrite (Zplus_mod (sgn _ _)), !sgn_divide by (auto; lia). rewrite <- Zplus_mod. reflexivity.
Qed.
Lemma sub_amount x y : is_word (width T) x -> is_word (width T) y ->
  sgn (width T) (subi (width T) x y) mod n = (sgn (width T) x - sgn (width T) y) mod n.
Proof.
  intros Hx Hy. pose proof n_pos. pose proof n_divw. unfold subi.
  rewrite sgn_divide; try lia; auto; [|unfold is_word, wrap; apply Z.mod_pos_bound; apply Z.pow_pos_nonneg; lia].
  rewrite wrap_divide by (auto; lia). rewrite (Zminus_mod (sgn _ _)), !sgn_divide by (auto; lia). rewrite <- Zminus_mod. reflexivity.
Qed.

Definition inv (t : texp E) : Prop := typeof t = Some (lead, n) /\ shifts_ok T t /\ (lead = [] \/ const_free t).
Definition refines (t t' : texp E) : Prop := inv t' /\ forall v, teval t = Some v -> teval t' = Some v.

(** two rotations in sequence are one by the sum *)
Lemma two_rots a s1 s2 v : typeof a = Some (lead, n) -> sok T s1 -> sok T s2 -> teval (TRot (TRot a s1) s2) = Some v -> teval (TRot a (SAdd s2 s1)) = Some v.
Proof.
  intros Ha H1 H2 Hv. apply teval_rot in Hv; auto. destruct Hv as (u & x & Hu & Ex & Wx & ->).
  apply teval_rot in Hu; auto. destruct Hu as (u0 & y & Hu0 & Ey & Wy & ->).
  apply teval_rot; [cbn; auto|]. eexists _, _. split; [exact Hu0|].
  rewrite (seval_add T s2 s1 (T, x) (T, y)) by (auto; lia). cbn [snd]. split; [reflexivity|].
  split; [unfold addi, is_word, wrap; apply Z.mod_pos_bound, Z.pow_pos_nonneg; lia|].
  rewrite map_map. transitivity (map (rot E (sgn (width T) x + sgn (width T) y)) u0).
  - apply map_ext. intros r. apply rot_rot.
  - apply (rot_rows_congr (lead, n)); [reflexivity|exact (teval_shape _ _ _ Ha Hu0)|]. symmetry. apply add_amount; auto.
Qed.
(** and the order of the addends does not matter *)
Lemma two_rots' a s1 s2 v : typeof a = Some (lead, n) -> sok T s1 -> sok T s2 -> teval (TRot (TRot a s1) s2) = Some v -> teval (TRot a (SAdd s1 s2)) = Some v.
Proof.
  intros Ha H1 H2 Hv. apply two_rots in Hv; auto. apply teval_rot in Hv; [|cbn; auto]. destruct Hv as (u & x & Hu & Ex & Wx & ->).
  apply teval_rot; [cbn; auto|]. exists u, x. split; auto. split; [|auto]. rewrite <- Ex. cbn [Rotate_Spec.seval].
  destruct (seval s1) as [[t1 y1]|] eqn:E1, (seval s2) as [[t2 y2]|] eqn:E2; cbn [bind]; auto.
  destruct (sok_range T s1 _ ltac:(lia) H1 E1) as [F1 _]. destruct (sok_range T s2 _ ltac:(lia) H2 E2) as [F2 _]. cbn in *. subst. rewrite sty_eqb_refl.
  unfold addi. rewrite Z.add_comm. reflexivity.
Qed.
(** a rotation moves through an operation *)
Lemma rot_op o a b s v : typeof (TOp o a b) = Some (lead, n) -> sok T s ->
  (teval (TRot (TOp o a b) s) = Some v <-> teval (TOp o (TRot a s) (TRot b s)) = Some v).
Proof.
  intros Ht Hs. assert (Ht' := Ht). apply typeof_op in Ht'. destruct Ht' as [Ha Hb].
  assert (Ht2 : typeof (TOp o (TRot a s) (TRot b s)) = Some (lead, n)) by (apply typeof_op; auto).
  rewrite teval_rot by auto. rewrite (teval_op _ _ _ _ _ Ht2). split.
  - intros (u & x & Hu & Ex & Wx & ->). apply (teval_op _ _ _ _ _ Ht) in Hu. destruct Hu as (p & q & Hp & Hq & ->).
    eexists _, _. rewrite !teval_rot by auto. split; [exists p, x; eauto|]. split; [exists q, x; eauto|].
    symmetry. apply (rot_rows E (sem o) _ (Z.to_nat n)); [exact (proj2 (teval_shape _ _ _ Ha Hp))|exact (proj2 (teval_shape _ _ _ Hb Hq))].
  - intros (p & q & Hp & Hq & ->). apply teval_rot in Hp; auto. apply teval_rot in Hq; auto.
    destruct Hp as (p0 & x & Hp & Ex & Wx & ->). destruct Hq as (q0 & x' & Hq & Ex' & Wx' & ->). assert (x' = x) by congruence. subst x'.
    exists (map2 (map2 (sem o)) p0 q0), x. split; [apply (teval_op _ _ _ _ _ Ht); eauto|]. split; auto. split; auto.
    apply (rot_rows E (sem o) _ (Z.to_nat n)); [exact (proj2 (teval_shape _ _ _ Ha Hp))|exact (proj2 (teval_shape _ _ _ Hb Hq))].
Qed.
Lemma op_mono o a a' b b' v ty : typeof (TOp o a b) = Some ty -> typeof a' = Some ty -> typeof b' = Some ty ->
  (forall u, teval a = Some u -> teval a' = Some u) -> (forall u, teval b = Some u -> teval b' = Some u) ->
  teval (TOp o a b) = Some v -> teval (TOp o a' b') = Some v.
Proof.
  intros Ht Ha' Hb' Fa Fb Hv. apply (teval_op _ _ _ _ _ Ht) in Hv. destruct Hv as (u & w & Hu & Hw & ->).
  assert (Ht' : typeof (TOp o a' b') = Some ty) by (apply typeof_op; auto). apply (teval_op _ _ _ _ _ Ht'). exists u, w. auto.
Qed.
(** undoing the rotation by i3 in one operand *)
Lemma unrotate a i1 i3 v : typeof a = Some (lead, n) -> sok T i1 -> sok T i3 -> (exists x, seval i3 = Some x) -> teval (TRot a i1) = Some v ->
  teval (TRot (TRot a (SSub i1 i3)) i3) = Some v.
Proof.
  intros Ha H1 H3 [x3 E3] Hv. apply teval_rot in Hv; auto. destruct Hv as (u & x & Hu & Ex & Wx & ->).
  destruct (sok_range T i3 x3 ltac:(lia) H3 E3) as [F3 W3]. destruct x3 as [t3 x3]. cbn in F3, W3. subst t3.
  apply teval_rot; auto. eexists _, x3. split; [apply teval_rot; [cbn; auto|]; eexists _, _; split; [exact Hu|]; rewrite (seval_sub T i1 i3 (T, x) (T, x3)) by (auto; lia);
    split; [reflexivity|]; split; [|reflexivity]; unfold subi, is_word, wrap; apply Z.mod_pos_bound, Z.pow_pos_nonneg; lia|].
  split; auto. split; auto. cbn [snd]. rewrite map_map. symmetry.
  transitivity (map (rot E (sgn (width T) x3 + sgn (width T) (subi (width T) x x3))) u); [apply map_ext; intros r; apply rot_rot|].
  apply (rot_rows_congr (lead, n)); [reflexivity|exact (teval_shape _ _ _ Ha Hu)|].
  rewrite Zplus_mod, sub_amount, <- Zplus_mod by auto. f_equal. lia.
Qed.

Lemma chunks_one l : chunks E 1 (length l) l = [l].
Proof. cbn. rewrite firstn_all. reflexivity. Qed.
Lemma attr_rot l s : Z.of_nat (length l) = n -> is_word (width T) s -> rotate_attr_values E l (sgn (width T) s) = rot E (sgn (width T) s) l.
Proof.
  intros L Hs. destruct l as [|e l]; auto. unfold rotate_attr_values, rot. apply map_ext_in. intros j _. cbv zeta. rewrite L. do 2 f_equal.
  pose proof n_pos. rewrite wrap_divide by (auto; try lia; apply n_div; lia).
  replace (Z.of_nat j + sgn (width T) s + n) with (Z.of_nat j + sgn (width T) s + 1 * n) by ring. apply Z_mod_plus_full.
Qed.

Ltac opm Hv := refine (op_mono _ _ _ _ _ _ (lead, n) _ _ _ _ _ Hv); [apply typeof_op; split; assumption|assumption|assumption|..].
Lemma step_ok t t' : tstep E ttyp t t' -> inv t -> refines t t'.
Proof.
  intros H. induction H as [t t' H|t t' H|t t' H|t t' H|t t' H|t t' H|t t' H|t t' H|t t' H|t t' H|t t' H|t t' s H IH|o a a' b H IH|o a b b' H IH];
    intros (Ht & Hs & Hc).
  - (* fold *)
    destruct t as [| |t s|]; try discriminate. destruct t as [|[l m] d| |]; try discriminate. destruct s as [|st x| | | |]; try discriminate. injection H as <-.
    cbn in Ht. injection Ht as El ->. destruct Hs as [_ Hs]. destruct Hc as [Hc|[]]. rewrite Hc in El. subst l.
    assert (Le : length (elements E ([], n) d) = Z.to_nat n \/ teval (TConst ([], n) d) = None).
    { destruct d as [e|l]; cbn [elements]; [left; rewrite repeat_length; cbn; lia|]. cbn [Rotate_Spec.teval]. change (rows_of []) with 1%nat. rewrite Nat.mul_1_l.
      destruct (Nat.eqb_spec (length l) (Z.to_nat n)); auto. }
    assert (Ev : forall v, teval (TConst ([], n) d) = Some v -> v = [elements E ([], n) d]).
    { intros v Hv. destruct d as [e|l]; cbn [Rotate_Spec.teval] in Hv; change (rows_of []) with 1%nat in Hv.
      - injection Hv as <-. cbn [elements fst snd]. change (rows_of []) with 1%nat. rewrite Nat.mul_1_l. reflexivity.
      - rewrite Nat.mul_1_l in Hv. destruct (Nat.eqb_spec (length l) (Z.to_nat n)) as [El|]; [|discriminate].
        rewrite <- El, chunks_one in Hv. injection Hv as <-. reflexivity. }
    split; [split; [cbn; rewrite Hc; reflexivity|split; [exact I|auto]]|]. intros v Hv. apply teval_rot in Hv; auto. destruct Hv as (u & y & Hu & Ey & Wy & ->).
    cbn in Ey. injection Ey as -> ->. rewrite (Ev _ Hu). destruct Le as [Le|Le]; [|congruence].
    rewrite attr_rot; [|rewrite Le, Z2Nat.id; auto; pose proof n_pos; lia|auto].
    cbn [Rotate_Spec.teval]. change (rows_of []) with 1%nat. rewrite Nat.mul_1_l, rot_length, Le, Nat.eqb_refl.
    rewrite <- Le at 1. rewrite <- (rot_length E (sgn (width T) y)). rewrite chunks_one. reflexivity.
  - (* splat *)
    destruct t as [| |t s|]; try discriminate. destruct t as [|ty [e|]| |]; try discriminate. injection H as <-.
    cbn in Ht. destruct Hs as [_ Hs]. split; [split; [exact Ht|split; [exact I|exact Hc]]|]. intros v Hv. apply teval_rot in Hv; auto.
    destruct Hv as (u & y & Hu & _ & _ & ->). rewrite Hu. f_equal. destruct ty as [l m]. cbn in Hu. injection Hu as <-.
    symmetry. rewrite <- map_id. apply map_ext_in. intros r Hr. apply repeat_spec in Hr. subst. symmetry. symmetry. apply rot_repeat.
  - (* zero *)
    destruct t as [| |t s|]; try discriminate. destruct s as [|st x| | | |]; try discriminate. cbn in H. destruct (Z.eqb_spec x 0) as [->|]; [|discriminate]. injection H as <-.
    destruct Hs as [Ha Hs]. split; [split; [exact Ht|split; [exact Ha|exact Hc]]|]. intros v Hv. apply teval_rot in Hv; auto.
    destruct Hv as (u & y & Hu & Ey & _ & ->). cbn in Ey. injection Ey as _ <-. rewrite Hu. f_equal. rewrite <- (map_id u) at 1. apply map_ext.
    intros r. unfold sgn. assert (0 < 2 ^ (width T - 1)) by (apply Z.pow_pos_nonneg; lia). destruct (Z.ltb_spec 0 (2 ^ (width T - 1))); [|lia]. symmetry. apply rot_0.
  - (* normalise *)
    destruct t as [| |t s|]; try discriminate. destruct s as [|st x| | | |]; try discriminate. cbn in H. cbn in Ht. rewrite Ht in H.
    assert (El : lead = []) by (destruct lead; [auto|discriminate]). rewrite El in H. destruct (_ || _); [|discriminate]. injection H as <-. destruct Hs as [Ha [-> Wx]].
    pose proof n_pos as Np.
    assert (Wn : is_word 64 n) by (split; [lia|]; apply Z.pow_lt_mono_r; lia).
    assert (Sn : sgn 64 n = n). { unfold sgn. assert (n < 2 ^ (64 - 1)) by (apply Z.pow_lt_mono_r; lia). destruct (Z.ltb_spec n (2 ^ (64 - 1))); lia. }
    assert (Wr : wrap (width T) n = n) by (apply Z.mod_small; split; [lia|]; apply Z.pow_lt_mono_r; lia).
    assert (So : sok T (SRemU (SConst T x) (SCast T (SConst Index n)))).
    { cbn. split; auto. split; auto. exists Index. auto. }
    split; [split; [exact Ht|split; [split; auto|auto]]|]. intros v Hv. apply teval_rot in Hv; [|cbn; auto]. destruct Hv as (u & y & Hu & Ey & Wy & ->).
    cbn in Ey. injection Ey as <-. apply teval_rot; auto. exists u, (x mod n). split; auto. split.
    + cbn [Rotate_Spec.seval bind fst snd]. cbn [width]. rewrite Sn, Wr, sty_eqb_refl. unfold remui. destruct (Z.eqb_spec n 0); [lia|]. reflexivity.
    + pose proof (Z.mod_pos_bound x n Np). assert (n < 2 ^ width T) by (apply Z.pow_lt_mono_r; lia). assert (Wm : is_word (width T) (x mod n)) by (unfold is_word in *; lia).
      split; auto. apply (rot_rows_congr (lead, n)); [reflexivity|exact (teval_shape _ _ _ Ht Hu)|].
      rewrite !sgn_divide by (auto; try lia; apply n_divw). rewrite Zmod_mod. reflexivity.
  - (* combine *)
    destruct t as [| |t s|]; try discriminate. destruct t as [| |t s'|]; try discriminate. destruct s' as [|t1 x| | | |]; try discriminate. destruct s as [|t2 y| | | |]; try discriminate.
    injection H as <-. destruct Hs as [[Ha H1] H2]. split; [split; [exact Ht|split; [split; [auto|cbn in *; auto]|exact Hc]]|].
    intros v Hv. apply two_rots'; auto.
  - (* factor *)
    destruct t as [| | |o t1 t2]; try discriminate. destruct t1 as [| |a i|]; try discriminate. destruct t2 as [| |b j|]; try discriminate. cbn in H.
    destruct (sexp_eqb i j) eqn:Q; [|discriminate]. injection H as <-. apply sexp_eqb_ok in Q. subst j. destruct Hs as [[Ha Hi] [Hb _]].
    assert (Ht' : typeof (TOp o a b) = Some (lead, n)) by (apply typeof_op in Ht; apply typeof_op; exact Ht).
    split; [split; [exact Ht'|split; [split; [split; auto|auto]|exact Hc]]|]. intros v Hv. apply rot_op; auto.
  - (* sandwich *)
    destruct t as [| |t s3|]; try discriminate. destruct t as [| | |o t1 t2]; try discriminate. destruct t1 as [| |a s1|]; try discriminate. destruct t2 as [| |b s2|]; try discriminate.
    injection H as <-. destruct Hs as [[[Ha H1] [Hb H2]] H3].
    assert (Hab := proj1 (typeof_op o (TRot a s1) (TRot b s2) _) Ht). destruct Hab as [Ta Tb]. cbn in Ta, Tb.
    assert (Ht2 : typeof (TOp o (TRot a (SAdd s3 s1)) (TRot b (SAdd s3 s2))) = Some (lead, n)) by (apply typeof_op; auto).
    split; [split; [exact Ht2|split; [cbn; tauto|exact Hc]]|]. intros v Hv. apply rot_op in Hv; auto.
    opm Hv; intros u Hu; apply two_rots; auto.
  - (* earlier, left *)
    destruct t as [| |t s2|]; try discriminate. destruct t as [| | |o t1 b]; try discriminate. destruct t1 as [| |a s1|]; try discriminate.
    injection H as <-. destruct Hs as [[[Ha H1] Hb] H2].
    assert (Hab := proj1 (typeof_op o (TRot a s1) b _) Ht). destruct Hab as [Ta Tb]. cbn in Ta.
    assert (Ht2 : typeof (TOp o (TRot a (SAdd s2 s1)) (TRot b s2)) = Some (lead, n)) by (apply typeof_op; auto).
    split; [split; [exact Ht2|split; [cbn; tauto|exact Hc]]|]. intros v Hv. apply rot_op in Hv; auto.
    opm Hv; auto. intros u Hu; apply two_rots; auto.
  - (* earlier, right *)
    destruct t as [| |t s2|]; try discriminate. destruct t as [| | |o a t2]; try discriminate. destruct t2 as [| |b s1|]; try (destruct a; discriminate).
    assert (H' : t' = TOp o (TRot a s2) (TRot b (SAdd s2 s1))) by (destruct a; injection H as <-; reflexivity). subst t'. clear H.
    destruct Hs as [[Ha [Hb H1]] H2].
    assert (Hab := proj1 (typeof_op o a (TRot b s1) _) Ht). destruct Hab as [Ta Tb]. cbn in Tb.
    assert (Ht2 : typeof (TOp o (TRot a s2) (TRot b (SAdd s2 s1))) = Some (lead, n)) by (apply typeof_op; auto).
    split; [split; [exact Ht2|split; [cbn; tauto|exact Hc]]|]. intros v Hv. apply rot_op in Hv; auto.
    opm Hv; auto. intros u Hu; apply two_rots; auto.
  - (* align, left *)
    destruct t as [| | |o t12 t3]; try discriminate. destruct t12 as [| | |o' t1 t2]; try discriminate. destruct t1 as [| |t1 i1|]; try discriminate. destruct t2 as [| |t2 i2|]; try discriminate.
    destruct t3 as [| |t3 i3|]; try discriminate. injection H as <-. destruct Hs as [[[Ha H1] [Hb H2]] [Hd H3]].
    assert (P := proj1 (typeof_op _ _ _ _) Ht). destruct P as [P12 P3]. assert (P := proj1 (typeof_op _ _ _ _) P12). destruct P as [P1 P2]. cbn in P1, P2, P3.
    set (t12' := TOp o' (TRot t1 (SSub i1 i3)) (TRot t2 (SSub i2 i3))).
    assert (Q12 : typeof t12' = Some (lead, n)) by (apply typeof_op; auto).
    assert (Q : typeof (TOp o t12' t3) = Some (lead, n)) by (apply typeof_op; auto).
    split; [split; [exact Q|split; [cbn; tauto|exact Hc]]|]. intros v Hv. apply rot_op; auto.
    assert (X3 : exists x, seval i3 = Some x).
    { apply (teval_op _ _ _ _ _ Ht) in Hv. destruct Hv as (u & w & _ & Hw & _). apply teval_rot in Hw; auto. destruct Hw as (_ & x & _ & Ex & _). eauto. }
    opm Hv; auto. intros u Hu. apply rot_op; auto.
    opm Hu; intros w Hw; apply unrotate; auto.
  - (* align, right *)
    destruct t as [| | |o t3 t12]; try discriminate. destruct t3 as [| |t3 i3|]; try discriminate.
    destruct t12 as [| | |o' t1 t2]; try discriminate. destruct t1 as [| |t1 i1|]; try discriminate. destruct t2 as [| |t2 i2|]; try discriminate.
    injection H as <-. destruct Hs as [[Hd H3] [[Ha H1] [Hb H2]]].
    assert (P := proj1 (typeof_op _ _ _ _) Ht). destruct P as [P3 P12]. assert (P := proj1 (typeof_op _ _ _ _) P12). destruct P as [P1 P2]. cbn in P1, P2, P3.
    set (t12' := TOp o' (TRot t1 (SSub i1 i3)) (TRot t2 (SSub i2 i3))).
    assert (Q12 : typeof t12' = Some (lead, n)) by (apply typeof_op; auto).
    assert (Q : typeof (TOp o t3 t12') = Some (lead, n)) by (apply typeof_op; auto).
    split; [split; [exact Q|split; [cbn; tauto|exact Hc]]|]. intros v Hv. apply rot_op; auto.
    assert (X3 : exists x, seval i3 = Some x).
    { apply (teval_op _ _ _ _ _ Ht) in Hv. destruct Hv as (u & w & Hw & _). apply teval_rot in Hw; auto. destruct Hw as (_ & x & _ & Ex & _). eauto. }
    opm Hv; auto. intros u Hu. apply rot_op; auto.
    opm Hu; intros w Hw; apply unrotate; auto.
  - destruct Hs as [Ha Hs]. destruct (IH (conj Ht (conj Ha Hc))) as [(Ht' & Ha' & Hc') F]. split; [split; [exact Ht'|split; [split; auto|exact Hc']]|].
    intros v Hv. apply teval_rot in Hv; auto. destruct Hv as (u & x & Hu & R). apply teval_rot; auto. exists u, x. split; auto.
  - destruct Hs as [Ha Hb]. assert (P := proj1 (typeof_op _ _ _ _) Ht). destruct P as [P1 P2].
    assert (Hc1 : lead = [] \/ const_free a) by (cbn in Hc; tauto).
    destruct (IH (conj P1 (conj Ha Hc1))) as [(Ht' & Ha' & Hc') F].
    split; [split; [apply typeof_op; auto|split; [split; auto|cbn in *; tauto]]|].
    intros v Hv. opm Hv; auto.
  - destruct Hs as [Ha Hb]. assert (P := proj1 (typeof_op _ _ _ _) Ht). destruct P as [P1 P2].
    assert (Hc1 : lead = [] \/ const_free b) by (cbn in Hc; tauto).
    destruct (IH (conj P2 (conj Hb Hc1))) as [(Ht' & Ha' & Hc') F].
    split; [split; [apply typeof_op; auto|split; [split; auto|cbn in *; tauto]]|].
    intros v Hv. opm Hv; auto.
Qed.
Lemma steps_ok t t' : tsteps E ttyp t t' -> inv t -> refines t t'.
Proof.
  intros H. induction H as [t|t t' t'' H1 H2 IH]; intros Hi; [split; auto|].
  destruct (step_ok t t' H1 Hi) as [Hi' F]. destruct (IH Hi') as [Hi'' F']. split; auto.
Qed.
End Step.

(** ** Scalars *)
Lemma xeval_extract t i e : xeval (XExtract t i) = Some e <->
  exists r x, teval t = Some [r] /\ seval i = Some (Index, x) /\ 0 <= sgn 64 x /\ nth_error r (Z.to_nat (sgn 64 x)) = Some e.
Proof.
  cbn [Rotate_Spec.xeval]. destruct (teval t) as [v|]; cbn [bind]; [|split; [discriminate|intros (r & x & H & _); discriminate]].
  destruct (seval i) as [[ty x]|]; cbn [bind]; [|split; [discriminate|intros (r & y & _ & H & _); discriminate]]. cbn [fst snd].
  destruct v as [|r [|]]; try (split; [discriminate|intros (r' & y & [=] & _)]).
  destruct ty; [|split; [discriminate|intros (r' & y & _ & [=] & _)]].
  destruct (Z.ltb_spec (sgn 64 x) 0).
  - split; [discriminate|]. intros (r' & y & _ & [= <-] & A & _). lia.
  - split; [intros He; exists r, x; auto|]. intros (r' & y & [= <-] & [= <-] & _ & A). auto.
Qed.
Lemma nth_error_rot s l j : (j < length l)%nat -> nth_error (rot E s l) j = nth_error l (Z.to_nat ((Z.of_nat j + s) mod Z.of_nat (length l))).
Proof.
  intros H. destruct l as [|d l0] eqn:El; [cbn in H; lia|]. rewrite <- El in *.
  pose proof (Z.mod_pos_bound (Z.of_nat j + s) (Z.of_nat (length l)) ltac:(lia)) as B.
  rewrite (nth_error_nth' (rot E s l) d) by (rewrite rot_length; auto). rewrite (nth_error_nth' l d) by lia. rewrite nth_rot by auto. reflexivity.
Qed.
Lemma nth_error_map2 {A B C} (f : A -> B -> C) l m : forall j a b, nth_error l j = Some a -> nth_error m j = Some b -> nth_error (map2 f l m) j = Some (f a b).
Proof.
  revert m. induction l as [|x l IH]; intros [|y m] [|j] a b H1 H2; cbn in *; try discriminate; [congruence|]. auto.
Qed.
Section Insert.
Variable n c : Z.
Hypothesis Hc : 0 <= c < n.
Hypothesis Hn : n <= 2 ^ 62.
Let slot := SConst Index (wrap 64 c).
Lemma slot_ok : sok Index slot /\ seval slot = Some (Index, c) /\ sgn 64 c = c.
Proof.
  assert (W : wrap 64 c = c) by (apply Z.mod_small; change (2 ^ 62) with 4611686018427387904 in Hn; change (2 ^ 64) with 18446744073709551616; lia).
  unfold slot. rewrite W. change (2 ^ 62) with 4611686018427387904 in Hn. repeat split; cbn [width]; try (change (2 ^ 64) with 18446744073709551616; lia).
  unfold sgn. change (2 ^ (64 - 1)) with 9223372036854775808. destruct (Z.ltb_spec c 9223372036854775808); lia.
Qed.
(** rotating slot i to slot c *)
Lemma moved t i r x e : typeof t = Some ([], n) -> sok Index i -> teval t = Some [r] -> seval i = Some (Index, x) -> 0 <= sgn 64 x ->
  nth_error r (Z.to_nat (sgn 64 x)) = Some e ->
  exists r', teval (TRot t (SSub i slot)) = Some [r'] /\ length r' = Z.to_nat n /\ nth_error r' (Z.to_nat c) = Some e.
Proof.
  intros Ht Hi Hr Ex Px He. destruct slot_ok as (So & Es & _). destruct (teval_shape _ _ _ Ht Hr) as [_ F]. inversion F as [|? ? Lr _]; subst. cbn in Lr.
  assert (Bx : (Z.to_nat (sgn 64 x) < length r)%nat) by (apply nth_error_Some; congruence).
  assert (Wx : is_word 64 x) by exact (proj2 (sok_range Index i _ ltac:(cbn; lia) Hi Ex)).
  change (2 ^ 62) with 4611686018427387904 in Hn.
  assert (S1 : sgn 64 (subi 64 x c) = sgn 64 x - c).
  { assert (Sx : sgn 64 x = x).
    { unfold sgn in *. unfold is_word in Wx. change (2 ^ (64 - 1)) with 9223372036854775808 in *. change (2 ^ 64) with 18446744073709551616 in *.
      destruct (Z.ltb_spec x 9223372036854775808); lia. }
    rewrite Sx in *. unfold subi, wrap, sgn. change (2 ^ (64 - 1)) with 9223372036854775808. change (2 ^ 64) with 18446744073709551616 in *.
    destruct (Z_lt_le_dec x c).
    - replace ((x - c) mod 18446744073709551616) with (x - c + 18446744073709551616).
      + destruct (Z.ltb_spec (x - c + 18446744073709551616) 9223372036854775808); lia.
      + symmetry. rewrite <- (Z_mod_plus_full _ 1). apply Z.mod_small. lia.
    - rewrite Z.mod_small by lia. destruct (Z.ltb_spec (x - c) 9223372036854775808); lia. }
  exists (rot E (sgn 64 x - c) r). split.
  - cbn [Rotate_Spec.teval]. rewrite Hr. cbn [bind]. rewrite (seval_sub Index i slot (Index, x) (Index, c)) by (auto; cbn; lia). cbn [bind fst snd map width]. rewrite S1. reflexivity.
  - rewrite rot_length. split; [auto|]. rewrite nth_error_rot by lia. rewrite <- He. f_equal. rewrite Z2Nat.id by lia.
    rewrite Z.mod_small by lia. f_equal. lia.
Qed.
Lemma splat_one e : teval (TConst ([], n) (Splat e)) = Some [repeat e (Z.to_nat n)].
Proof. reflexivity. Qed.
Lemma nth_error_repeat' (e : E) j m : (j < m)%nat -> nth_error (repeat e m) j = Some e.
Proof. revert j. induction m; intros [|j] H; cbn; auto; try lia. apply IHm. lia. Qed.
(** the operands of the scalar operations *)
Definition operand (x : xexp E) : Prop := match x with XExtract t i => typeof t = Some ([], n) /\ sok Index i | _ => True end.
Lemma two_ok o a b x' e : operand a -> operand b -> insert_rotations_two E c (XOp o a b) = Some x' -> xeval (XOp o a b) = Some e -> xeval x' = Some e.
Proof.
  intros Ha Hb H He. destruct a as [|? |t1 i1|]; try discriminate. destruct b as [| |t2 i2|]; try discriminate. injection H as <-.
  destruct Ha as [T1 I1], Hb as [T2 I2]. cbn [Rotate_Spec.xeval] in He. fold (xeval (XExtract t1 i1)) (xeval (XExtract t2 i2)) in He.
  destruct (xeval (XExtract t1 i1)) as [u|] eqn:E1; [|discriminate]. destruct (xeval (XExtract t2 i2)) as [v|] eqn:E2; [|discriminate]. cbn [bind] in He. injection He as <-.
  apply xeval_extract in E1, E2. destruct E1 as (r1 & x1 & R1 & X1 & P1 & N1), E2 as (r2 & x2 & R2 & X2 & P2 & N2).
  destruct (moved t1 i1 r1 x1 u T1 I1 R1 X1 P1 N1) as (q1 & V1 & L1 & M1). destruct (moved t2 i2 r2 x2 v T2 I2 R2 X2 P2 N2) as (q2 & V2 & L2 & M2).
  destruct slot_ok as (So & Es & Sc). apply xeval_extract. exists (map2 (sem o) q1 q2), c. fold slot. rewrite Sc. split; [|split; [exact Es|split; [lia|apply nth_error_map2; auto]]].
  apply (teval_op o (TRot t1 (SSub i1 slot)) (TRot t2 (SSub i2 slot)) ([], n)); [apply typeof_op; auto|]. exists [q1], [q2]. auto.
Qed.
Lemma rhs_ok o a b x' e : operand a -> operand b -> insert_rotations_splat_rhs E ttyp c (XOp o a b) = Some x' -> xeval (XOp o a b) = Some e -> xeval x' = Some e.
Proof.
  intros Ha Hb H He. destruct a as [|? |t1 i1|]; try discriminate. destruct b as [|d| |]; try discriminate. destruct Ha as [T1 I1]. cbn in H. rewrite T1 in H. cbn [bind] in H. injection H as <-.
  cbn [Rotate_Spec.xeval] in He. fold (xeval (XExtract t1 i1)) in He.
  destruct (xeval (XExtract t1 i1)) as [u|] eqn:E1; [|discriminate]. cbn [bind] in He. injection He as <-.
  apply xeval_extract in E1. destruct E1 as (r1 & x1 & R1 & X1 & P1 & N1).
  destruct (moved t1 i1 r1 x1 u T1 I1 R1 X1 P1 N1) as (q1 & V1 & L1 & M1).
  destruct slot_ok as (So & Es & Sc). apply xeval_extract. exists (map2 (sem o) q1 (repeat d (Z.to_nat n))), c. fold slot. rewrite Sc.
  split; [|split; [exact Es|split; [lia|apply nth_error_map2; auto; apply nth_error_repeat'; lia]]].
  apply (teval_op o (TRot t1 (SSub i1 slot)) (TConst ([], n) (Splat d)) ([], n)); [apply typeof_op; auto|]. exists [q1], [repeat d (Z.to_nat n)]. auto.
Qed.
Lemma lhs_ok o a b x' e : operand a -> operand b -> insert_rotations_splat_lhs E ttyp c (XOp o a b) = Some x' -> xeval (XOp o a b) = Some e -> xeval x' = Some e.
Proof.
  intros Ha Hb H He. destruct b as [|? |t1 i1|]; try (destruct a; discriminate). destruct a as [|d| |]; try discriminate. destruct Hb as [T1 I1]. cbn in H. rewrite T1 in H. cbn [bind] in H. injection H as <-.
  cbn [Rotate_Spec.xeval] in He. fold (xeval (XExtract t1 i1)) in He.
  destruct (xeval (XExtract t1 i1)) as [u|] eqn:E1; [|discriminate]. cbn [bind] in He. injection He as <-.
  apply xeval_extract in E1. destruct E1 as (r1 & x1 & R1 & X1 & P1 & N1).
  destruct (moved t1 i1 r1 x1 u T1 I1 R1 X1 P1 N1) as (q1 & V1 & L1 & M1).
  destruct slot_ok as (So & Es & Sc). apply xeval_extract. exists (map2 (sem o) (repeat d (Z.to_nat n)) q1), c. fold slot. rewrite Sc.
  split; [|split; [exact Es|split; [lia|apply nth_error_map2; auto; apply nth_error_repeat'; lia]]].
  apply (teval_op o (TConst ([], n) (Splat d)) (TRot t1 (SSub i1 slot)) ([], n)); [apply typeof_op; auto|]. exists [repeat d (Z.to_nat n)], [q1]. auto.
Qed.
End Insert.

Section Programs.
Variable k : Z.
Hypothesis Hk : 0 <= k <= 62.
Variable slots : Z -> Prop.
Hypothesis Hslots : forall c, slots c -> 0 <= c < 2 ^ k.
Notation xok := (xok E styp sval ttyp (2 ^ k)).
Lemma xok_operand x : xok x -> operand (2 ^ k) x.
Proof. destruct x; cbn; tauto. Qed.
Lemma k_bound : 2 ^ k <= 2 ^ 62. Proof. apply Z.pow_le_mono_r; lia. Qed.
Lemma xstep_ok x x' : xstep E ttyp slots x x' -> xok x -> xok x' /\ forall e, xeval x = Some e -> xeval x' = Some e.
Proof.
  pose proof k_bound as Kb.
  assert (Hw : 0 <= k < width Index) by (cbn; lia).
  intros H. induction H as [c x x' Sc H|c x x' Sc H|c x x' Sc H|t t' i H|o a a' b H IH|o a b b' H IH]; intros Hx.
  - destruct x as [| | |o a b]; try discriminate. destruct Hx as [Ha Hb]. specialize (Hslots c Sc). split.
    + destruct a as [| |t1 i1|]; try discriminate. destruct b as [| |t2 i2|]; try discriminate. injection H as <-. destruct (slot_ok (2 ^ k) c Hslots Kb) as (So & _). cbn [Rotate_Spec.sok] in So.
      cbn in Ha, Hb. destruct Ha as (A1 & A2 & A3), Hb as (B1 & B2 & B3). cbn [Rotate_Spec.xok]. split; [apply typeof_op; auto|]. split; [cbn [Rotate_Spec.shifts_ok Rotate_Spec.sok]; tauto|exact So].
    + intros e. apply (two_ok (2 ^ k) c Hslots Kb); auto; apply xok_operand; auto.
  - destruct x as [| | |o a b]; try discriminate. destruct Hx as [Ha Hb]. specialize (Hslots c Sc). split.
    + destruct a as [| |t1 i1|]; try discriminate. destruct b as [|d| |]; try discriminate. cbn [Rotate_Spec.xok] in Ha. destruct Ha as (A1 & A2 & A3).
      cbn in H. rewrite A1 in H. cbn [bind] in H. injection H as <-. destruct (slot_ok (2 ^ k) c Hslots Kb) as (So & _). cbn [Rotate_Spec.sok] in So.
      cbn [Rotate_Spec.xok]. split; [apply typeof_op; auto|]. split; [cbn [Rotate_Spec.shifts_ok Rotate_Spec.sok]; tauto|exact So].
    + intros e. apply (rhs_ok (2 ^ k) c Hslots Kb); auto; apply xok_operand; auto.
  - destruct x as [| | |o a b]; try discriminate. destruct Hx as [Ha Hb]. specialize (Hslots c Sc). split.
    + destruct b as [| |t1 i1|]; try (destruct a; discriminate). destruct a as [|d| |]; try discriminate. cbn [Rotate_Spec.xok] in Hb. destruct Hb as (A1 & A2 & A3).
      cbn in H. rewrite A1 in H. cbn [bind] in H. injection H as <-. destruct (slot_ok (2 ^ k) c Hslots Kb) as (So & _). cbn [Rotate_Spec.sok] in So.
      cbn [Rotate_Spec.xok]. split; [apply typeof_op; auto|]. split; [cbn [Rotate_Spec.shifts_ok Rotate_Spec.sok]; tauto|exact So].
    + intros e. apply (lhs_ok (2 ^ k) c Hslots Kb); auto; apply xok_operand; auto.
  - destruct Hx as (A1 & A2 & A3). destruct (step_ok Index [] k Hw ltac:(lia) t t' H (conj A1 (conj A2 (or_introl eq_refl)))) as [(B1 & B2 & _) F].
    split; [cbn [Rotate_Spec.xok]; auto|]. intros e He. apply xeval_extract in He. destruct He as (r & x & R & X). apply xeval_extract. exists r, x. split; auto.
  - destruct Hx as [Ha Hb]. destruct (IH Ha) as [Ha' F]. split; [cbn [Rotate_Spec.xok]; auto|]. intros e He. cbn [Rotate_Spec.xeval] in *.
    destruct (xeval a) as [u|]; [|discriminate]. rewrite (F u eq_refl). exact He.
  - destruct Hx as [Ha Hb]. destruct (IH Hb) as [Hb' F]. split; [cbn [Rotate_Spec.xok]; auto|]. intros e He. cbn [Rotate_Spec.xeval] in *.
    destruct (xeval a) as [w|]; [|discriminate]. destruct (xeval b) as [u|]; [|discriminate]. rewrite (F u eq_refl). exact He.
Qed.
Lemma xsteps_ok x x' : xsteps E ttyp slots x x' -> xok x -> xok x' /\ forall e, xeval x = Some e -> xeval x' = Some e.
Proof.
  intros H. induction H as [x|x x1 x' H1 H2 IH]; intros Hx; [auto|]. destruct (xstep_ok x x1 H1 Hx) as [Hx1 F]. destruct (IH Hx1) as [Hx' F']. auto.
Qed.
End Programs.

(** the extraction of a rotated tensor *)
Lemma plus_extract n t s i x' e : 0 < n <= 2 ^ 62 -> typeof t = Some ([], n) -> sok Index s -> sok Index i -> rotate_plus_extract E (XExtract (TRot t s) i) = Some x' ->
  (forall y z, seval s = Some (Index, y) -> seval i = Some (Index, z) -> 0 <= sgn 64 y + sgn 64 z < n) ->
  xeval (XExtract (TRot t s) i) = Some e -> xeval x' = Some e.
Proof.
  intros Hn Ht Hs Hi [= <-] B He. apply xeval_extract in He. destruct He as (r & z & R & Z & P & N).
  cbn [Rotate_Spec.teval] in R. destruct (teval t) as [u|] eqn:Eu; [|discriminate]. destruct (seval s) as [[ty y]|] eqn:Es; [|discriminate]. cbn [bind fst snd] in R.
  destruct (sok_range Index s _ ltac:(cbn; lia) Hs Es) as [Fy Wy]. destruct (sok_range Index i _ ltac:(cbn; lia) Hi Z) as [_ Wz]. cbn in Fy, Wy, Wz. subst ty.
  destruct u as [|r0 [|]]; try discriminate. injection R as <-. cbn [width] in N. specialize (B y z eq_refl Z).
  destruct (teval_shape _ _ _ Ht Eu) as [_ F]. inversion F as [|? ? Lr _]; subst. cbn in Lr.
  assert (Bz : (Z.to_nat (sgn 64 z) < length r0)%nat) by (rewrite <- (rot_length E (sgn 64 y) r0); apply nth_error_Some; congruence).
  assert (S1 : sgn 64 (addi 64 y z) = sgn 64 y + sgn 64 z).
  { destruct (sgn_congr 64 y ltac:(lia) Wy) as [ky Ey]. destruct (sgn_congr 64 z ltac:(lia) Wz) as [kz Ez].
    unfold addi, wrap. replace (y + z) with (sgn 64 y + sgn 64 z + (- ky - kz) * 2 ^ 64) by lia. rewrite Z_mod_plus_full.
    change (2 ^ 62) with 4611686018427387904 in Hn. rewrite Z.mod_small by (change (2 ^ 64) with 18446744073709551616; lia).
    unfold sgn at 1. change (2 ^ (64 - 1)) with 9223372036854775808. destruct (Z.ltb_spec (sgn 64 y + sgn 64 z) 9223372036854775808); lia. }
  apply xeval_extract. exists r0, (addi 64 y z). split; auto. split; [rewrite (seval_add Index s i (Index, y) (Index, z)) by (auto; cbn; lia); reflexivity|].
  rewrite S1. split; [lia|]. rewrite nth_error_rot in N by auto. rewrite <- N. f_equal. rewrite Lr, !Z2Nat.id by lia. rewrite Z.mod_small by lia. f_equal. lia.
Qed.
End Exprs.
