(** Proofs about the placement of transforms: the transform is a ring homomorphism. *)
From Coq Require Import ZArith List Bool Arith Lia Setoid Morphisms.
From Verif Require Import Words NumTheory_Model ModEq Sums NTT_Model NTT_Proofs NTT2_Proofs NTT_Props NttPlace_Model.
Import ListNotations.
Open Scope Z_scope.

Lemma omap_F2 {A B} (f : A -> option B) l l' :
  omap f l = Some l' <-> Forall2 (fun a b => f a = Some b) l l'.
Proof.
  revert l'. induction l as [|a l IH]; intros l'; cbn [omap].
  - split; [intros [= <-]; constructor|inversion 1; auto].
  - split.
    + destruct (f a) as [b|] eqn:E; [cbn [bind]|discriminate].
      destruct (omap f l) as [r|] eqn:E2; [cbn [bind]|discriminate].
      intros [= <-]. constructor; auto. apply IH; auto.
    + inversion 1 as [|? b ? r E F]; subst. rewrite E. cbn [bind]. apply IH in F. rewrite F. auto.
Qed.
Lemma F2_len {A B} (R : A -> B -> Prop) l l' : Forall2 R l l' -> length l = length l'.
Proof. induction 1; cbn; auto. Qed.
Lemma F2_nth {A B} (R : A -> B -> Prop) l l' i a : Forall2 R l l' -> nth_error l i = Some a ->
  exists b, nth_error l' i = Some b /\ R a b.
Proof.
  intros H. revert i a. induction H; intros [|i] z; cbn; intros E; try discriminate.
  - injection E as <-. eauto.
  - eauto.
Qed.
Lemma F2_app {A B} (R : A -> B -> Prop) a b a' b' : Forall2 R a a' -> Forall2 R b b' -> Forall2 R (a ++ b) (a' ++ b').
Proof. apply Forall2_app. Qed.
Lemma F2_firstn {A B} (R : A -> B -> Prop) n l l' : Forall2 R l l' -> Forall2 R (firstn n l) (firstn n l').
Proof. intros H. revert n. induction H; intros [|n]; cbn; auto. Qed.
Lemma F2_skipn {A B} (R : A -> B -> Prop) n l l' : Forall2 R l l' -> Forall2 R (skipn n l) (skipn n l').
Proof. intros H. revert n. induction H; intros [|n]; cbn; auto. Qed.
Lemma F_firstn {A} (P : A -> Prop) n l : Forall P l -> Forall P (firstn n l).
Proof. intros H. revert n. induction H; intros [|n]; cbn; auto. Qed.
Lemma F_skipn {A} (P : A -> Prop) n l : Forall P l -> Forall P (skipn n l).
Proof. intros H. revert n. induction H; intros [|n]; cbn; auto. Qed.
Lemma F_concat {A} (P : A -> Prop) l : Forall (Forall P) l -> Forall P (concat l).
Proof. induction 1; cbn; auto. apply Forall_app; auto. Qed.
Lemma F2_concat {A B} (R : A -> B -> Prop) l l' : Forall2 (Forall2 R) l l' -> Forall2 R (concat l) (concat l').
Proof. induction 1; cbn; auto. apply Forall2_app; auto. Qed.
Lemma ofold_app {A B} (f : A -> B -> option A) l1 l2 a :
  ofold f (l1 ++ l2) a = (x <- ofold f l1 a ;; ofold f l2 x).
Proof.
  revert a. induction l1; intros x; cbn [app ofold bind]; auto.
  destruct (f x a); cbn [bind]; auto.
Qed.

Section Hom.
Variable root : Z -> nat -> Z.

(** a limb with its ring *)
Definition wfl (l : Z * list Z) : Prop :=
  1 < fst l < 2 ^ 64 /\ Z.odd (fst l) = true /\
  exists k, Z.of_nat (2 ^ k) < fst l /\ root_of (fst l) (2 ^ k) (root (fst l) (2 ^ k)) /\
            poly (fst l) (2 ^ k) (snd l).
Definition nttl (l l' : Z * list Z) : Prop := limb_ntt root l = Some l'.

Lemma limb_ntt_ex l : wfl l -> exists r, limb_ntt root l = Some (fst l, r) /\
  length r = length (snd l) /\ limb_intt root (fst l, r) = Some l.
Proof.
  destruct l as [q a]. intros (Hq & Ho & k & Hn & Hr & Hp). cbn [fst snd] in *.
  destruct (C15_ntt_round_trip q k _ a Hq Ho Hn Hr Hp) as (r & H1 & [L1 _] & H2).
  destruct Hp as [La _]. exists r. unfold limb_ntt, limb_intt. cbn [fst snd]. rewrite L1, La, H1, H2. auto.
Qed.
Lemma limb_back l l' : wfl l -> nttl l l' -> limb_intt root l' = Some l.
Proof.
  intros H E. destruct (limb_ntt_ex l H) as (r & H1 & _ & H3). unfold nttl in E. rewrite H1 in E.
  injection E as <-. auto.
Qed.

(** homomorphism for one limb *)
Definition hom2 (g h : Z -> list Z -> list Z -> list Z) : Prop :=
  forall q a b ra rb, wfl (q, a) -> wfl (q, b) -> length a = length b ->
    limb_ntt root (q, a) = Some (q, ra) -> limb_ntt root (q, b) = Some (q, rb) ->
    wfl (q, g q a b) /\ limb_ntt root (q, g q a b) = Some (q, h q ra rb).

Section OneLimb.
Variables (q : Z) (k : nat).
Hypothesis Hq : 1 < q < 2 ^ 64.
Hypothesis Ho : Z.odd q = true.
Hypothesis Hn : Z.of_nat (2 ^ k) < q.
Let w := root q (2 ^ k).
Hypothesis Hw : root_of q (2 ^ k) w.
Let n := (2 ^ k)%nat.

Lemma wfl_mk a : length a = n -> Forall (can q) a -> wfl (q, a).
Proof. intros L C. split; [exact Hq|]. split; [exact Ho|]. exists k. cbn [fst snd]. repeat split; auto; apply Hw. Qed.
Lemma ntt_char a ra : length a = n -> Forall (can q) a -> limb_ntt root (q, a) = Some (q, ra) ->
  length ra = n /\ forall i, (i < n)%nat ->
    nth (bitrev k i) ra 0 = (sumn n (fun j => nth j a 0 * w ^^ ((2 * i + 1) * j))) mod q.
Proof.
  intros L C E. unfold limb_ntt in E. cbn [fst snd] in E. unfold n in L. rewrite L in E. fold w in E.
  pose proof (root_of_cong q _ w ltac:(lia) Hw) as Hc. pose proof Hw as [Hr _].
  destruct (ntt_eval q Hq k w a L C Hr Hc) as (r & H1 & H2 & H3 & H4).
  rewrite H1 in E. cbn [bind] in E. injection E as <-. auto.
Qed.
Lemma ntt_unique c rc : length c = n -> Forall (can q) c -> length rc = n -> Forall (can q) rc ->
  (forall i, (i < n)%nat -> cong q (nth (bitrev k i) rc 0) (sumn n (fun j => nth j c 0 * w ^^ ((2 * i + 1) * j)))) ->
  limb_ntt root (q, c) = Some (q, rc).
Proof.
  intros Lc Cc Lr Cr H.
  destruct (limb_ntt_ex (q, c) (wfl_mk c Lc Cc)) as (r & E & _ & _). cbn [fst] in E. rewrite E.
  destruct (ntt_char c r Lc Cc E) as [L N]. do 2 f_equal. apply (list_eq_nth 0); [lia|].
  intros t Ht. rewrite L in Ht. rewrite <- (bitrev_invol k t Ht).
  set (i := bitrev k t). assert (Hi : (i < n)%nat) by apply bitrev_lt.
  rewrite (N i Hi). rewrite <- (cong_eq _ _ _ (H i Hi)). apply Z.mod_small.
  rewrite Forall_forall in Cr. apply Cr. apply nth_In. rewrite Lr. apply bitrev_lt.
Qed.
Lemma pw_len h a b : length a = n -> length b = n -> length (pointwise h q a b) = n.
Proof. intros. unfold pointwise. rewrite map_length, combine_length. lia. Qed.
Lemma pw_can h a b : Forall (can q) (pointwise h q a b).
Proof. apply Forall_forall. intros x Hx. apply in_map_iff in Hx as (y & <- & _). apply Z.mod_pos_bound; lia. Qed.
Lemma pw_nth h a b i : length a = n -> length b = n -> (i < n)%nat ->
  nth i (pointwise h q a b) 0 = h (nth i a 0) (nth i b 0) mod q.
Proof. intros. unfold pointwise. rewrite (nth_combine_map _ _ _ _ 0 0) by lia. auto. Qed.

Lemma hom_lin (h : Z -> Z -> Z) a b ra rb :
  (forall x y z, h x y * z = h (x * z) (y * z)) -> (forall f g, sumn n (fun i => h (f i) (g i)) = h (sumn n f) (sumn n g)) ->
  (forall x y, cong q (h (x mod q) (y mod q)) (h x y)) ->
  length a = n -> length b = n -> Forall (can q) a -> Forall (can q) b ->
  limb_ntt root (q, a) = Some (q, ra) -> limb_ntt root (q, b) = Some (q, rb) ->
  wfl (q, pointwise h q a b) /\ limb_ntt root (q, pointwise h q a b) = Some (q, pointwise h q ra rb).
Proof.
  intros Hh Hs Hm La Lb Ca Cb Ea Eb.
  destruct (ntt_char a ra La Ca Ea) as [Lra Na]. destruct (ntt_char b rb Lb Cb Eb) as [Lrb Nb].
  split; [apply wfl_mk; [apply pw_len; auto|apply pw_can]|].
  apply ntt_unique; auto using pw_len, pw_can. intros i Hi.
  rewrite pw_nth by (auto; apply bitrev_lt). rewrite cong_mod, (Na i Hi), (Nb i Hi), Hm, <- Hs.
  apply sumn_cong. intros j Hj. rewrite pw_nth by auto. rewrite cong_mod, Hh. reflexivity.
Qed.
Lemma hom_mul a b ra rb :
  length a = n -> length b = n -> Forall (can q) a -> Forall (can q) b ->
  limb_ntt root (q, a) = Some (q, ra) -> limb_ntt root (q, b) = Some (q, rb) ->
  wfl (q, ring_mul q a b) /\ limb_ntt root (q, ring_mul q a b) = Some (q, pointwise Z.mul q ra rb).
Proof.
  intros La Lb Ca Cb Ea Eb.
  destruct (ntt_char a ra La Ca Ea) as [Lra Na]. destruct (ntt_char b rb Lb Cb Eb) as [Lrb Nb].
  assert (Lc : length (ring_mul q a b) = n) by (unfold ring_mul; rewrite map_length, seq_length; auto).
  assert (Cc : Forall (can q) (ring_mul q a b)).
  { apply Forall_forall. intros x Hx. apply in_map_iff in Hx as (y & <- & _). apply Z.mod_pos_bound; lia. }
  split; [apply wfl_mk; auto|].
  apply ntt_unique; auto using pw_len, pw_can. intros i Hi.
  rewrite pw_nth by (auto; apply bitrev_lt). rewrite cong_mod, (Na i Hi), (Nb i Hi), !cong_mod.
  pose proof (root_of_cong q _ w ltac:(lia) Hw) as Hc.
  assert (X : forall l, sumn n (fun j => nth j l 0 * w ^^ ((2 * i + 1) * j)) =
                        sumn n (fun j => nth j l 0 * (w ^^ (2 * i + 1)) ^^ j)).
  { intros l. apply sumn_ext. intros j _. rewrite npow_mul. auto. }
  rewrite !X. rewrite <- (nega_eval q n a b _ ltac:(eapply odd_pow_root; eauto)).
  apply sumn_cong. intros j Hj. unfold ring_mul. rewrite La.
  rewrite nth_map_seq by auto. rewrite cong_mod, ring_coeff_nega by auto. reflexivity.
Qed.
Lemma hom_scale s a ra : length a = n -> Forall (can q) a -> limb_ntt root (q, a) = Some (q, ra) ->
  wfl (q, map (fun c => c * s mod q) a) /\
  limb_ntt root (q, map (fun c => c * s mod q) a) = Some (q, map (fun c => c * s mod q) ra).
Proof.
  intros La Ca Ea. destruct (ntt_char a ra La Ca Ea) as [Lra Na].
  assert (M : forall l : list Z, Forall (can q) (map (fun c => c * s mod q) l)).
  { intros l. apply Forall_forall. intros x Hx. apply in_map_iff in Hx as (y & <- & _). apply Z.mod_pos_bound; lia. }
  assert (NM : forall (l : list Z) i, nth i (map (fun c => c * s mod q) l) 0 = nth i l 0 * s mod q).
  { intros l i. rewrite <- (map_nth (fun c => c * s mod q)). f_equal. }
  split; [apply wfl_mk; [rewrite map_length; auto|apply M]|].
  apply ntt_unique; auto; rewrite ?map_length; auto. intros i Hi.
  rewrite NM, cong_mod, (Na i Hi), cong_mod, <- sumn_scal_r. apply sumn_cong. intros j _.
  rewrite NM, cong_mod. apply eq_cong. f_equal. ring.
Qed.
End OneLimb.

Lemma two_limbs q a b : wfl (q, a) -> wfl (q, b) -> length a = length b ->
  1 < q < 2 ^ 64 /\ Z.odd q = true /\ exists k, Z.of_nat (2 ^ k) < q /\ root_of q (2 ^ k) (root q (2 ^ k)) /\
    length a = (2 ^ k)%nat /\ length b = (2 ^ k)%nat /\ Forall (can q) a /\ Forall (can q) b.
Proof.
  intros (Hq & Ho & k & Hn & Hr & [La Ca]) (_ & _ & k' & _ & _ & [Lb Cb]) E. cbn [fst snd] in *.
  split; auto. split; auto. exists k. repeat split; auto; try apply Hr; try lia.
Qed.
Lemma hom2_mul : hom2 ring_mul (pointwise Z.mul).
Proof.
  intros q a b ra rb Wa Wb E Ea Eb.
  destruct (two_limbs q a b Wa Wb E) as (Hq & Ho & k & Hn & Hr & La & Lb & Ca & Cb).
  apply (hom_mul q k); auto.
Qed.
Lemma hom2_add : hom2 (pointwise Z.add) (pointwise Z.add).
Proof.
  intros q a b ra rb Wa Wb E Ea Eb.
  destruct (two_limbs q a b Wa Wb E) as (Hq & Ho & k & Hn & Hr & La & Lb & Ca & Cb).
  apply (hom_lin q k); auto.
  - intros; ring.
  - intros; apply sumn_add.
  - intros. rewrite !cong_mod. reflexivity.
Qed.
Lemma hom2_sub : hom2 (pointwise Z.sub) (pointwise Z.sub).
Proof.
  intros q a b ra rb Wa Wb E Ea Eb.
  destruct (two_limbs q a b Wa Wb E) as (Hq & Ho & k & Hn & Hr & La & Lb & Ca & Cb).
  apply (hom_lin q k); auto.
  - intros; ring.
  - intros; apply sumn_sub.
  - intros. rewrite !cong_mod. reflexivity.
Qed.

(** ** Polynomials and tensors *)
Definition good (d : list rnspoly) : Prop := @Forall rnspoly (Forall wfl) d.
Definition R (d e : list rnspoly) : Prop := @Forall2 rnspoly rnspoly (Forall2 nttl) d e.

Lemma nttl_fst x y : nttl x y -> fst y = fst x /\ length (snd y) = length (snd x) \/ ~ wfl x.
Proof.
  intros E. destruct x as [q a], y as [q' b]. unfold nttl, limb_ntt in E. cbn [fst snd] in *.
  destruct (ntt_in_place q (root q (length a)) a) as [r|] eqn:E1; [|discriminate]. cbn [bind] in E.
  injection E as <- <-.
  destruct (Nat.eq_dec (length r) (length a)); [left; auto|right]. intros W.
  destruct (limb_ntt_ex _ W) as (r' & E2 & L & _). unfold limb_ntt in E2. cbn [fst snd] in *.
  rewrite E1 in E2. cbn [bind] in E2. injection E2 as <-. lia.
Qed.
Lemma nttl_len x y : wfl x -> nttl x y -> fst y = fst x /\ length (snd y) = length (snd x).
Proof. intros W E. destruct (nttl_fst x y E); tauto. Qed.

Lemma rns_hom2 g h : hom2 g h -> forall x y x' y' z, Forall wfl x -> Forall wfl y ->
  Forall2 nttl x x' -> Forall2 nttl y y' -> rns_op2 g (x, y) = Some z ->
  Forall wfl z /\ exists z', rns_op2 h (x', y') = Some z' /\ Forall2 nttl z z'.
Proof.
  intros H. unfold rns_op2. cbn [fst snd]. intros x y x' y' z Wx Wy Rx Ry.
  rewrite <- (F2_len _ _ _ Rx), <- (F2_len _ _ _ Ry).
  destruct (Nat.eqb_spec (length x) (length y)) as [L|]; [|discriminate].
  revert y x' y' z Wx Wy Rx Ry L.
  induction x as [|[q a] x IH]; intros [|[r b] y] x' y' z Wx Wy Rx Ry L E; try discriminate.
  - inversion Rx; inversion Ry; subst. cbn in *. injection E as <-. split; [constructor|]. eauto.
  - cbn [combine omap] in E. inversion Rx as [|? [q' a'] ? x'' Na Rx' ]; inversion Ry as [|? [r' b'] ? y'' Nb Ry']; subst.
    inversion Wx as [|? ? Wa Wx']; inversion Wy as [|? ? Wb Wy']; subst.
    destruct (nttl_len _ _ Wa Na) as [F1 G1]. destruct (nttl_len _ _ Wb Nb) as [F2 G2]. cbn [fst snd] in *. subst q' r'.
    unfold limb_op2 at 1 in E.
    destruct ((q =? r) && (length a =? length b)%nat) eqn:C; [cbn [bind] in E|discriminate].
    apply andb_true_iff in C as [C1 C2]. apply Z.eqb_eq in C1. apply Nat.eqb_eq in C2. subst r.
    destruct (omap (limb_op2 g) (combine x y)) as [z1|] eqn:E1; [cbn [bind] in E|discriminate].
    injection E as <-. cbn [length] in L. injection L as L.
    destruct (IH y x'' y'' z1 Wx' Wy' Rx' Ry' L E1) as (G & z1' & E2 & G').
    destruct (H q a b a' b' Wa Wb C2 Na Nb) as [W N].
    split; [constructor; auto|]. exists ((q, h q a' b') :: z1'). split; [|constructor; auto].
    cbn [combine omap]. unfold limb_op2 at 1. rewrite Z.eqb_refl, G1, G2, C2, Nat.eqb_refl. cbn [andb bind].
    rewrite E2. auto.
Qed.
Lemma tensor_hom2 g h : hom2 g h -> forall x y x' y' z, good x -> good y ->
  R x x' -> R y y' -> tensor_op2 g x y = Some z ->
  good z /\ exists z', tensor_op2 h x' y' = Some z' /\ R z z'.
Proof.
  intros H. unfold tensor_op2, good, R. intros x y x' y' z Wx Wy Rx Ry.
  assert (L1 : length x = length x') by exact (F2_len _ _ _ Rx).
  assert (L2 : length y = length y') by exact (F2_len _ _ _ Ry). rewrite <- L1, <- L2. clear L1 L2.
  destruct (Nat.eqb_spec (length x) (length y)) as [L|]; [|discriminate].
  revert y x' y' z Wx Wy Rx Ry L.
  induction x as [|a x IH]; intros [|b y] x' y' z Wx Wy Rx Ry L E; try discriminate.
  - inversion Rx; inversion Ry; subst. cbn in *. injection E as <-. split; [constructor|]. eauto.
  - cbn [combine omap] in E. inversion Rx as [|? a' ? x'' Na Rx' ]; inversion Ry as [|? b' ? y'' Nb Ry']; subst.
    inversion Wx as [|? ? Wa Wx']; inversion Wy as [|? ? Wb Wy']; subst.
    destruct (rns_op2 g (a, b)) as [c|] eqn:E1; [cbn [bind] in E|discriminate].
    destruct (omap (rns_op2 g) (combine x y)) as [z1|] eqn:E2; [cbn [bind] in E|discriminate].
    injection E as <-. cbn [length] in L. injection L as L.
    destruct (IH y x'' y'' z1 Wx' Wy' Rx' Ry' L E2) as (G & z1' & E3 & G').
    destruct (rns_hom2 g h H _ _ _ _ _ Wa Wb Na Nb E1) as (W & c' & E4 & N).
    split; [constructor; auto|]. exists (c' :: z1'). split; [|constructor; auto].
    cbn [combine omap]. change (@pair rnspoly rnspoly a' b') with (@pair (list (Z * list Z)) (list (Z * list Z)) a' b') at 1.
    match goal with |- context [rns_op2 h ?t] => replace (rns_op2 h t) with (Some c') by (symmetry; exact E4) end.
    cbn [bind]. rewrite E3. auto.
Qed.
Lemma rns_scale_hom s x x' z : Forall wfl x -> Forall2 nttl x x' -> rns_scale s x = Some z ->
  Forall wfl z /\ exists z', rns_scale s x' = Some z' /\ Forall2 nttl z z'.
Proof.
  unfold rns_scale. intros W Rx. rewrite <- (F2_len _ _ _ Rx).
  destruct (Nat.eqb_spec (length s) (length x)) as [L|]; [|discriminate]. intros [= <-].
  cut (Forall wfl (map (fun sl : Z * (Z * list Z) => (fst (snd sl), map (fun c => c * fst sl mod fst (snd sl)) (snd (snd sl)))) (combine s x)) /\
       Forall2 nttl (map (fun sl : Z * (Z * list Z) => (fst (snd sl), map (fun c => c * fst sl mod fst (snd sl)) (snd (snd sl)))) (combine s x))
         (map (fun sl : Z * (Z * list Z) => (fst (snd sl), map (fun c => c * fst sl mod fst (snd sl)) (snd (snd sl)))) (combine s x'))).
  { intros [A B]. split; eauto. }
  clear L. revert s. induction Rx as [|[q a] [q' a'] x x' N Rx IH]; intros [|c s]; cbn [combine map]; auto.
  inversion W as [|? ? Wa Wx]; subst. destruct (nttl_len _ _ Wa N) as [F1 G1]. cbn [fst snd] in *. subst q'.
  destruct (IH Wx s) as [I1 I2]. pose proof Wa as (Hq & Ho & k & Hn & Hr & [La Ca]). cbn [fst snd] in *.
  destruct (hom_scale q k Hq Ho Hn Hr c a a' La Ca N) as [P1 P2]. auto.
Qed.
Lemma omap_hom (f f' : rnspoly -> option rnspoly) :
  (forall x x' z, Forall wfl x -> Forall2 nttl x x' -> f x = Some z ->
     Forall wfl z /\ exists z', f' x' = Some z' /\ Forall2 nttl z z') ->
  forall d e z, good d -> R d e -> omap f d = Some z -> good z /\ exists z', omap f' e = Some z' /\ R z z'.
Proof.
  intros H d e z G HR. revert z. induction HR as [|x x' d e N HR IH]; intros z; cbn [omap].
  - intros [= <-]. split; [constructor|]. exists []. split; auto. constructor.
  - inversion G as [|? ? Wx Gd]; subst. destruct (f x) as [y|] eqn:E; [cbn [bind]|discriminate].
    destruct (omap f d) as [r|] eqn:E2; [cbn [bind]|discriminate]. intros [= <-].
    destruct (H _ _ _ Wx N E) as (A & y' & B & C). destruct (IH Gd r eq_refl) as (D & r' & E' & F).
    split; [constructor; auto|]. exists (y' :: r'). rewrite B. cbn [bind]. rewrite E'. split; auto. constructor; auto.
Qed.

Lemma R_ex d : good d -> exists e, omap (omap (limb_ntt root)) d = Some e /\ R d e.
Proof.
  induction 1 as [|x d W G (e & E & F)].
  - exists []. split; auto. constructor.
  - assert (X : exists y, omap (limb_ntt root) x = Some y).
    { clear - W. induction W as [|l x Wl W (y & E)]; [exists []; auto|].
      destruct (limb_ntt_ex l Wl) as (r & E1 & _). cbn [omap]. rewrite E1. cbn [bind]. rewrite E. cbn [bind]. eauto. }
    destruct X as [y Y]. exists (y :: e). cbn [omap]. rewrite Y. cbn [bind]. rewrite E. cbn [bind]. split; auto.
    constructor; auto. apply omap_F2; auto.
Qed.
Lemma R_omap d e : R d e <-> omap (omap (limb_ntt root)) d = Some e.
Proof.
  unfold R. rewrite omap_F2. split; intros H; (induction H; constructor; auto); apply omap_F2; auto.
Qed.
Lemma R_back d e : good d -> R d e -> omap (omap (limb_intt root)) e = Some d.
Proof.
  intros G HR. induction HR as [|x x' d e N HR IH]; auto. inversion G as [|? ? Wx Gd]; subst.
  cbn [omap]. assert (E : omap (limb_intt root) x' = Some x).
  { clear - N Wx. induction N as [|l l' x x' E N IH]; auto. inversion Wx as [|? ? Wl W]; subst.
    cbn [omap]. rewrite (limb_back l l' Wl E). cbn [bind]. rewrite (IH W). auto. }
  rewrite E. cbn [bind]. rewrite (IH Gd). auto.
Qed.
Lemma R_fun d e e' : R d e -> R d e' -> e = e'.
Proof. rewrite !R_omap. congruence. Qed.

Lemma slice_hom (i n : nat) : forall x x' z, Forall wfl x -> Forall2 nttl x x' ->
  (if (i + n <=? length x)%nat then Some (firstn n (skipn i x)) else None) = Some z ->
  Forall wfl z /\ exists z', (if (i + n <=? length x')%nat then Some (firstn n (skipn i x')) else None) = Some z' /\ Forall2 nttl z z'.
Proof.
  intros x x' z W N. rewrite <- (F2_len _ _ _ N). destruct (i + n <=? length x)%nat; [|discriminate].
  intros [= <-]. split; [apply F_firstn, F_skipn; auto|]. eexists. split; [reflexivity|].
  apply F2_firstn, F2_skipn; auto.
Qed.
Lemma select_hom d e idx z : good d -> R d e -> omap (fun i => nth_error d i) idx = Some z ->
  good z /\ exists z', omap (fun i => nth_error e i) idx = Some z' /\ R z z'.
Proof.
  intros G HR. revert z. induction idx as [|i idx IH]; intros z; cbn [omap].
  - intros [= <-]. split; [constructor|]. exists []. split; auto. constructor.
  - destruct (nth_error d i) as [x|] eqn:E; [cbn [bind]|discriminate].
    destruct (omap (fun i => nth_error d i) idx) as [r|]; [cbn [bind]|discriminate]. intros [= <-].
    destruct (IH r eq_refl) as (A & r' & B & C).
    destruct (F2_nth _ _ _ _ _ HR E) as (x' & E' & N). rewrite E'. cbn [bind]. rewrite B. cbn [bind].
    split; [constructor; auto|]. { unfold good in G. rewrite Forall_forall in G. apply G. eapply nth_error_In; eauto. }
    eexists. split; [reflexivity|]. constructor; auto.
Qed.
End Hom.
