(** Property C19: coefficient-form polynomial multiplication. *)
From Coq Require Import ZArith List Bool Arith Lia Znumtheory Setoid Morphisms.
From Verif Require Import Words ModArith_Model ModArith_Proofs ModArith_Props NumTheory_Model NumTheory_Proofs
  ModEq Sums NTT_Model NTT_Proofs NTT2_Proofs NTT_Props PolyMul_Model PolyMul_Proofs.
Import ListNotations.
Open Scope Z_scope.

(** ** Specification vocabulary ([poly], [ring_product] from NTT_Props) *)

(** coefficient of x^k of the product of two polynomials: the sum over i + j = k *)
Definition product_coeff (f g : nat -> Z) (k : nat) : Z := sumn (S k) (fun i => f i * g (k - i)%nat).
(** coefficient of x^k of a polynomial given by its terms (exponent, coefficient) *)
Definition coeff_of (terms : list (nat * Z)) (k : nat) : Z :=
  fold_right Z.add 0 (map snd (filter (fun t => (fst t =? k)%nat) terms)).
(** the ideal: distinct exponents, the last term (n, lc) is the leading one and is invertible;
    the coefficients fit in the storage type *)
Definition ideal (w q : Z) (terms : list (nat * Z)) (n : nat) : Prop :=
  NoDup (map fst terms) /\
  (forall e v, In (e, v) terms -> (e <= n)%nat /\ - 2 ^ (w - 1) <= v < 2 ^ (w - 1)) /\
  (2 <= n)%nat /\ exists pre lc, terms = pre ++ [(n, lc)] /\ 0 < lc < q /\ Z.gcd lc q = 1.
(** [c] is the remainder of a*b modulo the ideal in Z_q[x] : a*b = c + f*g with deg c < n *)
Definition remainder (q : Z) (f : list (nat * Z)) (n : nat) (a b c : list Z) : Prop :=
  poly q n c /\
  exists (g : nat -> Z) (m : nat), (forall i, (m <= i)%nat -> g i = 0) /\
  forall k, product_coeff (fun i => nth i a 0) (fun i => nth i b 0) k mod q =
            (nth k c 0 + product_coeff (coeff_of f) g k) mod q.

Lemma ideal_info w q terms n : accepted_type w q -> 1 < q -> w <= 64 -> ideal w q terms n ->
  exists inv d, divisor_info w q terms = Some (n, inv, d) /\ can q inv /\ length d = (2 * n - 1)%nat /\
    (forall k, nth k d 0 = coeff_of terms k mod q) /\ cong q (coeff_of terms n * inv) 1.
Proof.
  intros Ht Hq H64 (ND & Hin & Hn & pre & lc & -> & Hlc & Hg).
  pose proof (accepted_bound _ _ Ht) as Hb. destruct Ht as [Hw _].
  assert (P63 : 2 ^ (w - 1) <= 2 ^ 63) by (apply Z.pow_le_mono_r; lia).
  change (2 ^ 63) with 9223372036854775808 in P63.
  unfold divisor_info. rewrite rev_app_distr. cbn [rev app].
  rewrite (wrap_small 64) by (change (2 ^ 64) with 18446744073709551616; lia).
  replace (Z.max w 64) with 64 by lia.
  destruct (multiplicative_inverse_ok 64 q lc ltac:(lia)
     ltac:(unfold is_word; change (2 ^ 64) with 18446744073709551616; lia) ltac:(lia)) as (y & Hy & Hv & _).
  rewrite Hy. cbn [bind]. destruct (Hv Hg) as [A B].
  assert (y <> 0). { intros ->. rewrite Z.mul_0_r, Z.mod_0_l in B; rewrite Z.mod_small in B; lia. }
  replace (y =? 0) with false by lia. P2 w. rewrite (wrap_small w) by lia.
  destruct (convert_constant_ok w q Hw ltac:(lia) (2 * n - 1) (pre ++ [(n, lc)]) ND) as (d & Hd & Ld & Nd).
  { intros e v H'. destruct (Hin e v H'). split; [lia|auto]. }
  rewrite Hd. cbn [bind]. exists y, d. split; auto. split; [exact A|]. split; auto. split; auto.
  assert (E : coeff_of (pre ++ [(n, lc)]) n = lc).
  { change (term_coeff (pre ++ [(n, lc)]) n = lc). unfold term_coeff. rewrite filter_app. cbn [filter fst].
    rewrite Nat.eqb_refl. replace (filter _ pre) with (@nil (nat * Z)); [simpl; lia|].
    rewrite map_app in ND. cbn [map fst] in ND. apply NoDup_remove_2 in ND. rewrite app_nil_r in ND.
    symmetry. clear - ND. induction pre as [|[e v] l IH]; auto. cbn [filter fst map In] in *.
    destruct (Nat.eqb_spec e n); [tauto|]. apply IH. tauto. }
  rewrite E. apply eq_cong. rewrite B. auto.
Qed.
Lemma coeff_above w q terms n k : ideal w q terms n -> (n < k)%nat -> coeff_of terms k = 0.
Proof.
  intros (ND & Hin & _) Hk. apply (term_coeff_notin 8 17 ltac:(lia) terms k). intros H.
  apply in_map_iff in H as ([e v] & <- & H). apply Hin in H. simpl in *. lia.
Qed.

(** ** C19 *)

(** The remainder is determined by a*b. *)
Theorem C19_remainder_unique w q f n a b c c' : accepted_type w q -> 1 < q -> w <= 64 -> ideal w q f n ->
  remainder q f n a b c -> remainder q f n a b c' -> c = c'.
Proof.
  intros Ht Hq H64 Hi ([L1 C1] & g & m & G1 & E1) ([L2 C2] & g' & m' & G2 & E2).
  destruct (ideal_info w q f n Ht Hq H64 Hi) as (inv & d & _ & _ & _ & _ & HI).
  apply (div_unique q (coeff_of f) n inv c c' g g' (conv (fun i => nth i a 0) (fun i => nth i b 0)) (Nat.max m m')); auto.
  - intros k Hk. rewrite (coeff_above w q f n k); auto. reflexivity.
  - intros. apply G1. lia.
  - intros. apply G2. lia.
  - intros k. apply eq_cong. apply E1.
  - intros k. apply eq_cong. apply E2.
Qed.
Print Assumptions C19_remainder_unique.

(** The emitted code computes the remainder when it is not zero; when the product is zero in the
    ring it reads outside the tensor.  (So the claim holds exactly for non-zero products.) *)
Theorem C19_polymul_partial w q f n : accepted_type w q -> 1 < q -> w <= 64 -> ideal w q f n ->
  exists mul, lowered_polymul w q f = Some mul /\
  forall a b, poly q n a -> poly q n b ->
    (exists c, mul a b = Done c /\ remainder q f n a b c /\ c <> repeat 0 n) \/
    (mul a b = Undefined /\ remainder q f n a b (repeat 0 n)).
Proof.
  intros Ht Hq H64 Hi.
  destruct (ideal_info w q f n Ht Hq H64 Hi) as (inv & d & HI & Cinv & Ld & Nd & Hinv).
  assert (Hn : (2 <= n)%nat) by apply Hi.
  pose proof (accepted_bound _ _ Ht) as Hb. destruct Ht as [Hw Hrest].
  unfold lowered_polymul. rewrite HI. cbn [bind]. eexists. split; [reflexivity|].
  intros a b [La Ca] [Lb Cb].
  destruct (naive_ok w q Hw ltac:(lia) a b ltac:(lia) ltac:(lia) Ca Cb) as (p & Hp & Lp & Cp & Np).
  rewrite Hp. cbn [of_option obind].
  assert (Cd : Forall (can q) d).
  { apply Forall_forall. intros x Hx. apply (In_nth _ _ 0) in Hx as (k & _ & <-). rewrite Nd.
    apply Z.mod_pos_bound. lia. }
  assert (Zd : forall k, (n < k)%nat -> nth k d 0 = 0).
  { intros k Hk. rewrite Nd, (coeff_above w q f n k Hi Hk). apply Z.mod_0_l. lia. }
  assert (Hinv' : cong q (nth n d 0 * inv) 1) by (rewrite Nd, cong_mod; auto).
  rewrite La in *.
  destruct (divmod_ok w q Hw ltac:(lia) d n inv Cd Zd Hinv' Cinv ltac:(lia) (2 * n) p (2 * n - 1)
     ltac:(lia) Cp ltac:(intros; apply nth_overflow; lia) ltac:(lia) ltac:(lia)) as (g & Hg & HM).
  assert (Rem : forall r : list Z, length r = n -> Forall (can q) r ->
     (forall k, (k < 2 * n - 1)%nat -> cong q (nth k p 0) (nth k r 0 + conv (fun i => nth i d 0) g k)) ->
     remainder q f n a b r).
  { intros r Lr Cr Hr. split; [split; auto|]. exists g, (length d - n)%nat. split; auto.
    intros k. apply cong_eq.
    change (cong q (conv (fun i => nth i a 0) (fun i => nth i b 0) k) (nth k r 0 + conv (coeff_of f) g k)).
    assert (EC : cong q (conv (coeff_of f) g k) (conv (fun i => nth i d 0) g k)).
    { apply conv_ext_cong. intros i _. rewrite Nd, cong_mod. reflexivity. }
    rewrite EC. destruct (Nat.lt_ge_cases k (2 * n - 1)) as [Hk|Hk].
    - rewrite <- (Np k Hk). auto.
    - rewrite nth_overflow by lia.
      assert (Z1 : conv (fun i => nth i a 0) (fun i => nth i b 0) k = 0).
      { unfold conv. apply sumn_zero. intros i Hi'. destruct (Nat.lt_ge_cases i n).
        - rewrite (nth_overflow b) by lia. ring.
        - rewrite (nth_overflow a) by lia. ring. }
      assert (Z2 : conv (fun i => nth i d 0) g k = 0).
      { unfold conv. apply sumn_zero. intros i Hi'. destruct (Nat.le_gt_cases i n).
        - rewrite Hg by lia. ring.
        - rewrite Zd by lia. ring. }
      rewrite Z1, Z2. reflexivity. }
  destruct (divmod_loop (2 * n) w q d n inv p) as [r| |]; cbn [obind].
  - left. destruct HM as (A & B & C & (k0 & K1 & K2) & E). exists (firstn n r). split; auto.
    assert (N : forall k, nth k (firstn n r) 0 = nth k r 0).
    { intros k. rewrite <- (firstn_skipn n r) at 2. destruct (Nat.lt_ge_cases k n).
      - rewrite app_nth1; auto. rewrite firstn_length. lia.
      - rewrite nth_overflow by (rewrite firstn_length; lia).
        rewrite firstn_skipn. symmetry. apply C. lia. }
    split.
    + apply Rem.
      * rewrite firstn_length. lia.
      * apply Forall_forall. intros x Hx. rewrite Forall_forall in B. apply B.
        rewrite <- (firstn_skipn n r). apply in_app_iff. auto.
      * intros k Hk. rewrite N. apply E. lia.
    + intros H. apply K2. rewrite <- N, H. apply nth_repeat.
  - right. split; auto. apply Rem.
    + apply repeat_length.
    + apply Forall_forall. intros x Hx. apply repeat_spec in Hx. subst. unfold can. lia.
    + intros k Hk. rewrite nth_repeat, Z.add_0_l. apply HM. lia.
  - destruct HM.
Qed.
Print Assumptions C19_polymul_partial.

(** In the ring of x^n + 1 the result is the negacyclic product (the same as through the
    transforms, C16) or the code is undefined. *)
Definition xn1 (n : nat) : list (nat * Z) := [(0%nat, 1); (n, 1)].
Lemma xn1_ideal w q n : accepted_type w q -> 1 < q -> (2 <= n)%nat -> ideal w q (xn1 n) n.
Proof.
  intros Ht Hq Hn. pose proof (accepted_bound _ _ Ht). split.
  - repeat constructor; simpl; intuition lia.
  - split.
    + intros e v [E|[E|[]]]; injection E as <- <-; split; lia.
    + split; auto. exists [(0%nat, 1)], 1. split; auto. split; [lia|]. apply Z.gcd_1_l.
Qed.
Lemma nega_conv n a b k : length a = n -> length b = n -> (k < n)%nat ->
  nega n a b k = conv (fun i => nth i a 0) (fun i => nth i b 0) k - conv (fun i => nth i a 0) (fun i => nth i b 0) (n + k).
Proof.
  intros La Lb Hk. unfold nega, conv.
  rewrite (sumn_ext n _ (fun i => (if (i <=? k)%nat then nth i a 0 * nth (k - i) b 0 else 0)
      - (if (i <=? k)%nat then 0 else nth i a 0 * nth (n + k - i) b 0)))
    by (intros i _; destruct (i <=? k)%nat; ring).
  rewrite sumn_sub. f_equal.
  - replace n with (S k + (n - S k))%nat by lia. rewrite sumn_split.
    rewrite (sumn_zero (n - S k)).
    + rewrite Z.add_0_r. apply sumn_ext. intros i Hi. destruct (Nat.leb_spec i k); [auto|lia].
    + intros i Hi. destruct (Nat.leb_spec (S k + i) k); [lia|auto].
  - replace (S (n + k)) with (n + S k)%nat by lia. rewrite sumn_split.
    rewrite (sumn_zero (S k)) by (intros i _; rewrite (nth_overflow a) by lia; ring).
    rewrite Z.add_0_r. apply sumn_ext. intros i Hi. destruct (Nat.leb_spec i k); auto.
    rewrite (nth_overflow b) by lia. ring.
Qed.
Lemma ring_remainder w q n a b c : accepted_type w q -> 1 < q -> (2 <= n)%nat -> poly q n a -> poly q n b ->
  ring_product q n a b c -> remainder q (xn1 n) n a b c.
Proof.
  intros Ht Hq Hn [La Ca] [Lb Cb] [Hc Hk]. split; auto.
  set (p := conv (fun i => nth i a 0) (fun i => nth i b 0)).
  exists (fun i => if (i <? n)%nat then p (n + i)%nat else 0), n. split.
  { intros i Hi. destruct (Nat.ltb_spec i n); [lia|auto]. }
  intros k. change (product_coeff (fun i => nth i a 0) (fun i => nth i b 0) k) with (p k).
  apply cong_eq.
  set (g := fun i => if (i <? n)%nat then p (n + i)%nat else 0).
  assert (E : product_coeff (coeff_of (xn1 n)) g k = g k + (if (n <=? k)%nat then g (k - n)%nat else 0)).
  { unfold product_coeff.
    rewrite (sumn_ext (S k) _ (fun i => (if (i =? 0)%nat then g (k - i)%nat else 0) + (if (i =? n)%nat then g (k - i)%nat else 0))).
    - rewrite sumn_add. f_equal.
      + rewrite (sumn_single (S k) _ 0); try lia; [rewrite Nat.sub_0_r; reflexivity|].
        intros i _ Hi. destruct (Nat.eqb_spec i 0); [lia|auto].
      + destruct (Nat.leb_spec n k).
        * rewrite (sumn_single (S k) _ n); try lia; [rewrite Nat.eqb_refl; reflexivity|].
          intros i _ Hi. destruct (Nat.eqb_spec i n); [lia|auto].
        * apply sumn_zero. intros i Hi. destruct (Nat.eqb_spec i n); [lia|auto].
    - intros i _. unfold coeff_of, xn1. cbn [filter fst].
      rewrite (Nat.eqb_sym 0 i), (Nat.eqb_sym n i).
      destruct (Nat.eqb_spec i 0), (Nat.eqb_spec i n); cbn [map snd fold_right]; try lia. }
  rewrite E. unfold g.
  assert (PZ : forall j, (2 * n - 1 <= j)%nat -> p j = 0).
  { intros j Hj. unfold p, conv. apply sumn_zero. intros i Hi. destruct (Nat.lt_ge_cases i n).
    - rewrite (nth_overflow b) by lia. ring.
    - rewrite (nth_overflow a) by lia. ring. }
  destruct (Nat.ltb_spec k n), (Nat.leb_spec n k); try lia.
  - rewrite Hk by auto. rewrite ring_coeff_nega by auto. rewrite cong_mod, nega_conv by auto.
    fold p. exists 0. ring.
  - destruct Hc as [Lc _]. rewrite (nth_overflow c) by lia.
    destruct (Nat.ltb_spec (k - n) n).
    + replace (n + (k - n))%nat with k by lia. exists 0. ring.
    + rewrite PZ by lia. reflexivity.
Qed.
Theorem C19_negacyclic_partial w q n : accepted_type w q -> 1 < q -> w <= 64 -> (2 <= n)%nat ->
  exists mul, lowered_polymul w q (xn1 n) = Some mul /\
  forall a b c, poly q n a -> poly q n b -> ring_product q n a b c ->
    (c <> repeat 0 n -> mul a b = Done c) /\ (c = repeat 0 n -> mul a b = Undefined).
Proof.
  intros Ht Hq H64 Hn. pose proof (xn1_ideal w q n Ht Hq Hn) as Hi.
  destruct (C19_polymul_partial w q (xn1 n) n Ht Hq H64 Hi) as (mul & Hm & HM).
  exists mul. split; auto. intros a b c Ha Hb Hc.
  apply (ring_remainder w) in Hc; auto.
  destruct (HM a b Ha Hb) as [(c' & E & R & N)|(E & R)]; pose proof (C19_remainder_unique w q (xn1 n) n a b _ _ Ht Hq H64 Hi Hc R) as U; subst; split; intros; auto; tauto.
Qed.
Print Assumptions C19_negacyclic_partial.

(** Multiplying two non-zero polynomials whose product vanishes in the ring is undefined. *)
Theorem C19_zero_product_refuted : exists w q n a b,
  accepted_type w q /\ poly q n a /\ poly q n b /\ a <> repeat 0 n /\ b <> repeat 0 n /\
  match lowered_polymul w q (xn1 n) with Some mul => mul a b = Undefined | None => False end.
Proof.
  exists 8, 17, 2%nat, [13; 1], [4; 1].
  split; [split; [lia|split; [lia|reflexivity]]|].
  split; [split; [reflexivity|repeat constructor; lia]|]. split; [split; [reflexivity|repeat constructor; lia]|].
  split; [discriminate|]. split; [discriminate|]. vm_compute. reflexivity.
Qed.
Print Assumptions C19_zero_product_refuted.

(** Polynomial constants whose coefficients fit in the storage type are converted exactly ... *)
Theorem C19_constant w q len f : accepted_type w q -> 1 < q -> NoDup (map fst f) ->
  (forall e v, In (e, v) f -> (e < len)%nat /\ - 2 ^ (w - 1) <= v < 2 ^ (w - 1)) ->
  exists d, convert_constant w q len f = Some d /\ length d = len /\
    forall k, nth k d 0 = coeff_of f k mod q.
Proof.
  intros Ht Hq ND Hin. pose proof (accepted_bound _ _ Ht). destruct Ht as [Hw _].
  apply convert_constant_ok; auto; lia.
Qed.
Print Assumptions C19_constant.
(** ... but larger coefficients (64-bit in the attribute) are truncated before the reduction. *)
Theorem C19_constant_truncation_refuted : exists w q f d,
  accepted_type w q /\ convert_constant w q 1 f = Some d /\ nth 0 d 0 <> coeff_of f 0 mod q.
Proof.
  exists 8, 17, [(0%nat, 256)], [0]. split; [split; [lia|split; [lia|reflexivity]]|]. split; [reflexivity|]. vm_compute. discriminate.
Qed.
Print Assumptions C19_constant_truncation_refuted.

Example C19_nonvacuous : ideal 8 17 [(0%nat, 1); (1%nat, 3); (3%nat, 2)] 3 /\
  match lowered_polymul 8 17 [(0%nat, 1); (1%nat, 3); (3%nat, 2)] with
  | Some mul => mul [1; 2; 3] [3; 4; 6] = Done [8; 16; 13] | None => False end.
Proof.
  split; [|vm_compute; reflexivity].
  split; [repeat constructor; simpl; intuition lia|]. split.
  - intros e v [E|[E|[E|[]]]]; injection E as <- <-; (split; [lia|vm_compute; split; congruence]).
  - split; [lia|]. exists [(0%nat, 1); (1%nat, 3)], 2. split; auto. split; [lia|reflexivity].
Qed.
