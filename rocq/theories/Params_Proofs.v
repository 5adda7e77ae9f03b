(** * Generation of RLWE parameters: proofs *)
From Coq Require Import ZArith List Bool Lia Znumtheory FinFun.
From Verif Require Import Params_Spec Params_Primes Params_Model.
Import ListNotations.
Open Scope Z_scope.

Ltac inv_opt H :=
  repeat match type of H with
  | match ?x with _ => _ end = Some _ =>
      let E := fresh "E" in destruct x eqn:E; try discriminate H
  | option_map _ ?x = Some _ =>
      let E := fresh "E" in destruct x eqn:E; cbn [option_map] in H; try discriminate H
  end.

Lemma conj4 (A B C D : Prop) : A -> B -> C -> D -> A /\ B /\ C /\ D.
Proof. auto. Qed.

Lemma existsb_false p l : existsb (Z.eqb p) l = false -> ~ In p l.
Proof.
  intros H C. assert (existsb (Z.eqb p) l = true); [|congruence].
  apply existsb_exists. exists p. rewrite Z.eqb_refl. auto.
Qed.

Lemma existsb_true p l : existsb (Z.eqb p) l = true -> In p l.
Proof. intros H. apply existsb_exists in H as (q & H1 & H2). apply Z.eqb_eq in H2. congruence. Qed.

(** ** Products *)

Lemma product_app l m : product (l ++ m) = product l * product m.
Proof. induction l as [|a l IH]; cbn [app product]; [lia|rewrite IH; lia]. Qed.

Lemma product_fold l : fold_right Z.mul 1 l = product l.
Proof. induction l; cbn; congruence. Qed.

Lemma product_pos l : (forall q, In q l -> 0 < q) -> 0 < product l.
Proof.
  induction l as [|a l IH]; cbn; intros H; [lia|].
  apply Z.mul_pos_pos; [apply H; auto|apply IH; auto].
Qed.

Lemma product_less d : forall p,
  (forall a b, In a d -> In b p -> 0 < a < b) -> (length d <= length p)%nat -> p <> [] ->
  (forall b, In b p -> 1 < b) -> product d < product p.
Proof.
  induction d as [|a d IH]; intros p H Hl Hp H1.
  - destruct p as [|b p]; [congruence|]. cbn.
    assert (0 < product p) by (apply product_pos; intros q Hq; specialize (H1 q (or_intror Hq)); lia).
    specialize (H1 b (or_introl eq_refl)). nia.
  - destruct p as [|b p]; cbn in Hl |- *; [lia|].
    assert (Hab := H a b (or_introl eq_refl) (or_introl eq_refl)).
    assert (Hpp : 0 < product p) by (apply product_pos; intros q Hq; specialize (H1 q (or_intror Hq)); lia).
    destruct p as [|b' p].
    + destruct d; cbn in Hl |- *; lia.
    + assert (product d < product (b' :: p)).
      { apply IH; [| lia | congruence |].
        - intros x y Hx Hy. apply H; right; auto.
        - intros y Hy. apply H1. right. auto. }
      nia.
Qed.

(** ** Ring dimensions *)

Lemma find_dim_some l logPQ mn n : find_dim l logPQ mn = Some n ->
  mn <= n /\ exists k, In (n, k) l /\ logPQ <= k.
Proof.
  induction l as [|[m k] l IH]; cbn; intros H; [discriminate|].
  destruct (Z.ltb_spec m mn).
  - destruct (IH H) as (H1 & k' & H2 & H3). eauto.
  - destruct (Z.geb_spec k logPQ).
    + injection H as <-. split; auto. exists k. auto.
    + destruct (IH H) as (H2 & k' & H3 & H4). eauto.
Qed.

Lemma ring_dim_ok logPQ mn n : computeRingDim logPQ mn = Some n ->
  mn <= n /\ exists k, In (n, k) max_log_modulus /\ logPQ <= k.
Proof. apply find_dim_some. Qed.

Lemma table_pos n k : In (n, k) max_log_modulus -> 1024 <= n.
Proof.
  cbn. intros H. repeat (destruct H as [H|H]; [injection H as <- _; lia|]). destruct H.
Qed.

Lemma ring_dim_pos logPQ mn n : computeRingDim logPQ mn = Some n -> 1024 <= n.
Proof. intros H. apply ring_dim_ok in H as (_ & k & H & _). eapply table_pos; eauto. Qed.

(** ** Finding primes *)

Section Find.
  Variables first next : Z -> Z -> option Z.
  Hypothesis ext : returns_primes first next.

  Lemma skip_ok fuel m p e q : 1 < m -> prime p /\ p mod m = 1 ->
    skip_existing next fuel m p e = Found q ->
    prime q /\ q mod m = 1 /\ p <= q /\ ~ In q e.
  Proof.
    intros Hm. revert p. induction fuel as [|fuel IH]; intros p (H1 & H2) H; cbn in H.
    - destruct (existsb _ _) eqn:E; [discriminate|]. injection H as <-.
      apply existsb_false in E. apply conj4; auto; lia.
    - destruct (existsb _ _) eqn:E.
      + destruct (next p m) as [p'|] eqn:En; [|discriminate].
        destruct (proj2 ext _ _ _ Hm H2 En) as (N1 & N2 & N3).
        destruct (IH p' (conj N1 N2) H) as (I1 & I2 & I3 & I4). apply conj4; auto; lia.
      + injection H as <-. apply existsb_false in E. apply conj4; auto; lia.
  Qed.

  Lemma find_bits_ok fuel k m e : 1 < m -> forall bits q, 0 <= bits ->
    find_bits first next fuel k bits m e = Some q ->
    prime q /\ q mod m = 1 /\ 2 ^ bits < q /\ ~ In q e.
  Proof.
    intros Hm. induction k as [|k IH]; intros bits q Hb H; cbn in H; [discriminate|].
    destruct (first bits m) as [p|] eqn:Ef.
    - destruct (proj1 ext _ _ _ Hm Ef) as (F1 & F2 & F3).
      destruct (skip_existing _ _ _ _ _) eqn:Es.
      + injection H as <-. destruct (skip_ok _ _ _ _ _ Hm (conj F1 F2) Es) as (S1 & S2 & S3 & S4).
        apply conj4; auto; lia.
      + destruct (IH (bits + 1) q ltac:(lia) H) as (I1 & I2 & I3 & I4). apply conj4; auto.
        assert (2 ^ bits < 2 ^ (bits + 1)) by (apply Z.pow_lt_mono_r; lia). lia.
      + discriminate.
    - destruct (IH (bits + 1) q ltac:(lia) H) as (I1 & I2 & I3 & I4). apply conj4; auto.
      assert (2 ^ bits < 2 ^ (bits + 1)) by (apply Z.pow_lt_mono_r; lia). lia.
  Qed.

  Lemma find_primes_ok fuel n : 1 <= n -> forall sizes e ps e',
    (forall s, In s sizes -> 0 <= s) ->
    find_primes first next fuel n sizes e = Some (ps, e') ->
    e' = e ++ ps /\ Forall2 (fun s p => 2 ^ s < p) sizes ps /\
    (forall p, In p ps -> ntt_prime n p) /\ NoDup ps /\ (forall p, In p ps -> ~ In p e).
  Proof.
    intros Hn. induction sizes as [|s sizes IH]; intros e ps e' Hs H; cbn [find_primes] in H.
    - injection H as <- <-. rewrite app_nil_r.
      refine (conj eq_refl (conj (Forall2_nil _) (conj _ (conj (NoDup_nil _) _)))); intros ? [].
    - destruct (findPrime _ _ _ _ _ _) as [p|] eqn:Ep; [|discriminate].
      destruct (find_primes _ _ _ _ _ _) as [[qs e2]|] eqn:Eq; [|discriminate]. injection H as <- <-.
      unfold findPrime in Ep.
      destruct (find_bits_ok fuel (Z.to_nat (80 - s)) (2 * n) e ltac:(lia) s p (Hs s (or_introl eq_refl)) Ep) as (P1 & P2 & P3 & P4).
      destruct (IH (e ++ [p]) qs e2 (fun x Hx => Hs x (or_intror Hx)) Eq) as (I1 & I2 & I3 & I4 & I5).
      split; [rewrite I1, <- app_assoc; auto|]. split; [constructor; auto|]. split.
      { intros q [<-|Hq]; [split; auto|auto]. }
      split.
      + constructor; auto. intros C. apply (I5 p C). apply in_or_app. right. cbn. auto.
      + intros q [<-|Hq]; auto. intros C. apply (I5 q Hq). apply in_or_app. auto.
  Qed.

  (** ** Least primes *)
  Variable limit : Z.
  Hypothesis least : returns_least limit first next.

  (** All candidates above [2 ^ b] and up to [x] exist already. *)
  Definition taken (m b x : Z) (e : list Z) : Prop :=
    forall c, candidate limit m c -> 2 ^ b < c <= x -> In c e.

  Lemma skip_least fuel m b p e : 1 < m -> prime p /\ p mod m = 1 ->
    2 ^ b < p -> taken m b (p - 1) e ->
    match skip_existing next fuel m p e with
    | Found q => taken m b (q - 1) e
    | Thrown => exists d, p <= d /\ taken m b (2 ^ (Z.log2 d + 1) - 1) e
    | Fuel => True
    end.
  Proof.
    intros Hm. revert p. induction fuel as [|fuel IH]; intros p (H1 & H2) Hb Ht; cbn.
    - destruct (existsb _ _) eqn:E; auto.
    - destruct (existsb _ _) eqn:E; auto. apply existsb_true in E.
      destruct (next p m) as [p'|] eqn:En.
      + destruct (proj2 ext _ _ _ Hm H2 En) as (N1 & N2 & N3).
        destruct least as (_ & _ & L3 & _). destruct (L3 _ _ _ Hm H2 En) as (_ & L).
        assert (Ht' : taken m b (p' - 1) e).
        { intros c Hc Hr. destruct (Z.eq_dec c p) as [->|Hne]; auto.
          destruct (Z_lt_dec c p); [apply Ht; auto; lia|].
          specialize (L c Hc ltac:(lia)). lia. }
        specialize (IH p' (conj N1 N2) ltac:(lia) Ht').
        destruct (skip_existing _ _ _ _ _); auto.
        destruct IH as (d & D1 & D2). exists d. split; auto. lia.
      + exists p. split; [lia|]. destruct least as (_ & _ & _ & L4).
        intros c Hc Hr. destruct (Z.eq_dec c p) as [->|Hne]; auto.
        destruct (Z_lt_dec c p); [apply Ht; auto; lia|].
        exfalso. apply (L4 p m c Hm H2 En Hc). lia.
  Qed.

  Lemma candidate_odd n c k : 1 <= n -> 0 <= k -> candidate limit (2 * n) c -> c <> 2 ^ (k + 1).
  Proof.
    intros Hn Hk (_ & Hc & _) ->. rewrite Z.pow_add_r in Hc by lia. change (2 ^ 1) with 2 in Hc.
    pose proof (Z.div_mod (2 ^ k * 2) (2 * n) ltac:(lia)) as D. rewrite Hc in D. lia.
  Qed.

  Lemma find_bits_least fuel n b e : 1 <= n -> 0 <= b -> forall k bits q, b <= bits ->
    taken (2 * n) b (2 ^ bits) e ->
    find_bits first next fuel k bits (2 * n) e = Some q -> taken (2 * n) b (q - 1) e.
  Proof.
    intros Hn Hb. assert (Hm : 1 < 2 * n) by lia.
    induction k as [|k IH]; intros bits q Hbits Ht H; cbn [find_bits] in H; [discriminate|].
    assert (Hpow : 2 ^ b <= 2 ^ bits) by (apply Z.pow_le_mono_r; lia).
    assert (Hpp : 0 < 2 ^ bits) by (apply Z.pow_pos_nonneg; lia).
    destruct (first bits (2 * n)) as [p|] eqn:Ef.
    - destruct (proj1 ext _ _ _ Hm Ef) as (F1 & F2 & F3).
      destruct (proj1 least _ _ _ Hm Ef) as (_ & L).
      assert (Ht' : taken (2 * n) b (p - 1) e).
      { intros c Hc Hr. destruct (Z_le_dec c (2 ^ bits)); [apply Ht; auto; lia|].
        specialize (L c Hc ltac:(lia)). lia. }
      pose proof (skip_least fuel (2 * n) b p e Hm (conj F1 F2) ltac:(lia) Ht') as Hk.
      destruct (skip_existing _ _ _ _ _).
      + injection H as <-. auto.
      + apply (IH (bits + 1) q ltac:(lia)); auto. destruct Hk as (d & D1 & D2).
        intros c Hc Hr. apply D2; auto.
        assert (bits <= Z.log2 d) by (apply Z.log2_le_pow2; lia).
        assert (2 ^ (bits + 1) <= 2 ^ (Z.log2 d + 1)) by (apply Z.pow_le_mono_r; lia).
        pose proof (candidate_odd n c bits Hn ltac:(lia) Hc). lia.
      + discriminate.
    - apply (IH (bits + 1) q ltac:(lia)); auto.
      intros c Hc Hr. destruct (Z_le_dec c (2 ^ bits)); [apply Ht; auto; lia|].
      pose proof (candidate_odd n c bits Hn ltac:(lia) Hc).
      exfalso. apply (proj1 (proj2 least) bits (2 * n) c Hm Ef Hc). lia.
  Qed.

  (** Special primes exceed primes found before. *)
  Lemma find_bits_limit fuel n e : 1 <= n -> forall k bits q,
    find_bits first next fuel k bits (2 * n) e = Some q -> q < limit.
  Proof.
    intros Hn. assert (Hm : 1 < 2 * n) by lia.
    assert (Hs : forall fuel p q, p mod (2 * n) = 1 -> p < limit ->
                   skip_existing next fuel (2 * n) p e = Found q -> q < limit).
    { clear fuel. induction fuel as [|fuel IH]; intros p q Hp Hl H; cbn [skip_existing] in H;
        destruct (existsb _ _); try discriminate; try congruence.
      destruct (next p (2 * n)) as [p'|] eqn:En; [|discriminate].
      eapply IH; [| |exact H].
      - apply (proj2 ext _ _ _ Hm Hp En).
      - apply (proj1 (proj2 (proj2 least)) _ _ _ Hm Hp En). }
    induction k as [|k IH]; intros bits q H; cbn [find_bits] in H; [discriminate|].
    destruct (first bits (2 * n)) as [p|] eqn:Ef; [|eauto].
    destruct (skip_existing _ _ _ _ _) eqn:Es; [|eauto|discriminate].
    injection H as <-. eapply Hs; [| |exact Es].
    - apply (proj1 ext _ _ _ Hm Ef).
    - apply (proj1 least _ _ _ Hm Ef).
  Qed.

  (** The primes found for [sizes], if all primes of at most [s] bits found so
      far are below the prime found for [s]. *)
  Lemma find_primes_step fuel n : 1 <= n -> forall sizes e ps e' s,
    (forall x, In x sizes -> 0 <= x <= s) -> find_primes first next fuel n sizes e = Some (ps, e') ->
    forall p e2, (forall x, In x e' -> In x e2) ->
    findPrime first next fuel s n e2 = Some p -> forall q, In q ps -> q < p.
  Proof.
    intros Hn. induction sizes as [|b sizes IH]; intros e ps e' s Hs H p e2 He Hp q Hq; cbn [find_primes] in H.
    - injection H as <- <-. destruct Hq.
    - destruct (findPrime _ _ _ b _ _) as [p1|] eqn:Ep; [|discriminate].
      destruct (find_primes _ _ _ _ _ _) as [[qs e3]|] eqn:Eq; [|discriminate]. injection H as <- <-.
      destruct (find_primes_ok fuel n Hn sizes _ _ _ (fun x Hx => proj1 (Hs x (or_intror Hx))) Eq)
        as (I1 & _).
      destruct Hq as [<-|Hq].
      2:{ eapply IH; eauto. intros x Hx. apply Hs. right. auto. }
      unfold findPrime in Ep, Hp.
      assert (Hb : 0 <= b <= s) by (apply Hs; left; auto).
      assert (Hp1 : In p1 e2) by (apply He; rewrite I1; apply in_or_app; left; apply in_or_app; right; left; auto).
      destruct (find_bits_ok fuel (Z.to_nat (80 - b)) (2 * n) e ltac:(lia) b p1 (proj1 Hb) Ep) as (P1 & P2 & P3 & P4).
      destruct (find_bits_ok fuel (Z.to_nat (80 - s)) (2 * n) e2 ltac:(lia) s p ltac:(lia) Hp) as (Q1 & Q2 & Q3 & Q4).
      assert (p <> p1) by (intros ->; auto).
      destruct (Z_lt_dec p1 p) as [|Hlt]; auto. exfalso.
      (* [p] would have been found instead of [p1] *)
      assert (Hc : candidate limit (2 * n) p) by
        (split; [auto|split; [auto|eapply find_bits_limit; eauto]]).
      assert (2 ^ b <= 2 ^ s) by (apply Z.pow_le_mono_r; lia).
      assert (In p e).
      { eapply (find_bits_least fuel n b e Hn (proj1 Hb) _ b p1 ltac:(lia)); [|exact Ep|exact Hc|lia].
        intros c _ Hr. lia. }
      apply Q4, He. rewrite I1. apply in_or_app. left. apply in_or_app. auto.
  Qed.
End Find.

(** ** The loop *)

Lemma fit_primes_ok first next fuel : forall rounds n0 mn t logqi logpi n qs ps,
  fit_primes first next fuel rounds n0 mn t logqi logpi = Some (n, qs, ps) ->
  1024 <= n0 ->
  1024 <= n /\
  (exists e e', find_primes first next fuel n logqi (if t =? 0 then [] else [t]) = Some (qs, e) /\
     find_primes first next fuel n logpi e = Some (ps, e')) /\
  computeRingDim (log_total (qs ++ ps)) mn = Some n.
Proof.
  induction rounds as [|rounds IH]; intros n0 mn t logqi logpi n qs ps H Hn; cbn [fit_primes] in H; [discriminate|].
  destruct (find_primes _ _ _ _ logqi _) as [[qs' e]|] eqn:Eq; [|discriminate].
  destruct (find_primes _ _ _ _ logpi _) as [[ps' e']|] eqn:Ep; [|discriminate].
  destruct (computeRingDim _ _) as [n1|] eqn:En; [|discriminate].
  destruct (Z.eqb_spec n1 n0).
  - injection H as <- <- <-. subst n1. split; auto. split; auto. exists e, e'. auto.
  - eapply IH; eauto. eapply ring_dim_pos; eauto.
Qed.

Lemma fold_max_ge l : forall q x, In x l \/ x = q -> x <= fold_left Z.max l q.
Proof.
  induction l as [|a l IH]; intros q x H; cbn.
  - destruct H as [ [] | -> ]. lia.
  - destruct H as [[-> | H] | -> ].
    + transitivity (Z.max q x); [lia|]. apply IH. auto.
    + apply IH. auto.
    + transitivity (Z.max q a); [lia|]. apply IH. auto.
Qed.

Lemma max_element_ge l m x : max_element l = Some m -> In x l -> x <= m.
Proof.
  destruct l as [|q l]; cbn; intros H Hx; [discriminate|]. injection H as <-.
  apply fold_max_ge. destruct Hx; auto.
Qed.

Lemma sanitize_ge l x : In x (sanitize l) -> 20 <= x.
Proof.
  unfold sanitize. intros H. apply in_map_iff in H as (q & <- & _). destruct (Z.ltb_spec q 20); lia.
Qed.

Lemma Forall2_len {A B} (P : A -> B -> Prop) l m : Forall2 P l m -> length l = length m.
Proof. induction 1; cbn; congruence. Qed.

Lemma Forall2_sanitize l : forall ps,
  Forall2 (fun s p => 2 ^ s < p) (sanitize l) ps -> Forall2 (fun s p => 2 ^ s < p /\ 2 ^ 20 < p) l ps.
Proof.
  induction l as [|a l IH]; intros ps H; inversion H; subst; constructor; auto.
  destruct (Z.ltb_spec a 20); [|split; auto].
  - split; auto. destruct (Z_lt_dec a 0).
    + rewrite Z.pow_neg_r by lia. assert (0 < 2 ^ 20) by reflexivity. lia.
    + assert (2 ^ a <= 2 ^ 20) by (apply Z.pow_le_mono_r; lia). lia.
  - assert (2 ^ 20 <= 2 ^ a) by (apply Z.pow_le_mono_r; lia). lia.
Qed.

Lemma nodup_app_intro {A} (l m : list A) : NoDup l -> NoDup m -> (forall x, In x m -> ~ In x l) -> NoDup (l ++ m).
Proof.
  induction l as [|a l IH]; cbn; intros H1 H2 H3; auto. inversion H1; subst. constructor.
  - rewrite in_app_iff. intros [C|C]; auto. apply (H3 a C). auto.
  - apply IH; auto. intros x Hx C. apply (H3 x Hx). auto.
Qed.

Definition level_of (sizes : list Z) : Z := Z.of_nat (length sizes) - 1.

Lemma concrete_inv first next fuel rounds sizes mn t par :
  getConcreteRLWESchemeParam first next fuel rounds sizes mn t = Some par ->
  exists mx e e', max_element (sanitize sizes) = Some mx /\ 1024 <= ringDim par /\
    level par = level_of sizes /\ dnum par = computeDnum (level_of sizes) /\
    find_primes first next fuel (ringDim par) (sanitize sizes) (if t =? 0 then [] else [t]) = Some (qi par, e) /\
    find_primes first next fuel (ringDim par)
      (repeat mx (Z.to_nat (num_special (Z.of_nat (length sizes)) (dnum par)))) e = Some (pi par, e') /\
    computeRingDim (log_total (qi par ++ pi par)) mn = Some (ringDim par).
Proof.
  unfold getConcreteRLWESchemeParam. intros H.
  destruct (max_element _) as [mx|] eqn:Em; [|discriminate].
  destruct (computeRingDim _ _) as [n0|] eqn:En; [|discriminate].
  destruct (fit_primes _ _ _ _ _ _ _ _ _) as [[[n qs] ps]|] eqn:Ef; [|discriminate].
  injection H as <-. cbn.
  destruct (fit_primes_ok _ _ _ _ _ _ _ _ _ _ _ _ Ef (ring_dim_pos _ _ _ En)) as (H1 & (e & e' & H2 & H3) & H4).
  exists mx, e, e'. replace (length (sanitize sizes)) with (length sizes) in H3 by (unfold sanitize; rewrite map_length; auto). unfold level_of. auto 10.
Qed.

Lemma dnum_pos l : 1 <= computeDnum l.
Proof. unfold computeDnum. destruct (_ >? _); [lia|]. destruct (_ >? _); lia. Qed.

Lemma log_total_bound l k : (forall q, In q l -> 0 < q) -> log_total l <= k -> product l < 2 ^ (k + 1).
Proof.
  intros Hp H. unfold log_total in H. rewrite product_fold in H.
  assert (0 < product l) by (apply product_pos; auto).
  apply Z.log2_lt_pow2; lia.
Qed.

Lemma repeat_bounds {A} (x y : A) n : In y (repeat x n) -> y = x.
Proof. apply repeat_spec. Qed.

(** ** Sizes from gaps *)

Lemma write_some l k v : 0 <= k < Z.of_nat (length l) ->
  exists l', write l k v = Some l' /\ length l' = length l /\
    forall j, nth j l' 0 = if Nat.eqb j (Z.to_nat k) then v else nth j l 0.
Proof.
  intros H. unfold write.
  destruct (Z.leb_spec 0 k); [|lia]. destruct (Z.ltb_spec k (Z.of_nat (length l))); [|lia]. cbn [andb].
  eexists. split; [reflexivity|].
  set (i := Z.to_nat k). assert (Hi : (i < length l)%nat) by lia. clearbody i. clear - Hi.
  revert i Hi. induction l as [|a l IH]; intros i Hi; cbn in Hi; [lia|].
  destruct i as [|i].
  - cbn. split; auto. intros [|j]; auto.
  - destruct (IH i ltac:(lia)) as (I1 & I2). split.
    + change (firstn (S i) (a :: l)) with (a :: firstn i l).
      change (skipn (S (S i)) (a :: l)) with (skipn (S i) l). cbn [app length]. congruence.
    + intros [|j]; [reflexivity|].
      change (firstn (S i) (a :: l)) with (a :: firstn i l).
      change (skipn (S (S i)) (a :: l)) with (skipn (S i) l). cbn [app nth]. rewrite I2. reflexivity.
Qed.

Lemma write_gaps_ok gaps : forall l, NoDup (map fst gaps) ->
  (forall k g, In (k, g) gaps -> 0 <= k < Z.of_nat (length l)) ->
  exists l', write_gaps l gaps = Some l' /\ length l' = length l /\
    (forall k g, In (k, g) gaps -> nth (Z.to_nat k) l' 0 = 1 + g) /\
    (forall j, ~ In (Z.of_nat j) (map fst gaps) -> nth j l' 0 = nth j l 0).
Proof.
  induction gaps as [|[k g] gaps IH]; intros l Hn Hr.
  - exists l. split; [reflexivity|]. split; auto. split; auto. intros ? ? [].
  - cbn [map fst] in Hn. inversion Hn; subst.
    assert (Hk := Hr k g (or_introl eq_refl)).
    destruct (write_some l k (1 + g) Hk) as (l1 & W1 & W2 & W3).
    destruct (IH l1 H2) as (l' & I1 & I2 & I3 & I4).
    { intros k' g' Hin. rewrite W2. apply (Hr k' g'). right. auto. }
    exists l'. cbn [write_gaps]. rewrite W1. split; auto. split; [congruence|]. split.
    + intros k' g' [Heq|Hin]; [|auto]. injection Heq as -> ->.
      rewrite I4, W3, Nat.eqb_refl; auto. rewrite Z2Nat.id by lia. auto.
    + intros j Hj. cbn [map fst] in Hj. rewrite I4, W3 by (intros C; apply Hj; right; auto).
      destruct (Nat.eqb_spec j (Z.to_nat k)); auto. exfalso. apply Hj. left. cbn. lia.
Qed.

Lemma update_keys l k g : forall x, In x (map fst (updateLevelToGap l k g)) <-> x = k \/ In x (map fst l).
Proof.
  induction l as [|[k1 g1] l IH]; intros x; cbn [updateLevelToGap].
  - cbn. intuition.
  - destruct (Z.eqb_spec k1 k); cbn [map fst In].
    + subst. intuition.
    + rewrite IH. intuition.
Qed.

Lemma update_nodup l k g : NoDup (map fst l) -> NoDup (map fst (updateLevelToGap l k g)).
Proof.
  induction l as [|[k1 g1] l IH]; intros H; cbn [updateLevelToGap].
  - cbn. repeat constructor. intros [].
  - cbn in H. inversion H; subst. destruct (Z.eqb_spec k1 k); cbn [map fst]; constructor; auto.
    rewrite update_keys. intros [C|C]; auto.
Qed.

Lemma update_gap l k g : exists g', In (k, g') (updateLevelToGap l k g) /\ g <= g'.
Proof.
  induction l as [|[k1 g1] l IH]; cbn [updateLevelToGap].
  - exists g. split; [left; auto|lia].
  - destruct (Z.eqb_spec k1 k).
    + subst. exists (Z.max g1 g). split; [left; auto|lia].
    + destruct IH as (g' & H1 & H2). exists g'. split; [right; auto|auto].
Qed.

Lemma update_mono l k g : forall k1 g1, In (k1, g1) l ->
  exists g', In (k1, g') (updateLevelToGap l k g) /\ g1 <= g'.
Proof.
  induction l as [|[k2 g2] l IH]; intros k1 g1 H; [destruct H|]. cbn [updateLevelToGap].
  destruct H as [H|H].
  - injection H as -> ->. destruct (Z.eqb_spec k1 k).
    + exists (Z.max g1 g). split; [left; auto|lia].
    + exists g1. split; [left; auto|lia].
  - destruct (Z.eqb_spec k2 k).
    + exists g1. split; [right; auto|lia].
    + destruct (IH k1 g1 H) as (g' & H1 & H2). exists g'. split; [right; auto|auto].
Qed.

Definition gap_map (reductions : list (Z * Z)) (m : list (Z * Z)) : list (Z * Z) :=
  fold_left (fun m r => updateLevelToGap m (fst r) (snd r)) reductions m.

Lemma gap_map_ok reductions : forall m, NoDup (map fst m) ->
  NoDup (map fst (gap_map reductions m)) /\
  (forall x, In x (map fst (gap_map reductions m)) <-> In x (map fst m) \/ In x (map fst reductions)) /\
  (forall k g, In (k, g) m \/ In (k, g) reductions -> exists g', In (k, g') (gap_map reductions m) /\ g <= g').
Proof.
  induction reductions as [|[k0 g0] rs IH]; intros m H; cbn [gap_map fold_left].
  - split; auto. split; [cbn; tauto|]. intros k g [Hin|[]]. exists g. split; auto. lia.
  - cbn [fst snd]. destruct (IH _ (update_nodup m k0 g0 H)) as (I1 & I2 & I3).
    unfold gap_map in I1, I2, I3. split; auto. split.
    + intros x. rewrite I2, update_keys. cbn [map fst In]. intuition.
    + intros k g Hin. destruct Hin as [Hin|[Hin|Hin]].
      * destruct (update_mono m k0 g0 k g Hin) as (g1 & G1 & G2).
        destruct (I3 k g1 (or_introl G1)) as (g' & G3 & G4). exists g'. split; auto. lia.
      * injection Hin as -> ->. destruct (update_gap m k g) as (g1 & G1 & G2).
        destruct (I3 k g1 (or_introl G1)) as (g' & G3 & G4). exists g'. split; auto. lia.
      * apply I3. auto.
Qed.

Lemma fold_bounds bs : forall s, s <= fold_left (fun s b => Z.max s (2 + b)) bs s /\
  forall b, In b bs -> 2 + b <= fold_left (fun s b => Z.max s (2 + b)) bs s.
Proof.
  induction bs as [|a bs IH]; intros s; cbn [fold_left].
  - split; [lia|]. intros ? [].
  - destruct (IH (Z.max s (2 + a))) as (I1 & I2). split; [lia|].
    intros b [-> | Hb]; [lia|auto].
Qed.

Lemma nodup_range (l : list Z) n : NoDup l -> (forall x, In x l <-> 1 <= x <= Z.of_nat n) -> length l = n.
Proof.
  intros Hd Hl.
  assert (E : length (map Z.of_nat (seq 1 n)) = n) by (rewrite map_length, seq_length; auto).
  assert (D : NoDup (map Z.of_nat (seq 1 n))).
  { apply FinFun.Injective_map_NoDup; [intros a b; lia|apply seq_NoDup]. }
  assert (I : forall x, In x (map Z.of_nat (seq 1 n)) <-> 1 <= x <= Z.of_nat n).
  { intros x. rewrite in_map_iff. split.
    - intros (y & <- & Hy). apply in_seq in Hy. lia.
    - intros Hx. exists (Z.to_nat x). split; [lia|]. apply in_seq. lia. }
  apply Nat.le_antisymm; [rewrite <- E|rewrite <- E at 1]; apply NoDup_incl_length; auto;
    intros x Hx; [apply I, Hl|apply Hl, I]; auto.
Qed.

Lemma gap_sizes_ok reductions bounds0 L :
  (forall k, In k (map fst reductions) <-> 1 <= k <= Z.of_nat L) ->
  exists sizes, sizes_by_gap reductions bounds0 = Some sizes /\ length sizes = S L /\
    (forall k g, In (k, g) reductions -> 1 + g <= nth (Z.to_nat k) sizes 0) /\
    (forall b, In b bounds0 -> 2 + b <= nth 0 sizes 0).
Proof.
  intros H. unfold sizes_by_gap. cbn zeta. fold (gap_map reductions []).
  destruct (gap_map_ok reductions [] (NoDup_nil _)) as (G1 & G2 & G3).
  set (gm := gap_map reductions []) in *.
  assert (Hk : forall x, In x (map fst gm) <-> 1 <= x <= Z.of_nat L)
    by (intros x; rewrite G2, H; cbn; tauto).
  assert (Hlen : length gm = L) by (rewrite <- (map_length fst gm); apply nodup_range; auto).
  destruct (write_gaps_ok gm (fold_left (fun s b => Z.max s (2 + b)) bounds0 0 :: repeat 0 (length gm)) G1)
    as (l & W1 & W2 & W3 & W4).
  { intros k g Hin. cbn [length]. rewrite repeat_length, Hlen.
    assert (1 <= k <= Z.of_nat L) by (apply Hk, in_map_iff; exists (k, g); auto). lia. }
  exists l. split; [exact W1|]. split; [rewrite W2; cbn [length]; rewrite repeat_length; congruence|]. split.
  - intros k g Hin. destruct (G3 k g (or_intror Hin)) as (g' & H1 & H2). rewrite (W3 k g' H1). lia.
  - intros b Hb. rewrite (W4 0%nat); [|rewrite Hk; cbn; lia]. cbn [nth]. apply fold_bounds. auto.
Qed.

(** ** CKKS *)

Lemma max_prime_ge l : forall q, q <= max_prime q l /\ (forall p, In p l -> p <= max_prime q l) /\
  (max_prime q l = q \/ In (max_prime q l) l).
Proof.
  unfold max_prime. induction l as [|a l IH]; intros q; cbn [fold_left].
  - split; [lia|]. split; [intros ? []|auto].
  - destruct (Z.gtb_spec a q).
    + destruct (IH a) as (I1 & I2 & I3). split; [lia|]. split.
      * intros p [<-|Hp]; auto.
      * right. destruct I3 as [I3|I3]; [left; auto|right; auto].
    + destruct (IH q) as (I1 & I2 & I3). split; [lia|]. split.
      * intros p [<-|Hp]; [lia|auto].
      * destruct I3 as [I3|I3]; [left; auto|right; right; auto].
Qed.

Section Ckks.
  Variables first next prev last : Z -> Z -> option Z.
  Hypothesis ext : returns_primes first next.
  Hypothesis ext2 : returns_primes_below prev last.

  Lemma alternate_ok m : 1 < m -> forall k cnt a b l,
    a mod m = 1 -> b mod m = 1 -> a <= b ->
    alternate next prev k cnt m a b = Some l ->
    length l = k /\ NoDup l /\ (forall p, In p l -> prime p /\ p mod m = 1 /\ (p < a \/ b < p)).
  Proof.
    intros Hm. induction k as [|k IH]; intros cnt a b l Ha Hb Hab H; cbn [alternate] in H.
    - injection H as <-. split; auto. split; [constructor|]. intros ? [].
    - destruct (Nat.even cnt).
      + destruct (prev a m) as [p|] eqn:Ep; [|discriminate].
        destruct (proj1 ext2 _ _ _ Hm Ha Ep) as (P1 & P2 & P3).
        destruct (alternate _ _ _ _ _ _ _) as [l'|] eqn:El; [|discriminate]. cbn in H. injection H as <-.
        destruct (IH _ _ _ _ P2 Hb ltac:(lia) El) as (I1 & I2 & I3).
        split; [cbn; congruence|]. split.
        * constructor; auto. intros C. destruct (I3 p C) as (_ & _ & X). lia.
        * intros q [<-|Hq]; [auto|]. destruct (I3 q Hq) as (X1 & X2 & X3). split; auto. split; auto. lia.
      + destruct (next b m) as [p|] eqn:Ep; [|discriminate].
        destruct (proj2 ext _ _ _ Hm Hb Ep) as (P1 & P2 & P3).
        destruct (alternate _ _ _ _ _ _ _) as [l'|] eqn:El; [|discriminate]. cbn in H. injection H as <-.
        destruct (IH _ _ _ _ Ha P2 ltac:(lia) El) as (I1 & I2 & I3).
        split; [cbn; congruence|]. split.
        * constructor; auto. intros C. destruct (I3 p C) as (_ & _ & X). lia.
        * intros q [<-|Hq]; [auto|]. destruct (I3 q Hq) as (X1 & X2 & X3). split; auto. split; auto. lia.
  Qed.

  Lemma add_first_ok f s n mx rest qs : 1 <= n -> mx mod (2 * n) = 1 -> NoDup rest ->
    (forall p, In p rest -> ntt_prime n p /\ p <= mx) ->
    add_first next last f s (2 * n) mx rest = Some qs ->
    length qs = S (length rest) /\ NoDup qs /\ forall q, In q qs -> ntt_prime n q.
  Proof.
    intros Hn Hmx R2 R3 H. unfold add_first in H. assert (Hm : 1 < 2 * n) by lia.
    assert (N : forall q0, next mx (2 * n) = Some q0 ->
              length (q0 :: rest) = S (length rest) /\ NoDup (q0 :: rest) /\
              forall q, In q (q0 :: rest) -> ntt_prime n q).
    { intros q0 E. destruct (proj2 ext _ _ _ Hm Hmx E) as (N1 & N2 & N3). split; [reflexivity|]. split.
      - constructor; auto. intros C. apply R3 in C as (_ & C). lia.
      - intros x [<-|Hx]; [split; auto|apply R3; auto]. }
    destruct (f =? s).
    - destruct (next mx (2 * n)) as [q0|] eqn:E; [|discriminate]. cbn in H. injection H as <-. auto.
    - destruct (last f (2 * n)) as [q0|] eqn:E0; [|discriminate].
      destruct (existsb _ _) eqn:Ee.
      + destruct (next mx (2 * n)) as [q1|] eqn:E; [|discriminate]. cbn in H. injection H as <-. auto.
      + injection H as <-. apply existsb_false in Ee.
        destruct (proj2 ext2 _ _ _ Hm E0) as (N1 & N2 & N3).
        split; [reflexivity|]. split; [constructor; auto|].
        intros x [<-|Hx]; [split; auto|apply R3; auto].
  Qed.

  Lemma fixed_ok f s L n qs : 1 <= n ->
    moduliQGenerationOpenFHEFixed first next prev last f s (S L) n = Some qs ->
    length qs = S L /\ NoDup qs /\ forall q, In q qs -> ntt_prime n q.
  Proof.
    intros Hn H. unfold moduliQGenerationOpenFHEFixed in H. cbn zeta in H.
    replace (n * 2) with (2 * n) in H by lia. assert (Hm : 1 < 2 * n) by lia.
    destruct (first s (2 * n)) as [q|] eqn:Ef; [|discriminate].
    destruct (proj1 ext _ _ _ Hm Ef) as (F1 & F2 & F3).
    destruct (alternate _ _ _ _ _ _ _) as [l|] eqn:El; [|discriminate].
    destruct (alternate_ok _ Hm _ _ _ _ _ F2 F2 (Z.le_refl q) El) as (A1 & A2 & A3).
    destruct (max_prime_ge l q) as (M1 & M2 & M3).
    set (mx := max_prime q l) in *. clearbody mx.
    assert (Hmx : mx mod (2 * n) = 1) by (destruct M3 as [->|M3]; auto; apply A3; auto).
    set (rest := match S L with S O => [] | _ => rev l ++ [q] end) in *.
    assert (R1 : length rest = L).
    { unfold rest. destruct L as [|L]; auto. rewrite app_length, rev_length, A1. cbn. lia. }
    assert (R2 : NoDup rest).
    { unfold rest. destruct L as [|L]; [constructor|]. apply nodup_app_intro.
      - apply NoDup_rev. auto.
      - repeat constructor. intros [].
      - intros x [<-|[]] C. apply in_rev in C. destruct (A3 q C) as (_ & _ & X). lia. }
    assert (R3 : forall p, In p rest -> ntt_prime n p /\ p <= mx).
    { unfold rest. intros p Hp. destruct L as [|L]; [destruct Hp|]. apply in_app_or in Hp as [Hp|[<-|[]]].
      - apply in_rev in Hp. destruct (A3 p Hp) as (X1 & X2 & _). split; [split; auto|auto].
      - split; [split; auto|auto]. }
    rewrite <- R1. eapply add_first_ok; eauto.
  Qed.

  Lemma fresh_ok step m above : 1 < m ->
    (forall d p, d mod m = 1 -> step d m = Some p -> prime p /\ p mod m = 1) ->
    forall fuel d p, d mod m = 1 -> fresh step fuel m d above = Some p ->
    prime p /\ p mod m = 1 /\ ~ In p above.
  Proof.
    intros Hm Hs. induction fuel as [|fuel IH]; intros d p Hd H; cbn [fresh] in H; [discriminate|].
    destruct (step d m) as [p'|] eqn:E; [|discriminate]. destruct (Hs _ _ Hd E) as (S1 & S2).
    destruct (existsb _ _) eqn:Ee; [eapply IH; [|exact H]; auto|].
    injection H as <-. apply existsb_false in Ee. auto.
  Qed.

  Lemma reduced_ok target fuel m : 1 < m -> forall k cnt above l,
    NoDup above -> (forall p, In p above -> prime p /\ p mod m = 1) ->
    reduced next prev target fuel k cnt m above = Some l ->
    length l = (k + length above)%nat /\ NoDup l /\ (forall p, In p l -> prime p /\ p mod m = 1) /\
    incl above l.
  Proof.
    intros Hm. induction k as [|k IH]; intros cnt above l Hd Hp H; cbn [reduced] in H.
    - injection H as <-. split; auto. split; auto. split; auto. intros x; auto.
    - cbn zeta in H.
      assert (T1 : (target above - m - target above mod m + 1) mod m = 1).
      { pose proof (Z.div_mod (target above) m ltac:(lia)).
        replace (target above - m - target above mod m + 1) with (1 + (target above / m - 1) * m) by lia.
        rewrite Z.mod_add by lia. apply Z.mod_1_l. auto. }
      assert (T2 : (target above + m - target above mod m + 1) mod m = 1).
      { pose proof (Z.div_mod (target above) m ltac:(lia)).
        replace (target above + m - target above mod m + 1) with (1 + (target above / m + 1) * m) by lia.
        rewrite Z.mod_add by lia. apply Z.mod_1_l. auto. }
      assert (F : forall p, (if Nat.even cnt
         then fresh prev fuel m (target above - m - target above mod m + 1) above
         else fresh next fuel m (target above + m - target above mod m + 1) above) = Some p ->
         prime p /\ p mod m = 1 /\ ~ In p above).
      { intros p E. destruct (Nat.even cnt).
        - eapply fresh_ok; [exact Hm| |exact T1|exact E]. intros d x Hx Ex.
          destruct (proj1 ext2 _ _ _ Hm Hx Ex) as (X1 & X2 & _). auto.
        - eapply fresh_ok; [exact Hm| |exact T2|exact E]. intros d x Hx Ex.
          destruct (proj2 ext _ _ _ Hm Hx Ex) as (X1 & X2 & _). auto. }
      destruct (if Nat.even cnt then _ else _) as [p|]; [|discriminate].
      destruct (F p eq_refl) as (F1 & F2 & F3).
      destruct (IH (S cnt) (p :: above) l) as (I1 & I2 & I3 & I4); [constructor; auto| |exact H|].
      + intros x [<-|Hx]; auto.
      + split; [rewrite I1; cbn [length]; lia|]. split; auto. split; auto.
        intros x Hx. apply I4. right. auto.
  Qed.

  Lemma reduced_error_ok target fuel f s L n qs : 1 <= n ->
    moduliQGenerationReducedError first next prev last target fuel f s (S L) n = Some qs ->
    length qs = S L /\ NoDup qs /\ forall q, In q qs -> ntt_prime n q.
  Proof.
    intros Hn H. unfold moduliQGenerationReducedError in H. cbn zeta in H.
    replace (n * 2) with (2 * n) in H by lia. assert (Hm : 1 < 2 * n) by lia.
    destruct (first s (2 * n)) as [q|] eqn:Ef; [|discriminate].
    destruct (proj1 ext _ _ _ Hm Ef) as (F1 & F2 & F3).
    destruct (reduced _ _ _ _ _ _ _ _) as [l|] eqn:El; [|discriminate].
    destruct (reduced_ok target fuel (2 * n) Hm (S L - 2) 0 [q] l) as (A1 & A2 & A3 & A4);
      [repeat constructor; intros []|intros p [<-|[]]; auto|exact El|].
    destruct (max_prime_ge l q) as (M1 & M2 & M3).
    set (mx := max_prime q l) in *. clearbody mx.
    assert (Hmx : mx mod (2 * n) = 1) by (destruct M3 as [->|M3]; auto; apply A3; auto).
    set (rest := match S L with S O => [] | _ => l end) in *.
    assert (R1 : length rest = L).
    { unfold rest. destruct L as [|L]; auto. rewrite A1. cbn. lia. }
    assert (R2 : NoDup rest) by (unfold rest; destruct L as [|L]; [constructor|auto]).
    assert (R3 : forall p, In p rest -> ntt_prime n p /\ p <= mx).
    { unfold rest. intros p Hp. destruct L as [|L]; [destruct Hp|].
      destruct (A3 p Hp) as (X1 & X2). split; [split; auto|auto]. }
    rewrite <- R1. eapply add_first_ok; eauto.
  Qed.

  Lemma fit_ckks_ok target reducedError fuel f s L logpi : (forall x, In x logpi -> 0 <= x) -> forall rounds n0 mn n qs ps,
    1024 <= n0 ->
    fit_ckks first next prev last target reducedError fuel rounds n0 mn f s (S L) logpi = Some (n, qs, ps) ->
    length qs = S L /\ Forall2 (fun s p => 2 ^ s < p) logpi ps /\ NoDup (qs ++ ps) /\
    (forall q, In q (qs ++ ps) -> ntt_prime n q) /\
    computeRingDim (log_total (qs ++ ps)) mn = Some n.
  Proof.
    intros Hlp. induction rounds as [|rounds IH]; intros n0 mn n qs ps Hn H; cbn [fit_ckks] in H; [discriminate|].
    destruct (if reducedError then _ else _) as [qs'|] eqn:Eq; [|discriminate].
    destruct (find_primes _ _ _ _ _ _) as [[ps' e]|] eqn:Ep; [|discriminate].
    destruct (computeRingDim _ _) as [n1|] eqn:En; [|discriminate].
    destruct (Z.eqb_spec n1 n0).
    - injection H as <- <- <-. subst n1.
      assert (Q : length qs' = S L /\ NoDup qs' /\ forall q, In q qs' -> ntt_prime n0 q).
      { destruct reducedError; [eapply reduced_error_ok|eapply fixed_ok]; try exact Eq; lia. }
      destruct Q as (Q1 & Q2 & Q3).
      destruct (find_primes_ok _ _ ext fuel n0 ltac:(lia) _ _ _ _ Hlp Ep) as (_ & P2 & P3 & P4 & P5).
      split; auto. split; auto. split; [apply nodup_app_intro; auto|]. split; auto.
      intros q Hq. apply in_app_or in Hq as [Hq|Hq]; auto.
    - eapply IH; [|exact H]. eapply ring_dim_pos; eauto.
  Qed.
End Ckks.

(** ** Generators that search below a limit *)

Definition isprime (p : Z) : bool := (1 <? p) && nodiv 4100 2 p.

Definition limit24 : Z := 16777216.

Lemma isprime_ok p : isprime p = true -> prime p.
Proof.
  unfold isprime. intros H. apply andb_prop in H as (H1 & H2). apply Z.ltb_lt in H1.
  apply prime_alt. split; auto. intros n Hn C.
  pose proof (nodiv_sound _ 2 p ltac:(lia) H2) as D. pose proof C as (c & Hc).
  destruct (Z_le_dec n c).
  - apply (D n); [lia|nia|auto].
  - apply (D c); [nia|nia|]. exists n. lia.
Qed.

Lemma isprime_complete p : prime p -> p < limit24 -> isprime p = true.
Proof.
  intros Hp Hl. unfold isprime. apply andb_true_intro. split.
  - apply Z.ltb_lt. apply prime_alt in Hp as (Hp & _). auto.
  - apply nodiv_complete; [lia|auto|]. unfold limit24 in Hl. lia.
Qed.

Fixpoint search_prime (fuel : nat) (c m : Z) : option Z :=
  match fuel with
  | O => None
  | S fuel =>
      if c <? limit24 then if isprime c then Some c else search_prime fuel (c + m) m else None
  end.

Lemma search_prime_ok m : 1 < m -> forall fuel c, c mod m = 1 ->
  match search_prime fuel c m with
  | Some p => prime p /\ p mod m = 1 /\ c <= p /\ p < limit24 /\
              forall x, candidate limit24 m x -> c <= x -> p <= x
  | None => limit24 <= c + Z.of_nat fuel * m -> forall x, candidate limit24 m x -> ~ c <= x
  end.
Proof.
  intros Hm. induction fuel as [|fuel IH]; intros c Hc; cbn [search_prime].
  - intros H x (_ & _ & Hx). lia.
  - destruct (Z.ltb_spec c limit24).
    2:{ intros _ x (_ & _ & Hx). lia. }
    assert (Hstep : isprime c = false -> forall x, candidate limit24 m x -> c <= x -> c + m <= x).
    { intros Hf x (X1 & X2 & X3) Hx.
      assert (c <> x) by (intros ->; rewrite isprime_complete in Hf; auto; discriminate).
      pose proof (Z.div_mod c m ltac:(lia)). pose proof (Z.div_mod x m ltac:(lia)).
      rewrite Hc in *. rewrite X2 in *. assert (c / m < x / m) by nia. nia. }
    destruct (isprime c) eqn:Ep.
    + split; [apply isprime_ok; auto|]. split; auto. split; [lia|]. split; auto.
    + assert (Hc' : (c + m) mod m = 1) by (rewrite <- Hc; replace (c + m) with (c + 1 * m) by lia; apply Z.mod_add; lia).
      specialize (IH (c + m) Hc'). destruct (search_prime fuel (c + m) m) as [p|].
      * destruct IH as (I1 & I2 & I3 & I4 & I5). split; auto. split; auto. split; [lia|]. split; auto.
      * intros Hf x Hx Hcx. apply (IH ltac:(lia) x Hx). auto.
Qed.

Definition first24 (b m : Z) : option Z :=
  search_prime (Z.to_nat (limit24 / m + 1)) (2 ^ b + 1 + (- 2 ^ b) mod m) m.

Definition next24 (d m : Z) : option Z :=
  if d <? 0 then None else search_prime (Z.to_nat (limit24 / m + 1)) (d + m) m.

Lemma start_mod b m : 1 < m -> (2 ^ b + 1 + (- 2 ^ b) mod m) mod m = 1.
Proof.
  intros Hm. rewrite Z.add_mod_idemp_r by lia.
  replace (2 ^ b + 1 + - 2 ^ b) with 1 by lia. apply Z.mod_1_l. auto.
Qed.

Lemma start_least b m x : 1 < m -> x mod m = 1 -> 2 ^ b < x -> 2 ^ b + 1 + (- 2 ^ b) mod m <= x.
Proof.
  intros Hm Hx Hb. pose proof (start_mod b m Hm) as Hs.
  pose proof (Z.mod_pos_bound (- 2 ^ b) m ltac:(lia)).
  set (c := 2 ^ b + 1 + (- 2 ^ b) mod m) in *.
  pose proof (Z.div_mod c m ltac:(lia)). pose proof (Z.div_mod x m ltac:(lia)).
  rewrite Hs in *. rewrite Hx in *.
  destruct (Z_le_dec c x); auto. exfalso.
  assert (x / m < c / m) by nia. assert (c >= x + m) by nia. unfold c in *. lia.
Qed.

Lemma next_mod d m : 1 < m -> d mod m = 1 -> (d + m) mod m = 1.
Proof. intros Hm Hd. rewrite <- Hd. replace (d + m) with (d + 1 * m) by lia. apply Z.mod_add. lia. Qed.

Lemma next_least d m x : 1 < m -> d mod m = 1 -> x mod m = 1 -> d < x -> d + m <= x.
Proof.
  intros Hm Hd Hx H. pose proof (Z.div_mod d m ltac:(lia)). pose proof (Z.div_mod x m ltac:(lia)).
  rewrite Hd in *. rewrite Hx in *. assert (d / m < x / m) by nia. nia.
Qed.

Lemma fuel_enough m c : 1 < m -> 0 <= c -> limit24 <= c + Z.of_nat (Z.to_nat (limit24 / m + 1)) * m.
Proof.
  intros Hm Hc. assert (0 <= limit24 / m) by (apply Z.div_pos; [unfold limit24|]; lia).
  rewrite Z2Nat.id by lia. pose proof (Z.div_mod limit24 m ltac:(lia)).
  pose proof (Z.mod_pos_bound limit24 m ltac:(lia)). nia.
Qed.

Lemma generators24 : returns_primes first24 next24 /\ returns_least limit24 first24 next24.
Proof.
  split; split.
  - intros b m p Hm H. unfold first24 in H.
    pose proof (search_prime_ok m Hm (Z.to_nat (limit24 / m + 1)) _ (start_mod b m Hm)) as S. rewrite H in S.
    destruct S as (S1 & S2 & S3 & _). split; auto. split; auto.
    pose proof (Z.mod_pos_bound (- 2 ^ b) m ltac:(lia)). lia.
  - intros d m p Hm Hd H. unfold next24 in H. destruct (Z.ltb_spec d 0); [discriminate|].
    pose proof (search_prime_ok m Hm (Z.to_nat (limit24 / m + 1)) _ (next_mod d m Hm Hd)) as S. rewrite H in S.
    destruct S as (S1 & S2 & S3 & _). split; auto. split; auto. lia.
  - intros b m p Hm H. unfold first24 in H.
    pose proof (search_prime_ok m Hm (Z.to_nat (limit24 / m + 1)) _ (start_mod b m Hm)) as S. rewrite H in S.
    destruct S as (S1 & S2 & S3 & S4 & S5). split; auto.
    intros c Hc Hb. apply S5; auto. apply start_least; auto. apply Hc.
  - split; [|split].
    + intros b m c Hm H Hc Hb. unfold first24 in H.
      pose proof (search_prime_ok m Hm (Z.to_nat (limit24 / m + 1)) _ (start_mod b m Hm)) as S. rewrite H in S.
      refine (S _ c Hc (start_least _ _ _ Hm _ _)); [|apply Hc|lia].
      apply fuel_enough; auto. pose proof (Z.mod_pos_bound (- 2 ^ b) m ltac:(lia)).
      pose proof (Z.pow_nonneg 2 b ltac:(lia)). lia.
    + intros d m p Hm Hd H. unfold next24 in H. destruct (Z.ltb_spec d 0); [discriminate|].
      pose proof (search_prime_ok m Hm (Z.to_nat (limit24 / m + 1)) _ (next_mod d m Hm Hd)) as S. rewrite H in S.
      destruct S as (S1 & S2 & S3 & S4 & S5). split; auto.
      intros c Hc Hb. apply S5; auto. apply next_least; auto. apply Hc.
    + intros d m c Hm Hd H Hc Hb. unfold next24 in H. destruct (Z.ltb_spec d 0).
      * destruct Hc as (Hc & _). apply prime_alt in Hc as (Hc & _).
        rewrite Z.log2_nonpos in Hb by lia. cbn in Hb. lia.
      * pose proof (search_prime_ok m Hm (Z.to_nat (limit24 / m + 1)) _ (next_mod d m Hm Hd)) as S. rewrite H in S.
        refine (S _ c Hc (next_least _ _ _ Hm Hd _ _)); [|apply Hc|lia].
        apply fuel_enough; auto. lia.
Qed.

(** Parameters with moduli of 35 bits. *)
Definition ckks35 : params :=
  Params 16384 5 [34375729153; 34357116929; 34367864833; 34359214081; 34362359809] 3 [1152921513196781569].
