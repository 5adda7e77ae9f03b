(** Proofs about RNS polynomials (limb-wise lifting of the NTT facts). *)
From Coq Require Import ZArith List Bool Arith Lia Znumtheory Zpow_facts Setoid Morphisms.
From Verif Require Import Words ModArith_Model ModArith_Proofs NumTheory_Model NumTheory_Proofs
  ModEq Sums NTT_Model NTT_Proofs NTT2_Proofs.
Import ListNotations.
Open Scope Z_scope.

Definition good_limb (k : nat) (l : Z * list Z) : Prop :=
  prime (fst l) /\ fst l < 2 ^ 64 /\ (2 * 2 ^ Z.of_nat k | fst l - 1) /\
  length (snd l) = (2 ^ k)%nat /\ Forall (can (fst l)) (snd l).

Definition good_root (k : nat) (m root : Z) : Prop :=
  can m root /\ cong m (root ^^ (2 ^ k)) (-1) /\ 1 < m < 2 ^ 64 /\ Z.odd m = true /\ Z.of_nat (2 ^ k) < m.

Lemma zn k : Z.of_nat (2 ^ k) = 2 ^ Z.of_nat k.
Proof. rewrite Nat2Z.inj_pow. reflexivity. Qed.

Lemma limb_root k m : prime m -> m < 2 ^ 64 -> (2 * 2 ^ Z.of_nat k | m - 1) ->
  exists f, forall f', (f <= f')%nat -> exists root,
    find_primitive_2nth_root f' 64 m (Z.of_nat (2 ^ k)) = Some (Some root) /\ good_root k m root.
Proof.
  intros Hp Hm Hd. pose proof (prime_ge_2 _ Hp). rewrite zn.
  assert (0 < 2 ^ Z.of_nat k) by (apply Z.pow_pos_nonneg; lia).
  assert (Hle : 2 * 2 ^ Z.of_nat k <= m - 1) by (apply Z.divide_pos_le; auto; lia).
  change (2 ^ 64) with 18446744073709551616 in *.
  assert (Hmod : m mod (2 * 2 ^ Z.of_nat k) = 1).
  { destruct Hd as [c Hc]. replace m with (1 + c * (2 * 2 ^ Z.of_nat k)) by lia.
    rewrite Z_mod_plus_full. apply Z.mod_small. lia. }
  assert (Hodd : Z.odd m = true).
  { destruct Hd as [c Hc]. replace m with (2 * (c * 2 ^ Z.of_nat k) + 1) by lia.
    rewrite Z.odd_add, Z.odd_mul. reflexivity. }
  assert (H64 : 1 <= 64) by lia.
  destruct (find_2nth_terminates_mono 64 m ltac:(lia) ltac:(change (2 ^ 64) with 18446744073709551616; lia)
     ltac:(change (2 ^ 64) with 18446744073709551616; lia) Hp (2 ^ Z.of_nat k)
     ltac:(change (2 ^ 63) with 9223372036854775808; lia)
     ltac:(change (2 ^ 64) with 18446744073709551616; lia)) as [f Hf].
  exists f. intros f' Hf'. destruct (Hf f' Hf') as [Hs _]. destruct (Hs Hmod) as [root Hr].
  exists root. split; auto.
  destruct (find_2nth_sound 64 m ltac:(lia) ltac:(change (2 ^ 64) with 18446744073709551616; lia)
     ltac:(change (2 ^ 64) with 18446744073709551616; lia) Hp (2 ^ Z.of_nat k)
     ltac:(change (2 ^ 63) with 9223372036854775808; lia)
     ltac:(change (2 ^ 64) with 18446744073709551616; lia) f' root Hr) as (R1 & R2 & _).
  split; [exact R1|]. split; [|split; [change (2 ^ 64) with 18446744073709551616; lia|split; [auto|rewrite zn; lia]]].
  apply eq_cong. rewrite zn, R2. rewrite <- (Z_mod_plus_full (-1) 1 m).
  rewrite Z.mod_small; lia.
Qed.

Lemma pow2_len k : ((0 <? 2 ^ k) && negb (pow2b (2 ^ k)))%nat = false.
Proof. rewrite pow2b_pow. rewrite andb_false_r. auto. Qed.

Lemma max_fuel {A} (P : nat -> A -> Prop) (l : list A) :
  (forall a, In a l -> exists f, forall f', (f <= f')%nat -> P f' a) ->
  exists f, forall f', (f <= f')%nat -> forall a, In a l -> P f' a.
Proof.
  induction l as [|a l IH]; intros H.
  - exists O. intros ? _ ? [].
  - destruct (H a (or_introl eq_refl)) as [f1 H1].
    destruct IH as [f2 H2]; [intros; apply H; right; auto|].
    exists (Nat.max f1 f2). intros f' Hf' b [<- |Hb]; [apply H1|apply H2]; auto; lia.
Qed.

Lemma omap_ex {A B} (f : A -> option B) (P : A -> B -> Prop) l :
  (forall a, In a l -> exists b, f a = Some b /\ P a b) ->
  exists r, omap f l = Some r /\ length r = length l /\ Forall2 P l r.
Proof.
  induction l as [|a l IH]; intros H; cbn [omap].
  - exists []. repeat split; auto.
  - destruct (H a (or_introl eq_refl)) as (b & -> & Pb). cbn [bind].
    destruct IH as (r & -> & Hl & HF); [intros; apply H; right; auto|]. cbn [bind].
    exists (b :: r). cbn [length]. repeat split; auto.
Qed.
Lemma omap_forall2 {A B} (f : A -> option B) l r : Forall2 (fun a b => f a = Some b) l r -> omap f l = Some r.
Proof. induction 1 as [|a b l r H _ IH]; cbn [omap]; auto. rewrite H. cbn [bind]. rewrite IH. auto. Qed.

Lemma Forall2_flip {A B} (P : A -> B -> Prop) l r : Forall2 P l r -> Forall2 (fun b a => P a b) r l.
Proof. induction 1; auto. Qed.
Lemma Forall2_impl' {A B} (P Q : A -> B -> Prop) l r : (forall a b, P a b -> Q a b) -> Forall2 P l r -> Forall2 Q l r.
Proof. intros H. induction 1; auto. Qed.

Lemma rns_round_trip k p : Forall (good_limb k) p ->
  exists f, forall f', (f <= f')%nat -> exists r, to_ntt f' p = Some r /\ to_coefficient f' r = Some p.
Proof.
  intros Hp. rewrite Forall_forall in Hp.
  destruct (max_fuel (fun f' l => exists root,
    find_primitive_2nth_root f' 64 (fst l) (Z.of_nat (2 ^ k)) = Some (Some root) /\ good_root k (fst l) root) p)
    as [f Hf].
  { intros l Hl. destruct (Hp l Hl) as (A & B & C & _). apply limb_root; auto. }
  exists f. intros f' Hf'.
  destruct (omap_ex (limb_transform f' ntt_in_place) (fun a b => limb_transform f' intt_in_place b = Some a) p)
    as (r & Hr & _ & HF).
  - intros [m a] Hl. destruct (Hf f' Hf' _ Hl) as (root & Hroot & HG).
    destruct (Hp _ Hl) as (_ & _ & _ & Ll & Cl). cbn [fst snd] in *.
    destruct HG as (Cr & Hpow & Hm & Hodd & Hn).
    destruct (ntt_round_trip m Hm k root a Ll Cl Cr (root_coprime m k root Hpow Hodd) Hodd Hn)
      as (r & Hr & Lr & Cr' & Hback).
    exists (m, r). unfold limb_transform. cbn [fst snd]. rewrite Ll, Lr, !pow2_len, Hroot. cbn [bind].
    rewrite Hr, Hback. auto.
  - exists r. split; auto. apply omap_forall2. apply Forall2_flip. auto.
Qed.

(** *** product *)
Definition limb_pair_ok (k : nat) (xy : (Z * list Z) * (Z * list Z)) : Prop :=
  good_limb k (fst xy) /\ good_limb k (snd xy) /\ fst (fst xy) = fst (snd xy).

Lemma combine_omap4 {A} (P : A * A -> A -> A -> A -> A -> Prop) (f : A -> option A) (g : A -> A -> option A) (h : A -> option A)
    (p q : list A) (res : A * A -> A) :
  length p = length q ->
  (forall xy, In xy (combine p q) -> exists x' y' z, f (fst xy) = Some x' /\ f (snd xy) = Some y' /\
     g x' y' = Some z /\ h z = Some (res xy)) ->
  exists p' q' r, omap f p = Some p' /\ omap f q = Some q' /\ length p' = length q' /\
    omap (fun xy => g (fst xy) (snd xy)) (combine p' q') = Some r /\ omap h r = Some (map res (combine p q)).
Proof.
  revert q. induction p as [|x p IH]; intros [|y q] Hl H; cbn [length] in Hl; try discriminate.
  - exists [], [], []. repeat split; auto.
  - destruct (H (x, y) (or_introl eq_refl)) as (x' & y' & z & E1 & E2 & E3 & E4). cbn [fst snd] in *.
    destruct (IH q) as (p' & q' & r & F1 & F2 & F3 & F4 & F5); [lia|intros; apply H; right; auto|].
    exists (x' :: p'), (y' :: q'), (z :: r). cbn [omap combine fst snd length map].
    rewrite E1, E2, F1, F2. cbn [bind]. rewrite E3, F4. cbn [bind omap]. rewrite E4, F5. cbn [bind].
    repeat split; auto.
Qed.

Lemma rns_mul_ok k p q : length p = length q -> Forall (limb_pair_ok k) (combine p q) ->
  exists f, forall f', (f <= f')%nat ->
    rns_mul_coeff f' p q =
    Some (map (fun xy => (fst (fst xy), nega_list (fst (fst xy)) (snd (fst xy)) (snd (snd xy)))) (combine p q)).
Proof.
  intros Hlen Hp. rewrite Forall_forall in Hp.
  destruct (max_fuel (fun f' xy => exists root,
    find_primitive_2nth_root f' 64 (fst (fst xy)) (Z.of_nat (2 ^ k)) = Some (Some root) /\
    good_root k (fst (fst xy)) root) (combine p q))
    as [f Hf].
  { intros l Hl. destruct (Hp l Hl) as ((A & B & C & _) & _). apply limb_root; auto. }
  exists f. intros f' Hf'.
  destruct (combine_omap4 (fun _ _ _ _ _ => True) (limb_transform f' ntt_in_place) (limb_zip (fun m a b => mulmod64 a b m))
     (limb_transform f' intt_in_place) p q
     (fun xy => (fst (fst xy), nega_list (fst (fst xy)) (snd (fst xy)) (snd (snd xy)))) Hlen)
    as (p' & q' & r & F1 & F2 & F3 & F4 & F5).
  - intros [[m a] [m' b]] Hl. destruct (Hf f' Hf' _ Hl) as (root & Hroot & HG).
    destruct (Hp _ Hl) as ((_ & _ & _ & La & Ca) & (_ & _ & _ & Lb & Cb) & Hmm).
    cbn [fst snd] in *. subst m'.
    destruct HG as (Cr & Hpow & Hm & Hodd & Hn).
    destruct (ntt_mul m Hm k root Hpow Cr Hodd Hn a b La Lb Ca Cb)
      as (ra & rb & rc & E1 & E2 & L1 & L2 & E3 & L3 & E4).
    exists (m, ra), (m, rb), (m, rc). unfold limb_transform, limb_zip. cbn [fst snd].
    rewrite La, Lb, L3, !pow2_len, Hroot. cbn [bind]. rewrite E1, E2. cbn [bind].
    rewrite L1, L2, Z.eqb_refl, Nat.eqb_refl. cbn [andb negb].
    rewrite E3, E4. cbn [bind]. auto.
  - unfold rns_mul_coeff, to_ntt, to_coefficient, rns_mul_eval, rns_zip. rewrite F1, F2. cbn [bind].
    rewrite F3, Nat.eqb_refl. cbn [negb]. rewrite F4. cbn [bind]. auto.
Qed.

(** *** addition, subtraction, scalar multiplication *)
Lemma rns_zip_ok (f : Z -> Z -> Z -> option Z) (g : Z -> Z -> Z -> Z) p q :
  length p = length q ->
  (forall x y, In (x, y) (combine p q) -> fst x = fst y /\ length (snd x) = length (snd y) /\
     forall a b, In (a, b) (combine (snd x) (snd y)) -> f (fst x) a b = Some (g (fst x) a b)) ->
  rns_zip f p q = Some (map (fun xy => (fst (fst xy),
     map (fun ab => g (fst (fst xy)) (fst ab) (snd ab)) (combine (snd (fst xy)) (snd (snd xy))))) (combine p q)).
Proof.
  intros Hl H. unfold rns_zip. rewrite Hl, Nat.eqb_refl. cbn [negb]. apply omap_spec.
  intros [[m a] [m' b]] Hin. destruct (H _ _ Hin) as (E & L & HF). cbn [fst snd] in *. subst m'.
  unfold limb_zip. cbn [fst snd]. rewrite L, Z.eqb_refl, Nat.eqb_refl. cbn [andb negb].
  rewrite (omap_spec _ (fun ab => g m (fst ab) (snd ab))).
  - auto.
  - intros [u v] Hin'. cbn [fst snd]. auto.
Qed.

Lemma add64_ok m a b : 0 < m <= 2 ^ 63 -> can m a -> can m b -> add64 m a b = (a + b) mod m.
Proof.
  unfold can, add64, addi, subi. change (2 ^ 63) with 9223372036854775808. intros.
  rewrite (wrap_small 64 (a + b)) by (change (2 ^ 64) with 18446744073709551616; lia).
  destruct (Z.leb_spec m (a + b)).
  - rewrite wrap_small by (change (2 ^ 64) with 18446744073709551616; lia).
    apply Z.mod_unique with 1; lia.
  - rewrite Z.mod_small; lia.
Qed.
Lemma sub64_ok m a b : 0 < m < 2 ^ 64 -> can m a -> can m b -> sub64 m a b = (a - b) mod m.
Proof.
  unfold can, sub64, addi, subi, wrap. change (2 ^ 64) with 18446744073709551616. intros.
  destruct (Z.ltb_spec a b).
  - rewrite Zminus_mod_idemp_l.
    rewrite (Z.mod_small (a + m - b)) by lia. apply Z.mod_unique with (-1); lia.
  - rewrite !Z.mod_small; lia.
Qed.
