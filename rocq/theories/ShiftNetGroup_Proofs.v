(** Lemmas for the shift network: one rotation group, and the sum of all. *)
From Coq Require Import ZArith List Bool Lia.
From Verif Require Import ShiftNet_Model ShiftNet_Proofs ShiftNetKernel_Proofs.
Import ListNotations.
Open Scope Z_scope.

Lemma NoDup_prefix {A} (a b : list A) : NoDup (a ++ b) -> NoDup a.
Proof.
  induction a as [|x a IH]; cbn; intros H; [constructor|]. inversion H; subst. constructor; auto.
  intros Hx. apply H2. apply in_or_app; auto.
Qed.
Section Group.
Variable E : Type.
Variables (zero one : E) (add mul : E -> E -> E).
Hypothesis mul_one : forall x, mul x one = x.
Hypothesis mul_zero : forall x, mul x zero = zero.
Hypothesis add_zero_l : forall x, add zero x = x.
Hypothesis add_zero_r : forall x, add x zero = x.
Variables n k : nat.
Hypothesis Hn : (0 < n)%nat.
Hypothesis Hk : (0 < k)%nat.
Notation N := (Z.of_nat n).
Notation K := (Z.of_nat k).
Notation V := (K * N).
Notation row := (list E).
Notation P := (pos_after N K).
Notation get := (get E zero).
Notation shape := (shape n k).
Notation inr := (in_range N K).
Variable p2 : nat.
Hypothesis HN2 : N = 2 ^ Z.of_nat p2.

Lemma pow_divides e : (2 ^ Z.of_nat e) mod N = 0 \/ 2 ^ Z.of_nat e < N.
Proof.
  destruct (le_lt_dec p2 e) as [L|L].
  - left. rewrite HN2. replace (Z.of_nat e) with (Z.of_nat (e - p2) + Z.of_nat p2) by lia. rewrite Z.pow_add_r by lia. apply Z_mod_mult.
  - right. rewrite HN2. apply Z.pow_lt_mono_r; lia.
Qed.
Lemma at_inv p : inr p -> exists i j, (i < k)%nat /\ (j < n)%nat /\ p = at_ i j.
Proof. destruct p as [a b]. unfold in_range; cbn. intros H. exists (Z.to_nat a), (Z.to_nat b). unfold at_. rewrite !Z2Nat.id by lia. repeat split; auto; lia. Qed.
Lemma next_from r sh p i j : 0 <= r < V -> Z.land r sh <> 0 -> inr p -> (i < k)%nat -> (j < n)%nat ->
  (next_position N V r sh p = at_ i j <-> p = from n k r i j).
Proof.
  intros Hr Hl Hp Hi Hj. destruct (next_position_spec N K ltac:(lia) ltac:(lia) r sh p Hr Hp) as [A B].
  replace (Z.land r sh =? 0) with false in B by (symmetry; apply Z.eqb_neq; auto).
  pose proof (vidx_range N K ltac:(lia) ltac:(lia) p Hp) as Vp.
  pose proof (vidx_range N K ltac:(lia) ltac:(lia) (at_ i j) ltac:(apply at_range; auto)) as Va. split; intros H.
  - symmetry. apply from_eq; auto. rewrite <- H, B, Zplus_mod_idemp_l. replace (vidx N p - r + r) with (vidx N p) by lia. apply Z.mod_small; auto.
  - apply (vidx_inj N K ltac:(lia)); auto; [apply at_range; auto|]. rewrite B, H. unfold from. rewrite vidx_unvidx by lia.
    rewrite Zminus_mod_idemp_l. replace (vidx N (at_ i j) + r - r) with (vidx N (at_ i j)) by lia. apply Z.mod_small; auto.
Qed.

Section One.
Variables (input : list row) (all sss : list skey).
Hypothesis Si : shape input.
Hypothesis Hsub : forall x, In x sss -> In x all.
Hypothesis Hsrc : forall x, In x sss -> inr (fst x) /\ 0 <= snd x < V.

Definition Tracked (l : list Z) (cur : list row) : Prop :=
  shape cur /\ (forall x, In x sss -> get cur (P l x) = get input (fst x)) /\
  (l <> [] -> forall x, In x sss -> forall p, inr p -> fst p = fst (P l x) -> (forall y, In y sss -> P l y <> p) -> get cur p = zero).

Lemma pows_range es : (forall e, In e es -> 2 ^ Z.of_nat e < V) -> forall r, In r (pows es) -> 0 <= r < V.
Proof. intros H r Hr. apply in_map_iff in Hr as (e & <- & He). split; [apply Z.pow_nonneg; lia|auto]. Qed.

Lemma group_round_ok es e cur : NoDup (es ++ [e]) -> (forall i, In i (es ++ [e]) -> 2 ^ Z.of_nat i < V) ->
  (forall x y, In x sss -> In y sss -> P (pows (es ++ [e])) x = P (pows (es ++ [e])) y -> fst x = fst y) ->
  Tracked (pows es) cur ->
  exists cur', group_round E zero one add mul N sss (map (fun x => (x, P (pows es) x)) all) (2 ^ Z.of_nat e) cur = Some cur' /\
    Tracked (pows (es ++ [e])) cur'.
Proof.
  intros Nd Hlt Hnc (Sc & Tv & _). set (r := 2 ^ Z.of_nat e). set (l := pows es) in *.
  assert (El : pows (es ++ [e]) = l ++ [r]) by (unfold l, r; rewrite pows_app; auto).
  assert (Hr : 0 < r < V). { split; [apply Z.pow_pos_nonneg; lia|]. apply Hlt. apply in_or_app. right; left; auto. }
  assert (Hl : forall z, In z l -> 0 <= z < V). { apply pows_range. intros i Hi. apply Hlt. apply in_or_app. auto. }
  assert (Pr : forall x, In x sss -> inr (P l x)).
  { intros x Hx. apply (pos_after_spec N K ltac:(lia) ltac:(lia) l x Hl (proj1 (Hsrc x Hx))). }
  assert (Pr' : forall x, In x sss -> inr (P (l ++ [r]) x)).
  { intros x Hx. rewrite pos_after_snoc. apply next_position_spec; try lia; auto. }
  assert (Bit : forall x, In x sss -> (Z.land r (snd x) =? 0) = negb (Z.testbit (snd x) (Z.of_nat e))).
  { intros x Hx. apply land_pow2. apply Hsrc; auto. }
  assert (Coll : forall x y, In x sss -> In y sss -> Z.land r (snd x) = 0 -> Z.land r (snd y) <> 0 -> P (l ++ [r]) x <> P (l ++ [r]) y).
  { intros x y Hx Hy Lx Ly He. rewrite <- El in He. pose proof (Hnc x y Hx Hy He) as Hf.
    destruct x as [s sh1], y as [s' sh2]. cbn [fst snd] in *. subst s'.
    destruct (Hsrc _ Hx) as [A B], (Hsrc _ Hy) as [_ B']. cbn [fst snd] in *.
    revert He. apply (no_self_collision N K ltac:(lia) ltac:(lia)); auto.
    pose proof (Bit _ Hx) as B1. pose proof (Bit _ Hy) as B2. cbn [snd] in B1, B2.
    apply Z.eqb_eq in Lx. apply Z.eqb_neq in Ly. rewrite Lx in B1. rewrite Ly in B2.
    destruct (Z.testbit sh1 _), (Z.testbit sh2 _); cbn in *; congruence. }
  unfold group_round. rewrite (mapM_total _ (fun x => (x, P l x))) by (intros x Hx; rewrite lookup_map; auto).
  set (kps := map (fun x => (x, P l x)) sss).
  set (rp := map snd (filter (fun kp : skey * ctslot => negb (Z.land (snd (fst kp)) r =? 0)) kps)).
  set (fp := map snd (filter (fun kp : skey * ctslot => Z.land (snd (fst kp)) r =? 0) kps)).
  assert (InR : forall p, existsb (slot_eqb p) rp = true <-> exists x, In x sss /\ Z.land r (snd x) <> 0 /\ P l x = p).
  { intros p. rewrite existsb_exists. split.
    - intros (q & Hq & Eq). apply slot_eqb_eq in Eq as <-. apply in_map_iff in Hq as ([x q] & <- & Hq). apply filter_In in Hq as [Hq Hb].
      apply in_map_iff in Hq as (y & Hy & Hin). inversion Hy; subst. exists x. cbn [fst snd] in *. split; auto. split; auto.
      rewrite Z.land_comm. apply negb_true_iff, Z.eqb_neq in Hb. auto.
    - intros (x & Hx & Hb & <-). exists (P l x). split; [|apply slot_eqb_eq; auto]. apply in_map_iff. exists (x, P l x). split; auto.
      apply filter_In. split; [apply in_map_iff; exists x; auto|]. cbn [fst snd]. rewrite Z.land_comm. apply negb_true_iff, Z.eqb_neq. auto. }
  assert (InF : forall p, existsb (slot_eqb p) fp = true <-> exists x, In x sss /\ Z.land r (snd x) = 0 /\ P l x = p).
  { intros p. rewrite existsb_exists. split.
    - intros (q & Hq & Eq). apply slot_eqb_eq in Eq as <-. apply in_map_iff in Hq as ([x q] & <- & Hq). apply filter_In in Hq as [Hq Hb].
      apply in_map_iff in Hq as (y & Hy & Hin). inversion Hy; subst. exists x. cbn [fst snd] in *. split; auto. split; auto.
      rewrite Z.land_comm. apply Z.eqb_eq in Hb. auto.
    - intros (x & Hx & Hb & <-). exists (P l x). split; [|apply slot_eqb_eq; auto]. apply in_map_iff. exists (x, P l x). split; auto.
      apply filter_In. split; [apply in_map_iff; exists x; auto|]. cbn [fst snd]. rewrite Z.land_comm. apply Z.eqb_eq. auto. }
  destruct (round_ok E zero one add mul mul_one mul_zero add_zero_l add_zero_r n k Hn Hk cur fp rp r Sc ltac:(lia) (pow_divides e)) as (res & E1 & Sn & Hget).
  rewrite (proj1 Sc). rewrite E1. eexists. split; [reflexivity|]. set (new := zip_with _ _ _) in *.
  assert (FX : forall i j, (i < k)%nat -> (j < n)%nat -> (F fp i j = true <-> exists x, In x sss /\ Z.land r (snd x) = 0 /\ P (l ++ [r]) x = at_ i j)).
  { intros i j Hi Hj. unfold F. rewrite InF. split; intros (x & Hx & Hz & Hp); exists x; (split; [auto|split; [auto|]]).
    - rewrite pos_after_snoc. unfold next_position. rewrite Hz. auto.
    - rewrite pos_after_snoc in Hp. unfold next_position in Hp. rewrite Hz in Hp. auto. }
  assert (RX : forall i j, (i < k)%nat -> (j < n)%nat -> (R n k rp r i j = true <-> exists x, In x sss /\ Z.land r (snd x) <> 0 /\ P (l ++ [r]) x = at_ i j)).
  { intros i j Hi Hj. unfold R. rewrite InR. split; intros (x & Hx & Hz & Hp); exists x; (split; [auto|split; [auto|]]).
    - rewrite pos_after_snoc. apply next_from; auto; lia.
    - rewrite pos_after_snoc in Hp. apply next_from in Hp; auto; lia. }
  assert (Some_tracked : forall x, In x sss -> forall i j, (i < k)%nat -> (j < n)%nat -> P (l ++ [r]) x = at_ i j -> F fp i j = true \/ R n k rp r i j = true).
  { intros x Hx i j Hi Hj Hp. destruct (Z.eq_dec (Z.land r (snd x)) 0) as [Hz|Hz].
    - left. apply FX; auto. exists x; auto.
    - right. apply RX; auto. exists x; auto. }
  rewrite El. split; [exact Sn|]. split.
  - intros x Hx. destruct (at_inv _ (Pr' x Hx)) as (i & j & Hi & Hj & Hp). rewrite Hp.
    rewrite Hget; auto; [|exists j; split; auto; eapply Some_tracked; eauto].
    destruct (Z.eq_dec (Z.land r (snd x)) 0) as [Hz|Hz].
    + replace (F fp i j) with true by (symmetry; apply FX; auto; exists x; auto).
      destruct (R n k rp r i j) eqn:ER.
      { apply RX in ER as (y & Hy & Hzy & Hpy); auto. exfalso. apply (Coll x y Hx Hy Hz Hzy). congruence. }
      rewrite add_zero_r, <- Hp. replace (P (l ++ [r]) x) with (P l x); [auto|].
      rewrite pos_after_snoc. unfold next_position. rewrite Hz. auto.
    + replace (R n k rp r i j) with true by (symmetry; apply RX; auto; exists x; auto).
      destruct (F fp i j) eqn:EF.
      { apply FX in EF as (y & Hy & Hzy & Hpy); auto. exfalso. apply (Coll y x Hy Hx Hzy Hz). congruence. }
      rewrite add_zero_l. replace (from n k r i j) with (P l x); [auto|].
      rewrite pos_after_snoc in Hp. apply next_from in Hp; auto; lia.
  - intros _ x Hx p Hp Hrow Hun. destruct (at_inv p Hp) as (i & j & Hi & Hj & ->).
    destruct (at_inv _ (Pr' x Hx)) as (i' & j' & Hi' & Hj' & Hp'). rewrite Hp' in Hrow. cbn in Hrow. assert (i' = i) by lia. subst i'.
    rewrite Hget; auto; [|exists j'; split; auto; eapply Some_tracked; eauto].
    destruct (F fp i j) eqn:EF; [apply FX in EF as (y & Hy & _ & Hpy); auto; exfalso; apply (Hun y Hy Hpy)|].
    destruct (R n k rp r i j) eqn:ER; [apply RX in ER as (y & Hy & _ & Hpy); auto; exfalso; apply (Hun y Hy Hpy)|].
    apply add_zero_l.
Qed.

Lemma group_rounds_ok rest : forall es cur, NoDup (es ++ rest) -> (forall i, In i (es ++ rest) -> 2 ^ Z.of_nat i < V) ->
  (forall a e b, es ++ rest = a ++ e :: b -> forall x y, In x sss -> In y sss -> P (pows (a ++ [e])) x = P (pows (a ++ [e])) y -> fst x = fst y) ->
  Tracked (pows es) cur ->
  exists cur', group_rounds E zero one add mul N sss (map (fun x => (x, P (pows es) x)) all) (rounds_from N K all (pows es) (pows rest)) cur = Some cur' /\
    Tracked (pows (es ++ rest)) cur'.
Proof.
  induction rest as [|e rest IH]; intros es cur Nd Hlt Hnc T.
  - exists cur. rewrite app_nil_r. split; auto.
  - cbn [pows map rounds_from group_rounds]. fold (pows rest).
    assert (Ea : es ++ e :: rest = (es ++ [e]) ++ rest) by (rewrite <- app_assoc; auto).
    destruct (group_round_ok es e cur) as (cur1 & E1 & T1); auto.
    + rewrite Ea in Nd. apply NoDup_prefix in Nd. auto.
    + intros i Hi. apply Hlt. rewrite Ea. apply in_or_app. auto.
    + intros x y. apply (Hnc es e rest); auto.
    + rewrite E1. destruct (IH (es ++ [e]) cur1) as (cur2 & E2 & T2); auto.
      * rewrite <- Ea. auto.
      * intros i. rewrite <- Ea. apply Hlt.
      * intros a e' b H. rewrite <- Ea in H. apply (Hnc a e' b H).
      * rewrite <- Ea in T2. exists cur2. split; auto. rewrite pows_app in E2. exact E2.
Qed.
End One.

(** ** The whole network *)
Variables (es : list nat) (bits : nat) (m : mapping).
Hypothesis Nd : NoDup es.
Hypothesis Hlt : forall e, In e es -> 2 ^ Z.of_nat e < V.
Hypothesis Hall : forall e, (e < bits)%nat -> In e es.
Hypothesis Hbits : V <= 2 ^ Z.of_nat bits.
Hypothesis Hm : forall t s, In (t, s) m -> inr t /\ inr s.
Hypothesis NdT : NoDup (map fst m).
Notation keys := (source_shifts N V m).
Notation rounds := ((map (fun x : skey => (x, fst x)) keys, 0) :: rounds_from N K keys [] (pows es)).

Lemma key_target t s : In (t, s) m -> P (pows es) (s, get_virtual_shift N V s t) = t.
Proof.
  intros H. destruct (Hm t s H) as [Ht Hs]. destruct (shift_spec N K ltac:(lia) ltac:(lia) s t Hs Ht) as [S1 S2].
  destruct (pos_after_spec N K ltac:(lia) ltac:(lia) (pows es) (s, get_virtual_shift N V s t) (pows_range es Hlt) Hs) as [A B].
  apply (vidx_inj N K ltac:(lia)); auto. rewrite B. cbn [fst snd]. rewrite (moved_all es _ bits); auto. lia.
Qed.

Lemma group_ok input group : shape input ->
  (forall a e b, es = a ++ e :: b -> forall x y, In x keys -> In y keys -> contains N group (fst x) = true -> contains N group (fst y) = true ->
     P (pows (a ++ [e])) x = P (pows (a ++ [e])) y -> fst x = fst y) ->
  exists res, rotate_one_group E zero one add mul N m input (source_shifts N V (filter (fun ts => contains N group (snd ts)) m)) rounds group = Some res /\
    shape res /\
    (forall t s, In (t, s) m -> contains N group s = true -> get res t = get input s) /\
    (forall p, inr p -> (forall t s, In (t, s) m -> contains N group s = true -> t <> p) -> get res p = zero).
Proof.
  intros Si Hnc. unfold rotate_one_group.
  set (sss := filter (fun k => contains N group (fst k)) (source_shifts N V (filter (fun ts => contains N group (snd ts)) m))).
  assert (InS : forall x, In x sss <-> exists t s, In (t, s) m /\ contains N group s = true /\ x = (s, get_virtual_shift N V s t)).
  { intros x. unfold sss, source_shifts. rewrite filter_In, in_map_iff. split.
    - intros (([t s] & <- & H) & Hc). apply filter_In in H as [H1 H2]. cbn [fst snd] in *. exists t, s. auto.
    - intros (t & s & H1 & H2 & ->). cbn [fst]. split; auto. exists (t, s). split; auto. apply filter_In. auto. }
  assert (Hsub : forall x, In x sss -> In x keys).
  { intros x Hx. apply InS in Hx as (t & s & H1 & _ & ->). apply in_map_iff. exists (t, s). auto. }
  assert (Hc : forall x, In x sss -> contains N group (fst x) = true).
  { intros x Hx. apply InS in Hx as (t & s & _ & H & ->). auto. }
  assert (Hsrc : forall x, In x sss -> inr (fst x) /\ 0 <= snd x < V).
  { intros x Hx. apply InS in Hx as (t & s & H1 & _ & ->). destruct (Hm t s H1). cbn [fst snd]. split; auto. apply shift_spec; auto; lia. }
  destruct (group_rounds_ok input keys sss Hsub Hsrc es [] input) as (cur & E1 & (Sc & Tv & Tz)); auto.
  { intros a e b He x y Hx Hy. apply (Hnc a e b); auto. }
  { split; auto. split; [auto|]. intros H; destruct (H eq_refl). }
  cbn [pows map app] in E1. unfold P in E1 at 1. cbn [fold_left] in E1.
  change (map (fun e => 2 ^ Z.of_nat e) es) with (pows es) in *. rewrite app_nil_l in *. rewrite E1. eexists. split; [reflexivity|].
  set (fin := fun i => existsb (fun ts : ctslot * ctslot => contains N group (snd ts) && (fst (fst ts) =? Z.of_nat i)) m).
  assert (Row : forall i, (i < k)%nat -> nth i (zip_with (fun i ct => if fin i then ct else splat0 E zero N) (seq 0 (length cur)) cur) [] =
    if fin i then nth i cur [] else splat0 E zero N).
  { intros i Hi. rewrite (proj1 Sc). rewrite nth_zip with (da := 0%nat) (db := []) by (rewrite ?seq_length, ?(proj1 Sc); auto). rewrite seq_nth by auto. auto. }
  assert (Fin : forall i, fin i = true <-> exists t s, In (t, s) m /\ contains N group s = true /\ fst t = Z.of_nat i).
  { intros i. unfold fin. rewrite existsb_exists. split.
    - intros ([t s] & H & B). apply andb_true_iff in B as [B1 B2]. apply Z.eqb_eq in B2. exists t, s. auto.
    - intros (t & s & H1 & H2 & H3). exists (t, s). split; auto. cbn [fst snd]. rewrite H2, H3, Z.eqb_refl. auto. }
  split; [|split].
  - split; [rewrite zip_length, seq_length, (proj1 Sc); lia|]. intros i Hi. fold fin. rewrite Row by auto. destruct (fin i); [apply Sc; auto|eapply splat0_length; eauto].
  - intros t s H Hg. destruct (Hm t s H) as [Ht Hs]. destruct (at_inv t Ht) as (i & j & Hi & Hj & Et). subst t. fold fin.
    rewrite get_at, Row by auto. replace (fin i) with true by (symmetry; apply Fin; exists (at_ i j), s; auto).
    rewrite <- get_at. specialize (Tv (s, get_virtual_shift N V s (at_ i j))). rewrite key_target in Tv by auto. apply Tv. apply InS. eauto.
  - intros p Hp Hun. destruct (at_inv p Hp) as (i & j & Hi & Hj & ->). fold fin. rewrite get_at, Row by auto.
    destruct (fin i) eqn:Ef; [|apply nth_splat0]. apply Fin in Ef as (t & s & H & Hg & Hf). rewrite <- get_at.
    destruct es as [|e0 es0] eqn:Ees.
    + assert (V1 : V <= 1). { destruct bits as [|b]; [exact Hbits|]. destruct (Hall 0%nat ltac:(lia)). }
      assert (n = 1%nat /\ k = 1%nat) as [-> ->] by nia. exfalso. apply (Hun t s H Hg). destruct (Hm t s H) as [[T1 T2] _].
      destruct t as [ta tb]. unfold at_. cbn [fst snd] in *. f_equal; lia.
    + rewrite <- Ees in *. assert (Hx : In (s, get_virtual_shift N V s t) sss) by (apply InS; eauto).
      apply (Tz ltac:(rewrite Ees; discriminate) _ Hx); auto.
      * rewrite key_target by auto. auto.
      * intros y Hy. apply InS in Hy as (t' & s' & H' & Hg' & ->). rewrite key_target by auto. eauto.
Qed.

(** ** Sums *)
Lemma fold_zero l a : (forall x, In x l -> x = zero) -> fold_left add l a = a.
Proof. revert a. induction l as [|x l IH]; intros a H; cbn [fold_left]; auto. rewrite (H x) by (left; auto). rewrite add_zero_r. apply IH. intros; apply H; right; auto. Qed.
Lemma fold_one l : forall a c v, (c < length (a :: l))%nat -> nth c (a :: l) zero = v -> (forall g, g <> c -> nth g (a :: l) zero = zero) -> fold_left add l a = v.
Proof.
  induction l as [|x l IH]; intros a c v Hc Hv Hz.
  - cbn in *. replace c with 0%nat in Hv by lia. auto.
  - cbn [fold_left]. destruct c as [|c].
    + cbn in Hv. subst v. assert (x = zero) by (apply (Hz 1%nat); lia). subst x. rewrite add_zero_r.
      apply fold_zero. intros y Hy. apply In_nth with (d := zero) in Hy as (g & Hg & <-). apply (Hz (S (S g))). lia.
    + assert (a = zero) by (apply (Hz 0%nat); lia). subst a. rewrite add_zero_l. apply (IH x c v); [cbn in *; lia|auto|].
      intros g Hg. apply (Hz (S g)). lia.
Qed.
Lemma sum_shape rest : forall first, shape first -> Forall shape rest ->
  shape (fold_left (fun acc g => zip_with (add_rows E add) acc g) rest first) /\
  forall p, inr p -> get (fold_left (fun acc g => zip_with (add_rows E add) acc g) rest first) p = fold_left add (map (fun g => get g p) rest) (get first p).
Proof.
  induction rest as [|g rest IH]; intros first Sf Fr; cbn [fold_left map]; auto.
  inversion Fr as [|? ? Sg Fr']; subst.
  assert (Sh : shape (zip_with (add_rows E add) first g)).
  { split; [rewrite zip_length, (proj1 Sf), (proj1 Sg); lia|]. intros i Hi.
    rewrite nth_zip with (da := []) (db := []) by (rewrite ?(proj1 Sf), ?(proj1 Sg); auto). eapply add_rows_length; eauto; [apply Sf|apply Sg]; auto. }
  destruct (IH _ Sh Fr') as [A B]. split; auto. intros p Hp. rewrite B by auto. f_equal.
  destruct (at_inv p Hp) as (i & j & Hi & Hj & ->). rewrite !get_at.
  rewrite nth_zip with (da := []) (db := []) by (rewrite ?(proj1 Sf), ?(proj1 Sg); auto). apply nth_add_rows with (n := n) (k := k); auto; [apply Sf|apply Sg]; auto.
Qed.

Lemma network_ok input groups : shape input -> groups <> [] ->
  (forall a e b, es = a ++ e :: b -> forall g x y, (g < length groups)%nat -> In x keys -> In y keys ->
     contains N (nth g groups []) (fst x) = true -> contains N (nth g groups []) (fst y) = true ->
     P (pows (a ++ [e])) x = P (pows (a ++ [e])) y -> fst x = fst y) ->
  (forall t s, In (t, s) m -> exists c, (c < length groups)%nat /\ contains N (nth c groups []) s = true /\
     forall g, contains N (nth g groups []) s = true -> g = c) ->
  exists res, implement_shift_network E zero one add mul N input m rounds groups = Some res /\ shape res /\
    (forall t s, In (t, s) m -> get res t = get input s) /\
    (forall p, inr p -> ~ In p (map fst m) -> get res p = zero).
Proof.
  intros Si Hne Hnc Hpart. unfold implement_shift_network, implement_rotation_groups. rewrite (proj1 Si).
  destruct (mapM_Forall2 (fun group => rotate_one_group E zero one add mul N m input (source_shifts N V (filter (fun ts => contains N group (snd ts)) m)) rounds group)
    (fun group res => shape res /\ (forall t s, In (t, s) m -> contains N group s = true -> get res t = get input s) /\
       (forall p, inr p -> (forall t s, In (t, s) m -> contains N group s = true -> t <> p) -> get res p = zero)) groups) as (rs & E1 & F2).
  { intros group Hg. apply group_ok; auto. intros a e b He x y. apply In_nth with (d := []) in Hg as (g & Hg & <-). apply (Hnc a e b He g); auto. }
  rewrite E1. assert (Len : length groups = length rs) by (clear -F2; induction F2; cbn; auto).
  assert (Nth : forall g, (g < length groups)%nat -> shape (nth g rs []) /\ (forall t s, In (t, s) m -> contains N (nth g groups []) s = true -> get (nth g rs []) t = get input s) /\
       (forall p, inr p -> (forall t s, In (t, s) m -> contains N (nth g groups []) s = true -> t <> p) -> get (nth g rs []) p = zero)).
  { clear -F2. induction F2 as [|x y l l' H F IH]; intros g Hg; [cbn in Hg; lia|]. destruct g as [|g]; cbn [nth]; auto. apply IH. cbn in Hg. lia. }
  destruct rs as [|first rest]; [destruct groups; [congruence|discriminate]|]. eexists. split; [reflexivity|].
  destruct (sum_shape rest first) as [S1 S2].
  { apply (Nth 0%nat). rewrite Len. cbn. lia. }
  { apply Forall_forall. intros x Hx. apply In_nth with (d := []) in Hx as (g & Hg & <-). apply (Nth (S g)). rewrite Len. cbn. lia. }
  assert (Gn : forall p g, nth g (get first p :: map (fun x => get x p) rest) zero = if (g <? length groups)%nat then get (nth g (first :: rest) []) p else zero).
  { intros p g. rewrite Len. change (get first p :: map (fun x => get x p) rest) with (map (fun x => get x p) (first :: rest)).
    destruct (Nat.ltb_spec g (length (first :: rest))).
    - rewrite nth_indep with (d' := (fun x => get x p) []) by (rewrite map_length; auto). apply map_nth with (f := fun x => get x p).
    - apply nth_overflow. rewrite map_length. auto. }
  split; auto. split.
  - intros t s H. destruct (Hm t s H) as [Ht Hs]. rewrite S2 by auto. destruct (Hpart t s H) as (c & Hc & Cc & Cu).
    apply fold_one with (c := c).
    + cbn [length]. rewrite map_length. rewrite Len in Hc. cbn in Hc. lia.
    + rewrite Gn. replace (c <? length groups)%nat with true by (symmetry; apply Nat.ltb_lt; auto). apply (Nth c Hc); auto.
    + intros g Hg. rewrite Gn. destruct (Nat.ltb_spec g (length groups)) as [L|L]; auto. apply (Nth g L); auto.
      intros t' s' H' C' ->. assert (s' = s); [|subst; apply Hg; apply Cu; auto].
      clear -NdT H H'. induction m as [|[a b] r IH]; [destruct H|]. cbn in NdT. inversion NdT as [|? ? Hni Nr]; subst.
      destruct H as [H|H], H' as [H'|H'].
      * congruence.
      * inversion H; subst. exfalso. apply Hni. apply in_map_iff. exists (t, s'); auto.
      * inversion H'; subst. exfalso. apply Hni. apply in_map_iff. exists (t, s); auto.
      * auto.
  - intros p Hp Hno. rewrite S2 by auto. 
    assert (Z : forall g, nth g (get first p :: map (fun x => get x p) rest) zero = zero).
    { intros g. rewrite Gn. destruct (Nat.ltb_spec g (length groups)) as [L|L]; auto. apply (Nth g L); auto.
      intros t s H _ ->. apply Hno. apply in_map_iff. exists (p, s); auto. }
    apply fold_one with (c := 0%nat); auto. cbn. lia.
Qed.
End Group.
