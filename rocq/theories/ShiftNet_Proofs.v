(** Lemmas for the shift network: positions and conflicts. *)
From Coq Require Import ZArith List Bool Lia Permutation.
From Verif Require Import Graph_Model ShiftNet_Model.
Import ListNotations.
Open Scope Z_scope.

(** ** Lists *)
Lemma mapM_total {A B} (f : A -> option B) (g : A -> B) l : (forall x, In x l -> f x = Some (g x)) -> mapM f l = Some (map g l).
Proof. induction l as [|a l IH]; intros H; cbn [mapM map]; auto. rewrite H by (left; auto). rewrite IH; auto. intros; apply H; right; auto. Qed.
Lemma mapM_Forall2 {A B} (f : A -> option B) (Q : A -> B -> Prop) l : (forall x, In x l -> exists y, f x = Some y /\ Q x y) ->
  exists ys, mapM f l = Some ys /\ Forall2 Q l ys.
Proof.
  induction l as [|a l IH]; intros H; cbn [mapM]; [exists []; auto|].
  destruct (H a (or_introl eq_refl)) as (y & -> & Hy). destruct IH as (ys & -> & Hys); [intros; apply H; right; auto|].
  exists (y :: ys). auto.
Qed.
Lemma zip_length {A B C} (f : A -> B -> C) l m : length (zip_with f l m) = Nat.min (length l) (length m).
Proof. unfold zip_with. rewrite map_length, combine_length. auto. Qed.
Lemma nth_zip {A B C} (f : A -> B -> C) l m i d da db : (i < length l)%nat -> (i < length m)%nat ->
  nth i (zip_with f l m) d = f (nth i l da) (nth i m db).
Proof.
  unfold zip_with. revert m i. induction l as [|a l IH]; intros [|b m] [|i]; cbn; intros; try lia; auto.
  apply IH; lia.
Qed.
Lemma nth_map_seq {A} (f : nat -> A) n i d : (i < n)%nat -> nth i (map f (seq 0 n)) d = f i.
Proof. intros H. rewrite nth_indep with (d' := f 0%nat) by (rewrite map_length, seq_length; auto). rewrite map_nth, seq_nth by auto. auto. Qed.
Lemma set_nth_length {A} n (x : A) l : length (set_nth n x l) = length l.
Proof. revert n. induction l; intros [|n]; cbn; auto. Qed.
Lemma nth_set_nth_eq {A} n (x : A) l d : (n < length l)%nat -> nth n (set_nth n x l) d = x.
Proof. revert n. induction l; intros [|n]; cbn; intros; try lia; auto. apply IHl. lia. Qed.
Lemma nth_set_nth_neq {A} n i (x : A) l d : i <> n -> nth i (set_nth n x l) d = nth i l d.
Proof. revert n i. induction l; intros [|n] [|i]; cbn; intros; try lia; auto. Qed.

Lemma slot_eqb_eq a b : slot_eqb a b = true <-> a = b.
Proof.
  unfold slot_eqb. destruct a as [a1 a2], b as [b1 b2]; cbn. rewrite andb_true_iff, !Z.eqb_eq. split; [intros []; congruence|intros H; inversion H; auto].
Qed.
Lemma slot_eqb_neq a b : slot_eqb a b = false <-> a <> b.
Proof. rewrite <- slot_eqb_eq. destruct (slot_eqb a b); split; congruence. Qed.
Lemma skey_eqb_eq a b : skey_eqb a b = true <-> a = b.
Proof.
  unfold skey_eqb. destruct a as [a1 a2], b as [b1 b2]; cbn. rewrite andb_true_iff, slot_eqb_eq, Z.eqb_eq. split; [intros []; congruence|intros H; inversion H; auto].
Qed.
Lemma lookup_map (f : skey -> ctslot) l k : In k l -> lookup (map (fun k => (k, f k)) l) k = Some (f k).
Proof.
  unfold lookup. induction l as [|a l IH]; cbn [map find]; intros H; [destruct H|]. cbn [fst].
  destruct (skey_eqb a k) eqn:E.
  - apply skey_eqb_eq in E as ->. auto.
  - destruct H as [->|H]; auto. rewrite (proj2 (skey_eqb_eq k k) eq_refl) in E. discriminate.
Qed.
Lemma pairs_In {A} (l : list A) a b : In a l -> In b l -> a = b \/ In (a, b) (pairs l) \/ In (b, a) (pairs l).
Proof.
  induction l as [|c l IH]; cbn [pairs]; intros Ha Hb; [destruct Ha|].
  destruct Ha as [->|Ha], Hb as [->|Hb]; auto.
  - right; left. apply in_or_app. left. apply in_map. auto.
  - right; right. apply in_or_app. left. apply in_map. auto.
  - destruct (IH Ha Hb) as [H|[H|H]]; auto; right; [left|right]; apply in_or_app; auto.
Qed.
Lemma pairs_sub {A} (l : list A) a b : In (a, b) (pairs l) -> In a l /\ In b l.
Proof.
  induction l as [|c l IH]; cbn [pairs]; intros H; [destruct H|]. apply in_app_or in H as [H|H].
  - apply in_map_iff in H as (x & H & Hx). inversion H; subst. split; [left|right]; auto.
  - destruct (IH H). split; right; auto.
Qed.

(** ** Sums of powers of two *)
Definition moved (l : list Z) (sh : Z) : Z := fold_right (fun r a => (if Z.land r sh =? 0 then 0 else r) + a) 0 l.
Definition pows (es : list nat) : list Z := map (fun e => 2 ^ Z.of_nat e) es.
Lemma land_pow2 e sh : 0 <= sh -> (Z.land (2 ^ Z.of_nat e) sh =? 0) = negb (Z.testbit sh (Z.of_nat e)).
Proof.
  intros Hs. destruct (Z.testbit sh (Z.of_nat e)) eqn:T; cbn.
  - apply Z.eqb_neq. intros H. assert (Z.testbit (Z.land (2 ^ Z.of_nat e) sh) (Z.of_nat e) = true).
    { rewrite Z.land_spec, T, Z.pow2_bits_true by lia. auto. }
    rewrite H, Z.bits_0 in H0. discriminate.
  - apply Z.eqb_eq. apply Z.bits_inj'. intros n Hn. rewrite Z.land_spec, Z.bits_0.
    destruct (Z.eq_dec n (Z.of_nat e)) as [->|Ne].
    + rewrite T. apply andb_false_r.
    + rewrite Z.pow2_bits_false by lia. auto.
Qed.
Lemma moved_bits es sh n : NoDup es -> 0 <= sh ->
  Z.testbit (moved (pows es) sh) (Z.of_nat n) = Z.testbit sh (Z.of_nat n) && existsb (Nat.eqb n) es.
Proof.
  intros Nd Hs. revert n. induction Nd as [|e es Hn Nd IH]; intros n.
  - cbn. rewrite andb_false_r. apply Z.bits_0.
  - change (moved (pows (e :: es)) sh) with ((if Z.land (2 ^ Z.of_nat e) sh =? 0 then 0 else 2 ^ Z.of_nat e) + moved (pows es) sh).
    cbn [existsb]. rewrite land_pow2 by auto. destruct (Z.testbit sh (Z.of_nat e)) eqn:T; cbn [negb].
    + rewrite Z.add_nocarry_lxor.
      * rewrite Z.lxor_spec, IH. destruct (Nat.eqb_spec n e) as [->|Ne].
        -- rewrite Z.pow2_bits_true by lia. rewrite T. cbn. destruct (existsb (Nat.eqb e) es) eqn:X; auto.
           apply existsb_exists in X as (x & Hx & Ex). apply Nat.eqb_eq in Ex as ->. tauto.
        -- rewrite Z.pow2_bits_false by lia. rewrite xorb_false_l. auto.
      * apply Z.bits_inj'. intros i Hi. rewrite Z.land_spec, Z.bits_0.
        destruct (Z.eq_dec i (Z.of_nat e)) as [->|Ne]; [|rewrite Z.pow2_bits_false by lia; auto].
        rewrite IH. replace (existsb (Nat.eqb e) es) with false; [rewrite andb_false_r; apply andb_false_r|].
        symmetry. apply not_true_iff_false. intros X. apply existsb_exists in X as (x & Hx & Ex). apply Nat.eqb_eq in Ex as ->. tauto.
    + rewrite Z.add_0_l, IH. destruct (Nat.eqb_spec n e) as [->|Ne]; auto. rewrite T. auto.
Qed.
Lemma moved_nonneg es sh : 0 <= moved (pows es) sh.
Proof.
  unfold moved, pows in *. induction es as [|e es IH]; [cbn; lia|]. cbn [map fold_right].
  assert (0 < 2 ^ Z.of_nat e) by (apply Z.pow_pos_nonneg; lia). destruct (Z.land _ _ =? 0); lia.
Qed.
Lemma moved_le es sh : NoDup es -> 0 <= sh -> moved (pows es) sh <= sh.
Proof.
  intros Nd Hs. pose proof (moved_nonneg es sh) as Hm.
  assert (E : Z.ldiff (moved (pows es) sh) sh = 0).
  { apply Z.bits_inj'. intros n Hn. rewrite Z.ldiff_spec, Z.bits_0. replace n with (Z.of_nat (Z.to_nat n)) by lia.
    rewrite moved_bits by auto. destruct (Z.testbit sh _), (existsb _ es); auto. }
  apply Z.ldiff_le; auto.
Qed.
Lemma moved_all es sh m : NoDup es -> 0 <= sh < 2 ^ Z.of_nat m -> (forall e, (e < m)%nat -> In e es) -> moved (pows es) sh = sh.
Proof.
  intros Nd [Hs Hm] Ha. apply Z.bits_inj'. intros n Hn. replace n with (Z.of_nat (Z.to_nat n)) by lia.
  rewrite moved_bits by auto. destruct (existsb (Nat.eqb (Z.to_nat n)) es) eqn:X; [apply andb_true_r|].
  rewrite andb_false_r. symmetry. destruct (Z.eq_dec sh 0) as [->|]; [apply Z.bits_0|].
  apply Z.bits_above_log2; auto. apply Z.log2_lt_pow2; try lia. eapply Z.lt_le_trans; eauto.
  apply Z.pow_le_mono_r; try lia. destruct (le_lt_dec m (Z.to_nat n)) as [|L]; [lia|].
  apply Ha in L. apply not_true_iff_false in X. exfalso. apply X. apply existsb_exists. exists (Z.to_nat n). split; auto. apply Nat.eqb_refl.
Qed.
Lemma moved_app l1 l2 sh : moved (l1 ++ l2) sh = moved l1 sh + moved l2 sh.
Proof. unfold moved. induction l1 as [|r l1 IH]; cbn [app fold_right]; [lia|]. rewrite IH. lia. Qed.
Lemma pows_app a b : pows (a ++ b) = pows a ++ pows b.
Proof. apply map_app. Qed.

(** ** Positions *)
Section Positions.
Variables (N K : Z).
Hypothesis HN : 0 < N.
Hypothesis HK : 0 < K.
Notation V := (K * N).
Definition in_range (p : ctslot) : Prop := 0 <= fst p < K /\ 0 <= snd p < N.
Lemma V_pos : 0 < V. Proof. nia. Qed.
Lemma vidx_range p : in_range p -> 0 <= vidx N p < V.
Proof. unfold vidx. intros [H1 H2]. nia. Qed.
Definition unvidx (v : Z) : ctslot := (v / N, v mod N).
Lemma vidx_unvidx v : vidx N (unvidx v) = v.
Proof. unfold vidx, unvidx; cbn. pose proof (Z.div_mod v N ltac:(lia)). lia. Qed.
Lemma unvidx_vidx p : 0 <= snd p < N -> unvidx (vidx N p) = p.
Proof.
  destruct p as [a b]; unfold vidx, unvidx; cbn. intros H. f_equal.
  - rewrite Z.add_comm, Z.div_add by lia. rewrite Z.div_small by auto. lia.
  - rewrite Z.add_comm, Z.mod_add by lia. apply Z.mod_small; auto.
Qed.
Lemma vidx_inj p q : in_range p -> in_range q -> vidx N p = vidx N q -> p = q.
Proof. intros Hp Hq H. rewrite <- (unvidx_vidx p), <- (unvidx_vidx q), H; auto; [apply Hq|apply Hp]. Qed.
Lemma unvidx_range v : 0 <= v < V -> in_range (unvidx v).
Proof.
  intros H. unfold in_range, unvidx; cbn. split; [|apply Z.mod_pos_bound; auto].
  split; [apply Z.div_pos; lia|]. apply Z.div_lt_upper_bound; lia.
Qed.

Definition pos_after (l : list Z) (k : skey) : ctslot := fold_left (fun p r => next_position N V r (snd k) p) l (fst k).
Lemma next_position_spec r sh p : 0 <= r < V -> in_range p ->
  in_range (next_position N V r sh p) /\
  vidx N (next_position N V r sh p) = (vidx N p - (if Z.land r sh =? 0 then 0 else r)) mod V.
Proof.
  intros Hr Hp. pose proof (vidx_range p Hp) as Hv. unfold next_position. destruct (Z.land r sh =? 0); cbn [negb].
  - split; auto. rewrite Z.sub_0_r, Z.mod_small; auto.
  - rewrite Z.rem_mod_nonneg by lia.
    replace (vidx N p - r + V) with (vidx N p - r + 1 * V) by lia. rewrite Z.mod_add by lia.
    set (v := (vidx N p - r) mod V). assert (Hv' : 0 <= v < V) by (apply Z.mod_pos_bound; lia).
    rewrite Z.quot_div_nonneg, Z.rem_mod_nonneg by lia. fold (unvidx v).
    split; [apply unvidx_range; auto|apply vidx_unvidx].
Qed.
Lemma pos_after_spec l k : (forall r, In r l -> 0 <= r < V) -> in_range (fst k) ->
  in_range (pos_after l k) /\ vidx N (pos_after l k) = (vidx N (fst k) - moved l (snd k)) mod V.
Proof.
  intros Hl Hk. induction l as [|r l IH] using rev_ind.
  - cbn. split; auto. rewrite Z.sub_0_r, Z.mod_small; auto. apply vidx_range; auto.
  - unfold pos_after in *. rewrite fold_left_app. cbn [fold_left]. destruct IH as [I1 I2]; [intros; apply Hl; apply in_or_app; auto|].
    destruct (next_position_spec r (snd k) _ (Hl r ltac:(apply in_or_app; right; left; auto)) I1) as [J1 J2].
    split; auto. rewrite J2, I2, moved_app. cbn [moved fold_right]. rewrite Z.add_0_r.
    rewrite Zminus_mod_idemp_l. f_equal. lia.
Qed.
Lemma pos_after_snoc l r k : pos_after (l ++ [r]) k = next_position N V r (snd k) (pos_after l k).
Proof. unfold pos_after. rewrite fold_left_app. auto. Qed.

(** shifts *)
Lemma shift_spec s t : in_range s -> in_range t -> 0 <= get_virtual_shift N V s t < V /\
  (vidx N s - get_virtual_shift N V s t) mod V = vidx N t.
Proof.
  intros Hs Ht. pose proof (vidx_range s Hs). pose proof (vidx_range t Ht).
  unfold get_virtual_shift, normalize_shift.
  assert (E : Z.rem (vidx N t - vidx N s) V = vidx N t - vidx N s).
  { apply Z.rem_small_iff; [lia|]. destruct (Z_le_gt_dec 0 (vidx N t - vidx N s)); [rewrite Z.abs_eq|rewrite Z.abs_neq]; lia. }
  rewrite E. destruct (- (vidx N t - vidx N s) <? 0) eqn:C; [apply Z.ltb_lt in C|apply Z.ltb_ge in C].
  - split; [lia|]. replace (vidx N s - (- (vidx N t - vidx N s) + V)) with (vidx N t + (-1) * V) by lia. rewrite Z.mod_add by lia. apply Z.mod_small; auto.
  - split; [lia|]. replace (vidx N s - - (vidx N t - vidx N s)) with (vidx N t) by lia. apply Z.mod_small; auto.
Qed.

(** keys that start at one place and meet have made the same moves *)
Lemma no_self_collision es e s sh1 sh2 : NoDup (es ++ [e]) -> (forall i, In i (es ++ [e]) -> 2 ^ Z.of_nat i < V) ->
  in_range s -> 0 <= sh1 < V -> 0 <= sh2 < V ->
  Z.testbit sh1 (Z.of_nat e) <> Z.testbit sh2 (Z.of_nat e) ->
  pos_after (pows (es ++ [e])) (s, sh1) <> pos_after (pows (es ++ [e])) (s, sh2).
Proof.
  intros Nd Hr Hs H1 H2 Hb H.
  assert (HR : forall r, In r (pows (es ++ [e])) -> 0 <= r < V).
  { intros r Hin. apply in_map_iff in Hin as (i & <- & Hi). split; [apply Z.pow_nonneg; lia|auto]. }
  destruct (pos_after_spec (pows (es ++ [e])) (s, sh1) HR Hs) as [_ E1].
  destruct (pos_after_spec (pows (es ++ [e])) (s, sh2) HR Hs) as [_ E2].
  rewrite H, E2 in E1. cbn [fst snd] in E1. clear H E2.
  pose proof (moved_le _ sh1 Nd (proj1 H1)). pose proof (moved_le _ sh2 Nd (proj1 H2)).
  pose proof (moved_nonneg (es ++ [e]) sh1). pose proof (moved_nonneg (es ++ [e]) sh2).
  set (a := moved _ sh1) in *. set (b := moved _ sh2) in *.
  assert (a = b).
  { pose proof (vidx_range s Hs). assert (D : ((vidx N s - b) - (vidx N s - a)) mod V = 0).
    { rewrite Zminus_mod, E1, Z.sub_diag. apply Z.mod_0_l. lia. }
    replace (vidx N s - b - (vidx N s - a)) with (a - b) in D by lia.
    apply Z.mod_divide in D; [|lia]. destruct D as [q D]. assert (q = 0) by nia. nia. }
  apply Hb. assert (X : existsb (Nat.eqb e) (es ++ [e]) = true).
  { apply existsb_exists. exists e. split; [apply in_or_app; right; left; auto|apply Nat.eqb_refl]. }
  pose proof (moved_bits _ sh1 e Nd (proj1 H1)) as M1. pose proof (moved_bits _ sh2 e Nd (proj1 H2)) as M2.
  fold a in M1. fold b in M2. rewrite X, andb_true_r in M1, M2. rewrite <- M1, <- M2. congruence.
Qed.

(** ** Rounds *)
Fixpoint rounds_from (sss : list skey) (pre order : list Z) : list round :=
  match order with
  | [] => []
  | r :: rest => (map (fun k => (k, pos_after (pre ++ [r]) k)) sss, r) :: rounds_from sss (pre ++ [r]) rest
  end.
Lemma evaluate_rounds_spec sss pre order :
  evaluate_rounds N V sss (map (fun k => (k, pos_after pre k)) sss) order = Some (rounds_from sss pre order).
Proof.
  revert pre. induction order as [|r order IH]; intros pre; cbn [evaluate_rounds rounds_from]; auto.
  rewrite (mapM_total _ (fun k => (k, pos_after (pre ++ [r]) k))); [rewrite IH; auto|].
  intros k Hk. rewrite lookup_map by auto. rewrite pos_after_snoc. auto.
Qed.
Lemma rounds_from_In sss pre a r b : In (map (fun k => (k, pos_after (pre ++ a ++ [r]) k)) sss, r) (rounds_from sss pre (a ++ r :: b)).
Proof.
  revert pre. induction a as [|x a IH]; intros pre; cbn [app rounds_from]; [left; auto|].
  right. specialize (IH (pre ++ [x])). rewrite <- app_assoc in IH. auto.
Qed.
Lemma rounds_from_inv sss pre order ps r : In (ps, r) (rounds_from sss pre order) ->
  exists l, ps = map (fun k => (k, pos_after l k)) sss.
Proof.
  revert pre. induction order as [|x order IH]; intros pre; cbn [rounds_from]; [intros []|].
  intros [H|H]; [inversion H; subst; eauto|eauto].
Qed.
Lemma conflicts_In sss order a r b k1 k2 first : order = a ++ r :: b -> In k1 sss -> In k2 sss ->
  fst k1 <> fst k2 -> pos_after (a ++ [r]) k1 = pos_after (a ++ [r]) k2 ->
  In (fst k1, fst k2) (conflicts (first :: rounds_from sss [] order)) \/ In (fst k2, fst k1) (conflicts (first :: rounds_from sss [] order)).
Proof.
  intros -> H1 H2 Hn He. set (f := fun k => (k, pos_after (a ++ [r]) k)).
  assert (HR : In (map f sss, r) (rounds_from sss [] (a ++ r :: b))) by (apply (rounds_from_In sss [] a r b)).
  assert (G : forall x y, In (f x, f y) (pairs (map f sss)) -> fst x <> fst y -> pos_after (a ++ [r]) x = pos_after (a ++ [r]) y ->
    In (fst x, fst y) (conflicts (first :: rounds_from sss [] (a ++ r :: b)))).
  { intros x y Hp Hxy Hpos. unfold conflicts. apply in_flat_map. exists (map f sss, r). split; [exact HR|].
    apply in_flat_map. exists (f x, f y). split; [exact Hp|]. unfold f. rewrite (proj2 (slot_eqb_neq _ _) Hxy), (proj2 (slot_eqb_eq _ _) Hpos). cbn. auto. }
  destruct (pairs_In (map f sss) (f k1) (f k2)) as [H|[H|H]]; try (apply in_map; auto).
  - inversion H. congruence.
  - left. apply G; auto.
  - right. apply G; auto.
Qed.
Lemma conflicts_sub sss order first a b : In (a, b) (conflicts (first :: rounds_from sss [] order)) ->
  a <> b /\ In a (map fst sss) /\ In b (map fst sss).
Proof.
  unfold conflicts. cbn [tl]. intros H. apply in_flat_map in H as ([ps r] & Hr & H).
  apply rounds_from_inv in Hr as (l & ->). cbn [fst] in H. apply in_flat_map in H as ([[k1 p1] [k2 p2]] & Hp & H).
  apply pairs_sub in Hp as [A B]. apply in_map_iff in A as (x & A & Hx). apply in_map_iff in B as (y & B & Hy).
  inversion A; inversion B; subst. destruct (slot_eqb (fst k1) (fst k2)) eqn:Ne; cbn [negb andb] in H; [destruct H|].
  destruct (slot_eqb _ _) in H; [|destruct H]. destruct H as [H|[]]. inversion H; subst.
  apply slot_eqb_neq in Ne. split; auto. split; apply in_map; auto.
Qed.
End Positions.
