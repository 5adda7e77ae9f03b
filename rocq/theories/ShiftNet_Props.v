(** C34: the shift network realises the mapping. *)
From Coq Require Import ZArith List Bool Lia Permutation.
From Verif Require Import Graph_Model Graph_Props ShiftNet_Model ShiftNet_Proofs ShiftNetKernel_Proofs ShiftNetGroup_Proofs.
Import ListNotations.
Open Scope Z_scope.

(** ** Specification *)
(** the slot [p] = (ciphertext, slot) of a list of ciphertexts *)
Definition slot_value {E} (cts : list (list E)) (p : Z * Z) : option E :=
  match nth_error cts (Z.to_nat (fst p)) with Some ct => nth_error ct (Z.to_nat (snd p)) | None => None end.
Definition valid_slot (K N : Z) (p : Z * Z) : Prop := 0 <= fst p < K /\ 0 <= snd p < N.
(** [K] ciphertexts of [N] slots *)
Definition ciphertexts {E} (K N : Z) (cts : list (list E)) : Prop :=
  Z.of_nat (length cts) = K /\ forall ct, In ct cts -> Z.of_nat (length ct) = N.
(** the powers of two below [V], in any order *)
Definition shift_order (V : Z) (order : list Z) : Prop :=
  NoDup order /\ forall r, In r order <-> r < V /\ exists e, 0 <= e /\ r = 2 ^ e.
(** pairs (target, source): every target once *)
Definition valid_mapping (K N : Z) (m : list ((Z * Z) * (Z * Z))) : Prop :=
  m <> [] /\ NoDup (map fst m) /\ forall t s, In (t, s) m -> valid_slot K N t /\ valid_slot K N s.
(** every target holds the value of its source, every other slot zero *)
Definition realises {E} (zero : E) (K N : Z) (m : list ((Z * Z) * (Z * Z))) (cts out : list (list E)) : Prop :=
  ciphertexts K N out /\
  (forall t s, In (t, s) m -> slot_value out t = slot_value cts s) /\
  (forall p, valid_slot K N p -> ~ In p (map fst m) -> slot_value out p = Some zero).
(** all that is asked of the elements: 0/1 masks and sums with zero *)
Definition maskable {E} (zero one : E) (add mul : E -> E -> E) : Prop :=
  forall x, mul x one = x /\ mul x zero = zero /\ add zero x = x /\ add x zero = x.

(** ** From the specification to the lemmas *)
Lemma ciphertexts_shape {E} n k (cts : list (list E)) : ciphertexts (Z.of_nat k) (Z.of_nat n) cts <-> shape n k cts.
Proof.
  split; intros [A B]; split.
  - lia.
  - intros i Hi. specialize (B (nth i cts []) ltac:(apply nth_In; lia)). lia.
  - lia.
  - intros ct Hc. apply In_nth with (d := []) in Hc as (i & Hi & <-). rewrite B; lia.
Qed.
Lemma slot_value_get {E} (zero : E) n k cts p : shape n k cts -> in_range (Z.of_nat n) (Z.of_nat k) p -> slot_value cts p = Some (get E zero cts p).
Proof.
  intros [L R] [H1 H2]. unfold slot_value, get. rewrite nth_error_nth' with (d := []) by lia.
  apply nth_error_nth'. rewrite R by lia. lia.
Qed.
Lemma order_exponents V order : 0 < V -> shift_order V order -> exists es, order = pows es /\ NoDup es /\
  (forall e, In e es -> 2 ^ Z.of_nat e < V) /\ (forall e, (e < Z.to_nat (Z.log2_up V))%nat -> In e es).
Proof.
  intros HV [Nd H]. set (es := map (fun r => Z.to_nat (Z.log2 r)) order).
  assert (Back : forall r, In r order -> 2 ^ Z.of_nat (Z.to_nat (Z.log2 r)) = r).
  { intros r Hr. apply H in Hr as (_ & e & He & ->). rewrite Z.log2_pow2, Z2Nat.id; auto. }
  assert (Eo : order = pows es).
  { unfold pows, es. rewrite map_map. rewrite <- (map_id order) at 1. apply map_ext_in. intros r Hr. symmetry; auto. }
  exists es. split; auto. split; [|split].
  - unfold es. clear Eo es. induction Nd as [|r l Hn Nd IH]; cbn [map]; constructor.
    + intros Hi. apply in_map_iff in Hi as (x & Hx & Hi). apply Hn. rewrite <- (Back r), <- Hx, (Back x); auto; [right; auto|left; auto].
    + clear H. clear IH. assert (Bl : forall r, In r l -> 2 ^ Z.of_nat (Z.to_nat (Z.log2 r)) = r) by (intros; apply Back; right; auto).
      clear Back Hn. induction Nd as [|x l Hx Nd IH]; cbn [map]; constructor.
      * intros Hi. apply in_map_iff in Hi as (y & Hy & Hi). apply Hx. rewrite <- (Bl x), <- Hy, (Bl y); auto; [right; auto|left; auto].
      * apply IH. intros; apply Bl; right; auto.
  - intros e He. apply in_map_iff in He as (r & <- & Hr). rewrite Back by auto. apply H; auto.
  - intros e He. assert (V1 : 1 < V). { destruct (Z_le_gt_dec V 1); [|lia]. rewrite Z.log2_up_eqn0 in He by lia. cbn in He. lia. }
    pose proof (Z.log2_up_spec V V1) as [S1 _]. pose proof (Z.log2_up_nonneg V).
    assert (Hin : In (2 ^ Z.of_nat e) order).
    { apply H. split; [|exists (Z.of_nat e); lia]. eapply Z.le_lt_trans; [|exact S1]. apply Z.pow_le_mono_r; lia. }
    apply in_map_iff. exists (2 ^ Z.of_nat e). split; auto. rewrite Z.log2_pow2 by lia. lia.
Qed.
Lemma power_of_two_exponent n : is_power_of_two n = true -> exists p : nat, n = 2 ^ Z.of_nat p.
Proof.
  intros H. apply andb_true_iff in H as [H0 H]. apply Z.ltb_lt in H0. apply Z.eqb_eq in H.
  pose proof (Z.log2_spec n H0) as [S1 S2]. pose proof (Z.log2_nonneg n). exists (Z.to_nat (Z.log2 n)). rewrite Z2Nat.id by lia.
  destruct (Z.eq_dec n (2 ^ Z.log2 n)) as [|Ne]; auto. exfalso.
  assert (L : Z.log2 (n - 1) = Z.log2 n) by (apply Z.log2_unique; lia).
  assert (T : Z.testbit (Z.land n (n - 1)) (Z.log2 n) = true).
  { rewrite Z.land_spec, Z.bit_log2 by lia. rewrite <- L, Z.bit_log2; auto. assert (0 < 2 ^ Z.log2 n) by (apply Z.pow_pos_nonneg; lia). lia. }
  rewrite H, Z.bits_0 in T. discriminate.
Qed.
Lemma power_of_two_test p : 0 <= p -> is_power_of_two (2 ^ p) = true.
Proof.
  intros Hp. assert (0 < 2 ^ p) by (apply Z.pow_pos_nonneg; lia). unfold is_power_of_two. apply andb_true_iff. split; [apply Z.ltb_lt; auto|].
  apply Z.eqb_eq. replace (2 ^ p - 1) with (Z.ones p) by (rewrite Z.ones_equiv; lia). rewrite Z.land_ones by auto. apply Z_mod_same_full.
Qed.
Lemma default_order V : 0 < V <= 2 ^ 31 -> exists order, default_shift_order V = Some order /\ shift_order V order.
Proof.
  intros HV. unfold default_shift_order. replace (V =? 0) with false by (symmetry; apply Z.eqb_neq; lia). cbv zeta.
  set (b := Z.to_nat _).
  pose proof (Z.log2_spec V ltac:(lia)) as [S1 S2]. pose proof (Z.log2_nonneg V) as S0.
  assert (Hb : forall i, (i < b)%nat <-> 2 ^ Z.of_nat i < V).
  { intros i. unfold b. destruct (is_power_of_two V) eqn:P2.
    - apply power_of_two_exponent in P2 as (p & ->). rewrite Z.log2_pow2 by lia. rewrite <- (Z.pow_lt_mono_r_iff 2) by lia. lia.
    - split; intros H.
      + assert (2 ^ Z.of_nat i <= 2 ^ Z.log2 V) by (apply Z.pow_le_mono_r; lia).
        assert (2 ^ Z.log2 V <> V) by (intros X; rewrite <- X, power_of_two_test in P2; [discriminate|lia]). lia.
      + assert (2 ^ Z.of_nat i < 2 ^ Z.succ (Z.log2 V)) by lia. apply Z.pow_lt_mono_r_iff in H0; lia. }
  assert (B31 : (b <= 31)%nat).
  { destruct (le_lt_dec b 31); auto. apply Hb in l. change (Z.of_nat 31) with 31 in l. lia. }
  exists (map (fun i => 2 ^ Z.of_nat i) (seq 0 b)). split.
  - apply mapM_total. intros i Hi. apply in_seq in Hi. unfold shl1. replace (i <? 31)%nat with true by (symmetry; apply Nat.ltb_lt; lia). auto.
  - split.
    + apply FinFun.Injective_map_NoDup; [|apply seq_NoDup]. intros x y H. apply Z.pow_inj_r in H; lia.
    + intros r. rewrite in_map_iff. split.
      * intros (i & <- & Hi). apply in_seq in Hi. split; [apply Hb; lia|exists (Z.of_nat i); lia].
      * intros (Hr & e & He & ->). exists (Z.to_nat e). rewrite Z2Nat.id by lia. split; auto. apply in_seq. cbn.
        assert (Z.to_nat e < b)%nat; [|lia]. apply Hb. rewrite Z2Nat.id by lia. auto.
Qed.

(** ** The conflict graph *)
Lemma add_edges_spec es : forall g, ubuilt g -> (forall a b, In (a, b) es -> In a (uverts g) /\ In b (uverts g)) ->
  let g' := fold_left (fun g e => snd (u_add_edge (fst e) (snd e) g)) es g in
  ubuilt g' /\ uverts g' = uverts g /\ (forall u v, adjacent g u v -> adjacent g' u v) /\
  (forall a b, In (a, b) es -> adjacent g' a b /\ adjacent g' b a).
Proof.
  induction es as [|[a b] es IH]; intros g HB Hv; cbn [fold_left].
  - cbv zeta. split; [auto|]. split; [auto|]. split; [auto|]. intros a b [].
  - assert (Ev : uverts (snd (u_add_edge a b g)) = uverts g).
    { unfold u_add_edge. destruct (_ || _); auto. }
    destruct (IH (snd (u_add_edge a b g)) (ubuilt_edge a b g HB)) as (I1 & I2 & I3 & I4).
    { intros x y H. rewrite Ev. apply Hv. right; auto. }
    cbn [fst snd]. split; auto. split; [congruence|]. split.
    + intros u v H. apply I3. apply C41_edges; auto.
    + destruct (Hv a b (or_introl eq_refl)) as [Ha Hb]. intros x y [H|H]; [|auto]. inversion H; subst.
      split; apply I3; apply C41_edges; auto 6.
Qed.
Lemma add_vertices_spec {A} (f : A -> nat) l : forall g, ubuilt g ->
  let g' := fold_left (fun g x => u_add_vertex (f x) g) l g in
  ubuilt g' /\ forall v, In v (uverts g') <-> In v (uverts g) \/ In v (map f l).
Proof.
  induction l as [|x l IH]; intros g HB; cbn [fold_left map].
  - split; auto. cbn. tauto.
  - destruct (IH (u_add_vertex (f x) g) (ubuilt_vertex _ _ HB)) as [I1 I2]. split; auto. intros v. rewrite I2.
    cbn [u_add_vertex uverts In]. rewrite Graph_Proofs.set_insert_In. intuition.
Qed.

Section Network.
Variable E : Type.
Variables (zero one : E) (add mul : E -> E -> E).
Hypothesis Hmask : maskable zero one add mul.
Variables n k : nat.
Hypothesis Hk : (0 < k)%nat.
Notation N := (Z.of_nat n).
Notation K := (Z.of_nat k).
Notation V := (K * N).
Hypothesis HN : exists e, 0 <= e /\ N = 2 ^ e.
Variables (order : list Z) (m : mapping).
Hypothesis Ho : shift_order V order.
Hypothesis Hm : valid_mapping K N m.

Lemma n_pos : (0 < n)%nat.
Proof. destruct HN as (e & He & HE). assert (0 < 2 ^ e) by (apply Z.pow_pos_nonneg; lia). lia. Qed.
Notation keys := (source_shifts N V m).
Notation the_rounds := ((map (fun x : skey => (x, fst x)) keys, 0) :: rounds_from N K keys [] order).
Lemma evaluate_ok : evaluate N K order m = Some the_rounds.
Proof.
  unfold evaluate. destruct HN as (e & He & HE). rewrite HE at 1. rewrite power_of_two_test by auto. cbn [negb].
  cbv zeta. pose proof (evaluate_rounds_spec N K keys [] order) as H. unfold pos_after in H at 1. cbn [fold_left] in H. rewrite H. auto.
Qed.
Lemma source_vertex_inj a b : in_range N K a -> in_range N K b -> vertex N a = vertex N b -> a = b.
Proof.
  intros Ha Hb H. pose proof n_pos. apply (vidx_inj N K ltac:(lia)); auto. unfold vertex in H.
  pose proof (vidx_range N K ltac:(lia) ltac:(lia) a Ha). pose proof (vidx_range N K ltac:(lia) ltac:(lia) b Hb). lia.
Qed.
Lemma contains_In group s : contains N group s = true <-> In (vertex N s) group.
Proof.
  unfold contains. rewrite existsb_exists. split.
  - intros (x & Hx & Ex). apply Nat.eqb_eq in Ex as ->. auto.
  - intros H. exists (vertex N s). split; auto. apply Nat.eqb_refl.
Qed.
Lemma key_source x : In x keys -> exists t, In (t, fst x) m.
Proof. intros H. apply in_map_iff in H as ([t s] & <- & H). exists t. auto. Qed.

Notation G := (conflict_graph N m the_rounds).
Lemma conflict_graph_spec : ubuilt G /\
  (forall v, In v (uverts G) <-> exists t s, In (t, s) m /\ v = vertex N s) /\
  (forall a r b x y, order = a ++ r :: b -> In x keys -> In y keys -> fst x <> fst y ->
     pos_after N K (a ++ [r]) x = pos_after N K (a ++ [r]) y -> adjacent G (vertex N (fst x)) (vertex N (fst y))).
Proof.
  set (cs := conflicts the_rounds).
  destruct (add_vertices_spec (fun ts : ctslot * ctslot => vertex N (snd ts)) m empty_ugraph ubuilt_empty) as [B1 V1].
  set (g0 := fold_left _ m empty_ugraph) in *.
  assert (V1' : forall v, In v (uverts g0) <-> exists t s, In (t, s) m /\ v = vertex N s).
  { intros v. rewrite V1. cbn. rewrite in_map_iff. split.
    - intros [[]|([t s] & <- & H)]. exists t, s. auto.
    - intros (t & s & H & ->). right. exists (t, s). auto. }
  set (es := map (fun e : ctslot * ctslot => (vertex N (fst e), vertex N (snd e))) cs).
  assert (EG : G = fold_left (fun g e => snd (u_add_edge (fst e) (snd e) g)) es g0).
  { unfold conflict_graph. fold cs. fold g0. unfold es. generalize g0. clear. induction cs as [|c l IH]; intros g; cbn [fold_left map]; auto. }
  destruct (add_edges_spec es g0 B1) as (B2 & V2 & _ & A2).
  { intros a b H. apply in_map_iff in H as ([x y] & H & Hc). inversion H; subst. cbn [fst snd].
    apply conflicts_sub in Hc as (_ & Hx & Hy). apply in_map_iff in Hx as (kx & <- & Hx). apply in_map_iff in Hy as (ky & <- & Hy).
    destruct (key_source _ Hx) as (tx & Tx). destruct (key_source _ Hy) as (ty & Ty). split; apply V1'; eauto. }
  rewrite <- EG in B2, V2, A2. split; auto. split; [intros v; rewrite V2; auto|].
  intros a r b x y Eo Hx Hy Hne Hp.
  destruct (conflicts_In N K keys order a r b x y (map (fun x : skey => (x, fst x)) keys, 0) Eo Hx Hy Hne Hp) as [H|H]; fold cs in H;
    apply (in_map (fun e : ctslot * ctslot => (vertex N (fst e), vertex N (snd e)))) in H; fold es in H; apply A2 in H; apply H.
Qed.

Lemma add_to_group_spec gs v c : let gs' := add_to_group gs (v, c) in (c < length gs')%nat /\ (length gs <= length gs')%nat /\
  forall g w, In w (nth g gs' []) <-> In w (nth g gs []) \/ (w = v /\ g = c).
Proof.
  unfold add_to_group. set (gs1 := if (length gs <=? c)%nat then _ else gs). cbv zeta. rewrite set_nth_length.
  assert (L : (c < length gs1)%nat /\ (length gs <= length gs1)%nat /\ forall g, nth g gs1 [] = nth g gs []).
  { unfold gs1. destruct (Nat.leb_spec (length gs) c).
    - rewrite app_length, repeat_length. split; [lia|split; [lia|]]. intros g. destruct (le_lt_dec (length gs) g) as [L|L].
      + rewrite app_nth2 by auto. rewrite nth_repeat. symmetry. apply nth_overflow; auto.
      + apply app_nth1; auto.
    - auto. }
  destruct L as (L1 & L2 & L3). split; auto. split; auto. intros g w. destruct (Nat.eq_dec g c) as [->|Ne].
  - rewrite nth_set_nth_eq by auto. rewrite <- L3. cbn. intuition.
  - rewrite nth_set_nth_neq by auto. rewrite L3. intuition congruence.
Qed.
Lemma rotation_groups_spec coloring : (forall v c, In (v, c) coloring -> (c < length (rotation_groups coloring))%nat) /\
  (forall g v, In v (nth g (rotation_groups coloring) []) <-> In (v, g) coloring).
Proof.
  unfold rotation_groups. induction coloring as [|[v c] l IH] using rev_ind.
  - split; [intros v c []|]. intros [|g] v; cbn; tauto.
  - rewrite fold_left_app. cbn [fold_left]. destruct IH as [I1 I2].
    destruct (add_to_group_spec (fold_left add_to_group l []) v c) as (A1 & A2 & A3). split.
    + intros w d H. apply in_app_or in H as [H|[H|[]]]; [apply I1 in H; lia|]. inversion H; subst. auto.
    + intros g w. rewrite A3, I2, in_app_iff. cbn. split; intros [H|H]; auto; [destruct H; subst; auto|destruct H as [H|[]]; inversion H; auto].
Qed.

(** for any proper colouring of the conflict graph *)
Lemma network_realises cts coloring : ciphertexts K N cts ->
  NoDup (map fst coloring) ->
  (forall v, In v (map fst coloring) <-> In v (uverts G)) ->
  (forall u v c, In (u, c) coloring -> In (v, c) coloring -> adjacent G u v -> u = v) ->
  exists out, implement_shift_network E zero one add mul N cts m the_rounds (rotation_groups coloring) = Some out /\
    realises zero K N m cts out.
Proof.
  intros Hc NdC Hv Hp. apply ciphertexts_shape in Hc. pose proof n_pos as Hn. destruct Hm as (Hne & NdT & Hr).
  destruct (order_exponents V order ltac:(nia) Ho) as (es & Eo & NdE & Hlt & Hall).
  destruct HN as (e2 & He2 & HE). destruct conflict_graph_spec as (GB & GV & GA). destruct (rotation_groups_spec coloring) as [R1 R2].
  assert (Uniq : forall v c d, In (v, c) coloring -> In (v, d) coloring -> c = d).
  { clear -NdC. induction coloring as [|[a b] l IH]; intros v c d H1 H2; [destruct H1|]. cbn in NdC. inversion NdC as [|? ? Hn Nd]; subst.
    destruct H1 as [H1|H1], H2 as [H2|H2]; try (inversion H1; subst); try (inversion H2; subst); auto.
    - exfalso. apply Hn. apply in_map_iff. exists (v, d). auto.
    - exfalso. apply Hn. apply in_map_iff. exists (v, c). auto.
    - eauto. }
  assert (Col : forall t s, In (t, s) m -> exists c, In (vertex N s, c) coloring).
  { intros t s H. assert (X : In (vertex N s) (map fst coloring)) by (apply Hv, GV; eauto). apply in_map_iff in X as ([v c] & <- & X). exists c. auto. }
  destruct (network_ok E zero one add mul ltac:(apply Hmask) ltac:(apply Hmask) ltac:(apply Hmask) ltac:(apply Hmask) n k Hn Hk (Z.to_nat e2)
    ltac:(rewrite Z2Nat.id; auto) es (Z.to_nat (Z.log2_up V)) m NdE Hlt Hall) with (input := cts) (groups := rotation_groups coloring)
    as (out & E1 & S1 & O1 & O2); auto.
  - rewrite Z2Nat.id by apply Z.log2_up_nonneg. destruct (Z_le_gt_dec V 1).
    + rewrite Z.log2_up_eqn0 by lia. cbn. lia.
    + apply Z.log2_up_spec. lia.
  - assert (Ex : exists ts, In ts m).
    { clear -Hne. revert Hne. generalize m. intros [|ts r] X; [destruct (X eq_refl)|exists ts; left; auto]. }
    destruct Ex as ([t s] & Hts). destruct (Col t s Hts) as (c & Hcc). apply R1 in Hcc. intros X. rewrite X in Hcc. cbn in Hcc. lia.
  - intros a e b Ee g x y Hg Hx Hy Cx Cy Pe. apply contains_In, R2 in Cx. apply contains_In, R2 in Cy.
    destruct (key_source x Hx) as (tx & Tx). destruct (key_source y Hy) as (ty & Ty).
    destruct (slot_eqb (fst x) (fst y)) eqn:Es; [apply slot_eqb_eq; auto|]. apply slot_eqb_neq in Es.
    assert (A : adjacent G (vertex N (fst x)) (vertex N (fst y))).
    { apply (GA (pows a) (2 ^ Z.of_nat e) (pows b)); auto; [rewrite Eo, Ee; unfold pows; rewrite map_app; auto|].
      rewrite pows_app in Pe. exact Pe. }
    apply source_vertex_inj; [apply (Hr tx); auto|apply (Hr ty); auto|]. eapply Hp; eauto.
  - intros t s H. destruct (Col t s H) as (c & Hcc). exists c. split; [eauto|]. split; [apply contains_In, R2; auto|].
    intros g Hg. apply contains_In, R2 in Hg. eauto.
  - exists out. rewrite Eo. split; auto. split; [apply ciphertexts_shape; auto|]. split.
    + intros t s H. destruct (Hr t s H). rewrite (slot_value_get zero n k out), (slot_value_get zero n k cts); auto. f_equal. auto.
    + intros p Hpv Hno. rewrite (slot_value_get zero n k out); auto. f_equal. auto.
Qed.
End Network.

(** ** C34 *)
(** Any number of ciphertexts, any order of the rotations, any proper colouring
    of the conflict graph. *)
Theorem C34_any_coloring (E : Type) (zero one : E) add mul K N cts order m rounds coloring :
  maskable zero one add mul -> 0 < K -> (exists e, 0 <= e /\ N = 2 ^ e) ->
  ciphertexts K N cts -> shift_order (K * N) order -> valid_mapping K N m ->
  evaluate N K order m = Some rounds ->
  let g := conflict_graph N m rounds in
  NoDup (map fst coloring) -> (forall v, In v (map fst coloring) <-> In v (uverts g)) ->
  (forall u v c, In (u, c) coloring -> In (v, c) coloring -> adjacent g u v -> u = v) ->
  exists out, implement_shift_network E zero one add mul N cts m rounds (rotation_groups coloring) = Some out /\
    realises zero K N m cts out.
Proof.
  intros Hm HK HN Hc Ho Hv He g. assert (0 <= N) by (destruct HN as (e & ? & ->); apply Z.pow_nonneg; lia).
  destruct (Z_of_nat_complete K ltac:(lia)) as (k & ->). destruct (Z_of_nat_complete N ltac:(lia)) as (n & ->).
  rewrite (evaluate_ok n k HN) in He. inversion He; subst rounds.
  apply network_realises; auto. lia.
Qed.
Print Assumptions C34_any_coloring.

(** The whole pass, with the greedy colouring; [[]] is the default order, whose
    shifts are computed in 32 bits. *)
Theorem C34_remap (E : Type) (zero one : E) add mul K N cts order m :
  maskable zero one add mul -> 0 < K -> (exists e, 0 <= e /\ N = 2 ^ e) ->
  ciphertexts K N cts -> shift_order (K * N) order \/ (order = [] /\ K * N <= 2 ^ 31) -> valid_mapping K N m ->
  exists out, remap E zero one add mul N order m cts = Some out /\ realises zero K N m cts out.
Proof.
  intros Hm HK HN Hc Ho Hv. assert (HN0 : 0 < N) by (destruct HN as (e & ? & ->); apply Z.pow_pos_nonneg; lia).
  assert (Go : exists order', match order with [] => default_shift_order (K * N) | _ => Some order end = Some order' /\ shift_order (K * N) order').
  { destruct Ho as [Ho|[-> Ho]].
    - destruct order as [|r l]; [|exists (r :: l); auto]. apply default_order. split; [nia|].
      destruct (Z_le_gt_dec (K * N) (2 ^ 31)); auto. exfalso. apply (proj2 Ho 1). split; [lia|]. exists 0. lia.
    - apply default_order. split; [nia|auto]. }
  destruct Go as (order' & Eo & Ho'). clear Ho. unfold remap. rewrite (proj1 Hc), Eo.
  destruct (Z_of_nat_complete K ltac:(lia)) as (k & ->). destruct (Z_of_nat_complete N ltac:(lia)) as (n & ->).
  assert (Hk : (0 < k)%nat) by lia.
  rewrite (evaluate_ok n k HN order' m).
  set (g := conflict_graph _ _ _). destruct (conflict_graph_spec n k order' m) as (GB & _ & _). fold g in GB.
  destruct (C41_coloring g GB) as (cs & -> & Cv & Cp & _).
  apply network_realises; auto; fold g.
  - assert (Nd : NoDup (uverts g)) by (apply Graph_Proofs.sorted_nodup, (Graph4_Proofs.uw_verts g (ubuilt_uwf g GB))).
    clear -Nd. induction Nd as [|v l Hv Nd IH]; cbn [flat_map map]; [constructor|]. destruct (cs v); cbn [map app fst]; auto.
    constructor; auto. intros H. apply Hv. apply in_map_iff in H as ([u c] & <- & H). apply in_flat_map in H as (w & Hw & H).
    destruct (cs w); [|destruct H]. destruct H as [H|[]]. inversion H; subst. auto.
  - intros v. split.
    + intros H. apply in_map_iff in H as ([u c] & <- & H). apply in_flat_map in H as (w & Hw & H). destruct (cs w); [|destruct H].
      destruct H as [H|[]]. inversion H; subst; auto.
    + intros H. destruct (cs v) as [c|] eqn:Ec; [|apply Cv in H; congruence]. apply in_map_iff. exists (v, c). split; auto.
      apply in_flat_map. exists v. split; auto. rewrite Ec. left; auto.
  - intros u v c Hu Hw Ha. destruct (Nat.eq_dec u v); auto. exfalso. apply (Cp u v Ha); auto.
    apply in_flat_map in Hu as (x & Hx & Hu). apply in_flat_map in Hw as (y & Hy & Hw).
    destruct (cs x) eqn:Ex; [|destruct Hu]. destruct (cs y) eqn:Ey; [|destruct Hw].
    destruct Hu as [Hu|[]]. destruct Hw as [Hw|[]]. inversion Hu; inversion Hw; subst. congruence.
Qed.
Print Assumptions C34_remap.

(** From the (source, target) pairs of the layout: each target gets the value
    of its nearest source. *)
Definition distance (N : Z) (a b : Z * Z) : Z := Z.abs (fst a - fst b) * N + Z.abs (snd a - snd b).
Lemma mapping_add_spec N source target m : NoDup (map fst m) ->
  let m' := mapping_add N source target m in
  NoDup (map fst m') /\ (forall t, In t (map fst m') <-> In t (map fst m) \/ t = target) /\
  (forall t s, In (t, s) m' -> (In (t, s) m /\ (t = target -> distance N target s <= distance N target source)) \/
     (t = target /\ s = source /\ forall s', In (t, s') m -> distance N target source <= distance N target s')).
Proof.
  intros Nd. induction m as [|[t s] r IH]; cbn [mapping_add].
  - cbn. split; [repeat constructor; auto|]. split; [intuition|]. intros t s [H|[]]. inversion H; subst. right. split; auto. split; auto. intros s' [].
  - cbn [map fst] in Nd. inversion Nd as [|? ? Hn Nr]; subst. destruct (slot_eqb t target) eqn:Et.
    + apply slot_eqb_eq in Et as <-. change (virtual_distance N) with (distance N).
      assert (No : forall s', In (t, s') r -> False) by (intros s' H; apply Hn; apply in_map_iff; exists (t, s'); auto).
      destruct (Z.ltb_spec (distance N t source) (distance N t s)) as [L|L]; cbn [map fst In].
      * split; [constructor; auto|]. split; [intuition|]. intros t' s' [H|H].
        -- inversion H; subst. right. split; auto. split; auto. intros s2 [H2|H2]; [inversion H2; subst; lia|destruct (No _ H2)].
        -- left. split; auto. intros ->. destruct (No _ H).
      * split; [constructor; auto|]. split; [intuition|]. intros t' s' [H|H].
        -- inversion H; subst. left. split; auto.
        -- left. split; auto. intros ->. destruct (No _ H).
    + apply slot_eqb_neq in Et. destruct (IH Nr) as (A & B & C). cbn [map fst In]. split; [|split].
      * constructor; auto. rewrite B. intros [H|H]; auto.
      * intros x. rewrite B. intuition.
      * intros t' s' [H|H]; [inversion H; subst; left; split; auto; intros; congruence|]. destruct (C t' s' H) as [[C1 C2]|(-> & -> & C3)].
        -- left. auto.
        -- right. split; auto. split; auto. intros s2 [H2|H2]; [inversion H2; congruence|auto].
Qed.
Lemma populate_spec N points : let m := populate_mapping N points in
  NoDup (map fst m) /\ (forall t, In t (map fst m) <-> exists s, In (s, t) points) /\
  (forall t s, In (t, s) m -> In (s, t) points /\ forall s', In (s', t) points -> distance N t s <= distance N t s').
Proof.
  unfold populate_mapping. induction points as [|[a b] l IH] using rev_ind.
  - cbn. split; [constructor|]. split; [|intros t s []]. intros t. split; [intros []|intros (s & [])].
  - rewrite fold_left_app. cbn [fold_left fst snd]. destruct IH as (A & B & C). destruct (mapping_add_spec N a b _ A) as (D & F & G).
    split; auto. split.
    + intros t. rewrite F, B. split.
      * intros [(s & H)| ->]; [exists s|exists a]; apply in_or_app; auto. right; left; auto.
      * intros (s & H). apply in_app_or in H as [H|[H|[]]]; eauto. inversion H; auto.
    + intros t s H. destruct (G t s H) as [[G1 G2]|(-> & -> & G3)].
      * destruct (C t s G1) as [C1 C2]. split; [apply in_or_app; auto|]. intros s' Hs. apply in_app_or in Hs as [Hs|[Hs|[]]]; auto.
        inversion Hs; subst. auto.
      * split; [apply in_or_app; right; left; auto|]. intros s' Hs. apply in_app_or in Hs as [Hs|[Hs|[]]]; [|inversion Hs; subst; lia].
        assert (Ib : In b (map fst (fold_left (fun m p => mapping_add N (fst p) (snd p) m) l []))) by (apply B; eauto).
        apply in_map_iff in Ib as ([b' s2] & Eb & Ib). cbn in Eb. subst b'. pose proof (G3 s2 Ib). destruct (C b s2 Ib) as [_ C2]. specialize (C2 s' Hs). lia.
Qed.
Theorem C34_layout (E : Type) (zero one : E) add mul K N cts points m :
  maskable zero one add mul -> 0 < K -> (exists e, 0 <= e /\ N = 2 ^ e) -> K * N <= 2 ^ 31 ->
  ciphertexts K N cts -> points <> [] ->
  (forall s t, In (s, t) points -> valid_slot K N s /\ valid_slot K N t) ->
  Permutation m (populate_mapping N points) ->
  exists out, remap E zero one add mul N [] m cts = Some out /\ ciphertexts K N out /\
    (forall s t, In (s, t) points -> exists s', In (s', t) points /\ slot_value out t = slot_value cts s' /\ distance N t s' <= distance N t s) /\
    (forall p, valid_slot K N p -> (forall s, ~ In (s, p) points) -> slot_value out p = Some zero).
Proof.
  intros Hm HK HN HV Hc Hne Hp Pm. destruct (populate_spec N points) as (A & B & C).
  assert (In_m : forall x, In x m <-> In x (populate_mapping N points)).
  { intros x. split; apply Permutation_in; auto. apply Permutation_sym; auto. }
  assert (Hv : valid_mapping K N m).
  { split; [|split].
    - intros ->. destruct points as [|[s t] r]; [congruence|]. apply Permutation_nil in Pm.
      assert (X : In t (map fst (populate_mapping N ((s, t) :: r)))) by (apply B; exists s; left; auto). rewrite Pm in X. destruct X.
    - eapply Permutation_NoDup; [apply Permutation_map, Permutation_sym, Pm|auto].
    - intros t s H. apply In_m in H. apply C in H as [H _]. apply Hp in H. tauto. }
  destruct (C34_remap E zero one add mul K N cts [] m Hm HK HN Hc ltac:(right; auto) Hv) as (out & E1 & O1 & O2 & O3).
  exists out. split; auto. split; auto. split.
  - intros s t H. assert (X : In t (map fst (populate_mapping N points))) by (apply B; eauto).
    apply in_map_iff in X as ([t' s'] & <- & X). cbn [fst] in *. exists s'. destruct (C t' s' X) as [C1 C2]. split; auto. split; [|auto].
    apply O2. apply In_m. auto.
  - intros p Hpv Hno. apply O3; auto. intros X. apply in_map_iff in X as ([t s] & <- & X). apply In_m in X. apply C in X as [X _]. apply (Hno s X).
Qed.
Print Assumptions C34_layout.

(** three ciphertexts of four slots: two sources collide, one source has two
    targets, one target two sources *)
Definition ex_points : list ((Z * Z) * (Z * Z)) :=
  [((0,0),(2,3)); ((0,1),(0,0)); ((1,2),(0,1)); ((2,0),(1,1)); ((1,2),(2,2)); ((0,3),(1,1)); ((2,3),(1,0)); ((1,0),(1,3))].
Definition ex_cts : list (list Z) := [[10; 11; 12; 13]; [20; 21; 22; 23]; [30; 31; 32; 33]].
Example C34_nonvacuous :
  maskable 0 1 Z.add Z.mul /\ ciphertexts 3 4 ex_cts /\ (exists e, 0 <= e /\ 4 = 2 ^ e) /\
  (forall s t, In (s, t) ex_points -> valid_slot 3 4 s /\ valid_slot 3 4 t) /\
  shift_order (3 * 4) [4; 1; 8; 2] /\
  remap Z 0 1 Z.add Z.mul 4 [] (populate_mapping 4 ex_points) ex_cts = Some [[11; 22; 0; 0]; [33; 30; 0; 20]; [0; 0; 22; 10]] /\
  remap Z 0 1 Z.add Z.mul 4 [4; 1; 8; 2] (rev (populate_mapping 4 ex_points)) ex_cts = Some [[11; 22; 0; 0]; [33; 30; 0; 20]; [0; 0; 22; 10]] /\
  option_map (fun rs => length (conflicts rs)) (evaluate 4 3 [1; 2; 4; 8] (populate_mapping 4 ex_points)) = Some 1%nat.
Proof.
  split; [intros x; repeat split; lia|]. split.
  { split; [reflexivity|]. intros ct H. repeat (destruct H as [<-|H]; [reflexivity|]). destruct H. }
  split; [exists 2; split; [lia|reflexivity]|]. split.
  { intros s t H. unfold valid_slot. repeat (destruct H as [H|H]; [inversion H; subst; cbn; lia|]). destruct H. }
  split.
  { split; [repeat constructor; cbn; intuition lia|]. intros r. split.
    - intros H. repeat (destruct H as [<-|H]; [split; [lia|]; first [exists 0; split; [lia|reflexivity]|exists 1; split; [lia|reflexivity]|exists 2; split; [lia|reflexivity]|exists 3; split; [lia|reflexivity]]|]). destruct H.
    - intros (Hr & e & He & ->). assert (He4 : e < 4). { apply (Z.pow_lt_mono_r_iff 2); try lia. }
      assert (e = 0 \/ e = 1 \/ e = 2 \/ e = 3) as [->|[->|[->| ->]]] by lia; cbn; auto. }
  split; [vm_compute; reflexivity|]. split; vm_compute; reflexivity.
Qed.
