(** C83: the vectorizers keep the meaning of a block *)
From Coq Require Import Arith Bool List NArith Permutation Relations Lia.
From Verif Require Import Lut_Spec Vectorize_Spec Graph_Model Vectorize_Model Vectorize_Proofs.
Import ListNotations.

(** ** The compatibility tests *)
Lemma batch_head o o' : same_head o o' -> batchable o' = batchable o.
Proof. intros (_ & H & _). unfold batchable. now rewrite H. Qed.
Lemma batch_compatible_head k k' o o' : same_head k k' -> same_head o o' -> batch_compatible k' o' = batch_compatible k o.
Proof. intros (_ & H1 & H2 & H3 & _) (_ & G1 & G2 & G3 & _). unfold batch_compatible. now rewrite H1, H2, H3, G1, G2, G3. Qed.
Ltac kinds := repeat match goal with
  | |- context [match kind ?o with _ => _ end] => destruct (kind o) as [[]| | |]; try discriminate
  | |- context [andb _ _] => rewrite andb_true_iff
  | |- context [_ =? _] => rewrite Nat.eqb_eq
  end.
Lemma batch_sym a b : batch_compatible a b = true -> batch_compatible b a = true.
Proof. unfold batch_compatible. kinds; intuition. Qed.
Lemma batch_trans a b c : batch_compatible a b = true -> batch_compatible b c = true -> batch_compatible a c = true.
Proof. unfold batch_compatible. kinds; intuition congruence. Qed.
Lemma batch_lanes_ok k l : batchable k = true -> (forall o, In o l -> batch_compatible k o = true \/ same_head k o) ->
  exists ks, batch_lanes k l = Some ks /\ Forall2 (fun o s => kind o = Scalar s) l ks.
Proof.
  unfold batchable, batch_lanes. intros C H.
  assert (K : forall o, In o l -> match kind k, kind o with
     | Scalar (Gate _), Scalar (Gate _) | Scalar Not, Scalar Not | Scalar (Lut3 _), Scalar (Lut3 _) => True | _, _ => False end).
  { intros o Ho. destruct (H o Ho) as [Q|(_ & Q & _)].
    - unfold batch_compatible in Q. destruct (kind k) as [[]| | |]; destruct (kind o) as [[]| | |]; try discriminate; auto.
    - rewrite Q. destruct (kind k) as [[]| | |]; try discriminate; auto. }
  clear H. destruct (kind k) as [[g| |t|f a]| | |]; try discriminate.
  - induction l as [|o l IH]; [exists []; simpl; auto|]. destruct IH as (ks & E & F); [intros; apply K; simpl; auto|].
    specialize (K o (or_introl eq_refl)). simpl. destruct (kind o) as [[h| | |]| | |] eqn:Eo; try (destruct K). rewrite E. exists (Gate h :: ks). auto.
  - exists (map (fun _ => Not) l). split; auto. induction l as [|o l IH]; simpl; constructor.
    + specialize (K o (or_introl eq_refl)). destruct (kind o) as [[h| | |]| | |] eqn:Eo; destruct K; auto.
    + apply IH. intros; apply K; simpl; auto.
  - induction l as [|o l IH]; [exists []; simpl; auto|]. destruct IH as (ks & E & F); [intros; apply K; simpl; auto|].
    specialize (K o (or_introl eq_refl)). simpl. destruct (kind o) as [[| |u|]| | |] eqn:Eo; try (destruct K). rewrite E. exists (Lut3 u :: ks). auto.
Qed.

Lemma same_op_eq k l : same_op k l = true <-> k = l.
Proof.
  split.
  - destruct k as [[]| | |], l as [[]| | |]; simpl; try discriminate; auto.
    + intros H. apply N.eqb_eq in H. congruence.
    + intros H. apply andb_true_iff in H as [H1 H2]. apply Nat.eqb_eq in H1, H2. congruence.
  - intros <-. destruct k as [[]| | |]; simpl; auto using N.eqb_refl. now rewrite !Nat.eqb_refl.
Qed.
Lemma are_compatible_iff m a b : are_compatible m a b = true <->
  exists k, kind a = Scalar k /\ kind b = Scalar k /\ typ a = typ b /\ disc a = disc b /\ m k = true.
Proof.
  unfold are_compatible. split.
  - destruct (kind a) as [k| | |], (kind b) as [k'| | |]; try discriminate. rewrite !andb_true_iff, same_op_eq, !Nat.eqb_eq.
    intros [[[<- H1] H2] H3]. exists k. auto.
  - intros (k & -> & -> & H1 & H2 & H3). rewrite !andb_true_iff, same_op_eq, !Nat.eqb_eq. auto.
Qed.

(** ** The claims *)
(** a block in SSA form, whose values and those of its arguments [I] are numbered below [nx], and that returns [rs] *)
Definition block (I : list nat) (P : list op) (rs : list nat) (nx : nat) : Prop :=
  ssa I P /\ (forall i, In i I -> i < nx) /\ (forall o, In o P -> rid o < nx) /\ (forall r, In r rs -> In r I \/ In r (map rid P)).
(** gates have two operands, negations one, lookup tables three *)
Definition arities (P : list op) : Prop :=
  forall o k n, In o P -> kind o = Scalar k -> arity k = Some n -> length (args o) = n.
(** the result can be put into SSA order, and in every SSA order it computes the same returned values *)
Definition same_meaning {X} (sem : scalar_op -> list (value X) -> option (value X)) I P rs (st : state) : Prop :=
  (exists Q, Permutation (ops st) Q /\ ssa I Q) /\
  forall e0 e, run sem P e0 = Some e -> forall Q, Permutation (ops st) Q -> ssa I Q ->
    exists e', run sem Q e0 = Some e' /\ map e' (rets st) = map e rs.

Lemma arities_compatible P k o : arities P -> In k P -> In o P -> batch_compatible k o = true -> length (args o) = length (args k).
Proof.
  intros HA Hk Ho C. unfold batch_compatible in C. destruct (kind k) as [k'| | |] eqn:Ek; try discriminate.
  destruct (kind o) as [o'| | |] eqn:Eo; try (destruct k'; discriminate).
  destruct k', o'; try discriminate; (rewrite (HA o _ _ Ho Eo eq_refl), (HA k _ _ Hk Ek eq_refl); reflexivity).
Qed.
(** some run exists: with one value and operations that always succeed *)
Lemma trivial_run known P : ssa known P -> (forall o, In o P -> exists k, kind o = Scalar k) ->
  forall e : nat -> option (value unit), (forall x, In x known -> e x <> None) -> exists e', run (fun _ _ => Some (Single tt)) P e = Some e'.
Proof.
  revert known. induction P as [|o P IH]; simpl; intros known HS HK e He; eauto. destruct HS as (H1 & H2 & H3).
  destruct (all_some_exists (map e (args o))) as [vs ->].
  { intros x Hx. apply in_map_iff in Hx as (a & <- & Ha). specialize (He a (H1 a Ha)). destruct (e a); [eauto|congruence]. }
  destruct (HK o) as [k ->]; auto. simpl. apply (IH (rid o :: known)); auto.
  intros x [<-|Hx]; unfold set; [now rewrite Nat.eqb_refl|]. destruct (x =? rid o); [congruence|auto].
Qed.

Theorem C83_boolean {X} (sem : scalar_op -> list (value X) -> option (value X)) I P rs nx par :
  block I P rs nx -> arities P -> (forall o, In o P -> exists k, kind o = Scalar k) ->
  exists st, boolean_vectorize par {| ops := P; rets := rs; next := nx |} = Some st /\ same_meaning sem I P rs st.
Proof.
  intros (H1 & H2 & H3 & H4) HA HK.
  pose proof (fun Y s e0 e => vectorize_ok (X := Y) s batchable batch_compatible batch_lanes batch_head batch_compatible_head batch_sym batch_trans batch_lanes_ok
     I par P rs nx e0 e H1 H2 H3 H4 (fun k o Hk Ho _ _ C => arities_compatible P k o HA Hk Ho C)) as V.
  destruct (trivial_run I P H1 HK (fun _ => Some (Single tt))) as [e HR]; [discriminate|].
  destruct (V _ _ _ _ HR) as (st & E & S & _). exists st. split; [exact E|]. split; [exact S|].
  intros e0 e' HR' Q PQ SQ. destruct (V _ _ _ _ HR') as (st' & E' & _ & M & _). unfold boolean_vectorize in E. rewrite E in E'. injection E' as <-. now apply M.
Qed.
Theorem C83_straight {X} (sem : scalar_op -> list (value X) -> option (value X)) elementwise mappable I P rs nx :
  block I P rs nx -> (forall o p k, In o P -> In p P -> kind o = Scalar k -> kind p = Scalar k -> length (args o) = length (args p)) ->
  (forall o, In o P -> exists k, kind o = Scalar k) ->
  exists st, straight_vectorize elementwise mappable {| ops := P; rets := rs; next := nx |} = Some st /\ same_meaning sem I P rs st.
Proof.
  intros (H1 & H2 & H3 & H4) HA HK.
  assert (Q1 : forall o o', same_head o o' -> straight_candidate elementwise o' = straight_candidate elementwise o).
  { intros o o' (_ & E & _). unfold straight_candidate. now rewrite E. }
  assert (Q2 : forall k k' o o', same_head k k' -> same_head o o' -> are_compatible mappable k' o' = are_compatible mappable k o).
  { intros k k' o o' (_ & E1 & E2 & E3 & _) (_ & G1 & G2 & G3 & _). unfold are_compatible. now rewrite E1, E2, E3, G1, G2, G3. }
  assert (Q3 : forall a b, are_compatible mappable a b = true -> are_compatible mappable b a = true).
  { intros a b. rewrite !are_compatible_iff. intros (k & E1 & E2 & E3 & E4 & E5). exists k. auto. }
  assert (Q4 : forall a b c, are_compatible mappable a b = true -> are_compatible mappable b c = true -> are_compatible mappable a c = true).
  { intros a b c. rewrite !are_compatible_iff. intros (k & E1 & E2 & E3 & E4 & E5) (k' & G1 & G2 & G3 & G4 & G5). exists k. repeat split; congruence. }
  assert (Q5 : forall k l, straight_candidate elementwise k = true -> (forall o, In o l -> are_compatible mappable k o = true \/ same_head k o) ->
    exists ks, straight_lanes k l = Some ks /\ Forall2 (fun o s => kind o = Scalar s) l ks).
  { intros k l C H. unfold straight_candidate in C. unfold straight_lanes. destruct (kind k) as [s| | |] eqn:Ek; try discriminate.
    exists (map (fun _ => s) l). split; auto. induction l as [|o l IH]; simpl; constructor; [|apply IH; intros; apply H; simpl; auto].
    destruct (H o (or_introl eq_refl)) as [E|(_ & E & _)]; [|congruence]. apply are_compatible_iff in E as (k' & E1 & E2 & _). congruence. }
  assert (Q6 : forall k o, In k P -> In o P -> straight_candidate elementwise k = true -> straight_candidate elementwise o = true ->
     are_compatible mappable k o = true -> length (args o) = length (args k)).
  { intros k o Hk Ho _ _ C. apply are_compatible_iff in C as (s & E1 & E2 & _). eauto. }
  pose proof (fun Y s e0 e => vectorize_ok (X := Y) s _ _ _ Q1 Q2 Q3 Q4 Q5 I 0 P rs nx e0 e H1 H2 H3 H4 Q6) as V.
  destruct (trivial_run I P H1 HK (fun _ => Some (Single tt))) as [e HR]; [discriminate|].
  destruct (V _ _ _ _ HR) as (st & E & S & _). exists st. split; [exact E|]. split; [exact S|].
  intros e0 e' HR' Q PQ SQ. destruct (V _ _ _ _ HR') as (st' & E' & _ & M & _). unfold straight_vectorize in E. rewrite E in E'. injection E' as <-. now apply M.
Qed.
(** no vector operation is wider than asked for; and two different operations that can be batched together, on which no
    further gate or table depends, do not stay *)
Theorem C83_packs I P rs nx par st : block I P rs nx -> arities P -> (forall o, In o P -> exists k, kind o = Scalar k) ->
  boolean_vectorize par {| ops := P; rets := rs; next := nx |} = Some st ->
  (par <> 0 -> forall o ks, In o (ops st) -> kind o = Lanes ks -> 1 <= length ks <= par) /\
  (forall k o, In k P -> In o P -> rid k <> rid o ->
     (exists g h, kind k = Scalar (Gate g) /\ kind o = Scalar (Gate h) /\ typ k = typ o /\ disc k = disc o) \/
     (kind k = Scalar Not /\ kind o = Scalar Not /\ typ k = typ o /\ disc k = disc o) \/
     (exists t u, kind k = Scalar (Lut3 t) /\ kind o = Scalar (Lut3 u)) ->
     (forall q s, In q P -> kind q = Scalar s -> arity s <> None -> ~ depends P (rid q) (rid k) /\ ~ depends P (rid q) (rid o)) ->
     ~ In (rid k) (map rid (ops st)) /\ ~ In (rid o) (map rid (ops st))).
Proof.
  intros (H1 & H2 & H3 & H4) HA HK HB.
  destruct (trivial_run I P H1 HK (fun _ => Some (Single tt))) as [e HR]; [discriminate|].
  destruct (vectorize_ok _ batchable batch_compatible batch_lanes batch_head batch_compatible_head batch_sym batch_trans batch_lanes_ok
     I par P rs nx _ e H1 H2 H3 H4 (fun k o Hk Ho _ _ C => arities_compatible P k o HA Hk Ho C) HR) as (st' & E & _ & _ & W & D).
  unfold boolean_vectorize in HB. rewrite HB in E. injection E as <-. split.
  - intros Hp o ks Ho Ek. destruct (W o ks Ho Ek) as [[Q [R|R]]|(p & ks' & Hp' & Ep & _)]; [congruence|lia|].
    destruct (HK p Hp') as [k Ek']. congruence.
  - intros k o Hk Ho NE HC HD.
    assert (C : batch_compatible k o = true /\ batchable k = true /\ batchable o = true).
    { unfold batch_compatible, batchable. destruct HC as [(g & h & -> & -> & -> & ->)|[(-> & -> & -> & ->)|(t & u & -> & ->)]]; rewrite ?Nat.eqb_refl; auto. }
    destruct C as (C1 & C2 & C3). apply D; auto. intros q Hq Cq. unfold batchable in Cq. destruct (kind q) as [s| | |] eqn:Eq; try discriminate.
    apply (HD q s); auto. destruct s; discriminate.
Qed.
Print Assumptions C83_boolean.
Print Assumptions C83_straight.
Print Assumptions C83_packs.

(** *** A block with two levels of gates and an operation in between *)
Definition ex_block : list op :=
  [ {| rid := 10; kind := Scalar (Gate AND); args := [0; 1]; typ := 0; disc := 0 |};
    {| rid := 11; kind := Scalar (Gate XOR); args := [1; 2]; typ := 0; disc := 0 |};
    {| rid := 12; kind := Scalar (Other 7 0); args := [10]; typ := 0; disc := 0 |};
    {| rid := 13; kind := Scalar (Gate OR); args := [2; 0]; typ := 0; disc := 0 |};
    {| rid := 14; kind := Scalar (Gate NAND); args := [12; 11]; typ := 0; disc := 0 |};
    {| rid := 15; kind := Scalar (Gate NOR); args := [13; 10]; typ := 0; disc := 0 |} ].
Definition ex_sem (k : scalar_op) (vs : list (value bool)) : option (value bool) :=
  match k, vs with
  | Gate g, [Single a; Single b] => Some (Single (gate_bit g a b))
  | Not, [Single a] => Some (Single (negb a))
  | Lut3 t, [Single c; Single b; Single a] => Some (Single (truth_table t [c; b; a]))
  | Other _ _, [Single a] => Some (Single (negb a))
  | _, _ => None
  end.
Definition ex_env (i : nat) : option (value bool) :=
  match i with 0 => Some (Single true) | 1 => Some (Single true) | 2 => Some (Single false) | _ => None end.
Example C83_nonvacuous : block [0; 1; 2] ex_block [14; 15] 16 /\ arities ex_block /\
  (exists e, run ex_sem ex_block ex_env = Some e /\ map e [14; 15] = [Some (Single true); Some (Single false)]) /\
  (exists st, boolean_vectorize 2 {| ops := ex_block; rets := [14; 15]; next := 16 |} = Some st /\
     map (fun o => (rid o, kind o, args o)) (ops st) =
       [(16, FromElements, [0; 1]); (17, FromElements, [1; 2]); (18, Lanes [Gate AND; Gate XOR], [16; 17]);
        (19, Extract 0, [18]); (20, Extract 1, [18]); (12, Scalar (Other 7 0), [19]);
        (21, FromElements, [2]); (22, FromElements, [0]); (23, Lanes [Gate OR], [21; 22]); (24, Extract 0, [23]);
        (25, FromElements, [12; 24]); (26, FromElements, [20; 19]); (27, Lanes [Gate NAND; Gate NOR], [25; 26]);
        (28, Extract 0, [27]); (29, Extract 1, [27])] /\ rets st = [28; 29]).
Proof.
  split; [|split; [|split]].
  - split; [|split; [|split]].
    + cbn. intuition; intros x Hx; cbn in *; intuition.
    + intros i Hi. cbn in Hi. intuition; lia.
    + intros o Ho. cbn in Ho. intuition; subst; cbn; lia.
    + intros r Hr. cbn in *. intuition.
  - intros o k n Ho Ek En. cbn in Ho. intuition; subst; cbn in *; injection Ek as <-; cbn in En; congruence.
  - eexists. split; [reflexivity|]. reflexivity.
  - eexists. split; [vm_compute; reflexivity|]. split; reflexivity.
Qed.

(** ** Types *)
(** all elements of a vector have the element type of the vector; [tin] gives the types of the arguments of the block *)
Definition has_type (tin : nat -> nat) (I : list nat) (P : list op) (x t : nat) : Prop :=
  (In x I /\ tin x = t) \/ exists o, In o P /\ rid o = x /\ typ o = t.
Definition vectors_typed tin I (P : list op) : Prop :=
  forall o a t, In o P -> kind o = FromElements -> In a (args o) -> has_type tin I P a t -> t = typ o.
(** operands and result of a lookup table have one type, but tables on different types are compatible *)
Theorem C83_lut3_types_refuted : exists tin I P rs nx st, block I P rs nx /\ arities P /\
  (forall o a t, In o P -> In a (args o) -> has_type tin I P a t -> t = typ o) /\
  boolean_vectorize 0 {| ops := P; rets := rs; next := nx |} = Some st /\ ~ vectors_typed tin I (ops st).
Proof.
  exists (fun i => i), [0; 1], [ {| rid := 2; kind := Scalar (Lut3 8); args := [0; 0; 0]; typ := 0; disc := 0 |};
    {| rid := 3; kind := Scalar (Lut3 8); args := [1; 1; 1]; typ := 1; disc := 0 |} ], [2; 3], 4.
  eexists. split; [|split; [|split; [|split; [vm_compute; reflexivity|]]]].
  - split; [|split; [|split]].
    + cbn. intuition; intros x Hx; cbn in *; intuition.
    + intros i Hi. cbn in Hi. intuition; lia.
    + intros o Ho. cbn in Ho. intuition; subst; cbn; lia.
    + intros r Hr. cbn in *. intuition.
  - intros o k n Ho Ek En. cbn in Ho. intuition; subst; cbn in *; injection Ek as <-; cbn in En; congruence.
  - intros o a t Ho Ha HT. cbn in Ho. destruct HT as [[H1 H2]|(p & Hp & H1 & H2)]; cbn in *; intuition; subst; cbn in *; intuition; try lia.
  - intros H. specialize (H {| rid := 4; kind := FromElements; args := [0; 1]; typ := 0; disc := 0 |} 1 1). cbn in H.
    assert (Q : 1 = 0); [|discriminate Q]. apply H; auto. left. cbn. auto 6.
Qed.
(** the straight line vectorizer gives the vectors of operands the result type of the operation, which fails for
    comparisons *)
Theorem C83_result_type_refuted : exists tin I P rs nx st, block I P rs nx /\
  straight_vectorize (fun _ => true) (fun _ => true) {| ops := P; rets := rs; next := nx |} = Some st /\ ~ vectors_typed tin I (ops st).
Proof.
  exists (fun _ => 32), [0; 1], [ {| rid := 2; kind := Scalar (Other 5 0); args := [0; 1]; typ := 1; disc := 0 |};
    {| rid := 3; kind := Scalar (Other 5 0); args := [1; 0]; typ := 1; disc := 0 |} ], [2; 3], 4.
  eexists. split; [|split; [vm_compute; reflexivity|]].
  - split; [|split; [|split]].
    + cbn. intuition; intros x Hx; cbn in *; intuition.
    + intros i Hi. cbn in Hi. intuition; lia.
    + intros o Ho. cbn in Ho. intuition; subst; cbn; lia.
    + intros r Hr. cbn in *. intuition.
  - intros H. specialize (H {| rid := 4; kind := FromElements; args := [0; 1]; typ := 1; disc := 0 |} 1 32). cbn in H.
    assert (Q : 32 = 1); [|discriminate Q]. apply H; auto. left. cbn. auto 6.
Qed.
Print Assumptions C83_lut3_types_refuted.
Print Assumptions C83_result_type_refuted.
