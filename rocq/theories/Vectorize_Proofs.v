(** Lemmas about the vectorizers *)
From Coq Require Import Arith Bool List NArith Permutation Lia.
From Coq Require Import Relations.
From Verif Require Import Lut_Spec Vectorize_Spec Graph_Model Graph_Proofs Graph_Props Vectorize_Model.
Import ListNotations.

(** ** Lists *)
Lemma all_some_map_Some {A} (r : list A) : all_some (map Some r) = Some r.
Proof. induction r; simpl; auto. now rewrite IHr. Qed.
Lemma all_some_iff {A} (l : list (option A)) r : all_some l = Some r <-> l = map Some r.
Proof.
  split; [|intros ->; apply all_some_map_Some].
  revert r. induction l as [|[a|] l IH]; intros r; simpl; try discriminate.
  { intros H. injection H as <-. reflexivity. }
  destruct (all_some l) as [s|]; try congruence. intros H. injection H as <-. simpl. f_equal. now apply IH.
Qed.
Lemma all_some_exists {A} (l : list (option A)) : (forall x, In x l -> exists a, x = Some a) -> exists r, all_some l = Some r.
Proof.
  induction l as [|x l IH]; intros H; simpl; eauto.
  destruct (H x) as [a ->]; simpl; auto. destruct IH as [s ->]; eauto. intros; apply H; simpl; auto.
Qed.
Lemma all_some_length {A} (l : list (option A)) r : all_some l = Some r -> length r = length l.
Proof. intros H. apply all_some_iff in H. subst. now rewrite map_length. Qed.
Lemma all_some_nth {A} (l : list (option A)) r i : all_some l = Some r -> i < length l -> nth_error l i = Some (nth_error r i).
Proof.
  intros H Hi. apply all_some_iff in H. subst. rewrite map_length in Hi. rewrite nth_error_map.
  destruct (nth_error r i) eqn:E; auto. apply nth_error_None in E. lia.
Qed.
Lemma all_some_In {A} (l : list (option A)) r x : all_some l = Some r -> In x l -> exists a, x = Some a /\ In a r.
Proof. intros H Hx. apply all_some_iff in H. subst. apply in_map_iff in Hx as (a & <- & Ha). eauto. Qed.
Lemma all_some_ext {A B} (f g : A -> option B) l : (forall x, In x l -> f x = g x) -> all_some (map f l) = all_some (map g l).
Proof. intros H. f_equal. now apply map_ext_in. Qed.
Lemma mem_In i l : mem i l = true <-> In i l.
Proof.
  unfold mem. rewrite existsb_exists. split.
  - intros (x & Hx & E). apply Nat.eqb_eq in E. now subst.
  - intros H. exists i. now rewrite Nat.eqb_refl.
Qed.

Definition same_head (o o' : op) : Prop :=
  rid o' = rid o /\ kind o' = kind o /\ typ o' = typ o /\ disc o' = disc o /\ length (args o') = length (args o).

Lemma find_op_some l i o : find_op l i = Some o -> In o l /\ rid o = i.
Proof. intros H. apply find_some in H as [H1 H2]. apply Nat.eqb_eq in H2. auto. Qed.
Lemma find_op_In l o : NoDup (map rid l) -> In o l -> find_op l (rid o) = Some o.
Proof.
  unfold find_op. induction l as [|x l IH]; simpl; [tauto|]. intros ND [<-|H].
  - now rewrite Nat.eqb_refl.
  - inversion_clear ND as [|? ? N1 N2]. destruct (Nat.eqb_spec (rid x) (rid o)) as [E|E]; auto.
    exfalso. apply N1. rewrite E. now apply in_map.
Qed.

(** ** Meaning: an assignment of values that satisfies every operation *)
Section Meaning.
Context {X : Type} (sem : scalar_op -> list (value X) -> option (value X)).
Notation val := (value X).
Definition satisfies (F : nat -> option val) (o : op) : Prop :=
  exists vs v, all_some (map F (args o)) = Some vs /\ apply_kind sem (kind o) vs = Some v /\ F (rid o) = Some v.

Lemma run_frame ops : forall e e', run sem ops e = Some e' -> forall x, ~ In x (map rid ops) -> e' x = e x.
Proof.
  induction ops as [|o ops IH]; simpl; intros e e' H x Hx; [congruence|].
  destruct (all_some _); try discriminate H. destruct (apply_kind _ _ _); try discriminate H.
  rewrite (IH _ _ H) by tauto. unfold set. destruct (Nat.eqb_spec x (rid o)); auto. subst. tauto.
Qed.
Lemma ssa_notin known ops : ssa known ops -> forall x, In x known -> ~ In x (map rid ops).
Proof.
  revert known. induction ops as [|o ops IH]; simpl; intros known H x Hx; [tauto|].
  destruct H as (H1 & H2 & H3). intros [<-|H]; [tauto|]. eapply IH; eauto. simpl; auto.
Qed.
Lemma ssa_nodup known ops : ssa known ops -> NoDup (map rid ops).
Proof.
  revert known. induction ops as [|o ops IH]; simpl; intros known H; constructor.
  - eapply ssa_notin; [apply H|simpl; auto].
  - eapply IH. apply H.
Qed.
Lemma ssa_wired known ops : ssa known ops -> forall o a, In o ops -> In a (args o) -> In a known \/ In a (map rid ops).
Proof.
  revert known. induction ops as [|p ops IH]; simpl; intros known H o a Ho Ha; [tauto|].
  destruct H as (H1 & H2 & H3). destruct Ho as [<-|Ho]; [left; auto|].
  destruct (IH _ H3 o a Ho Ha) as [[E|E]|E]; auto.
Qed.
Lemma run_satisfies ops : forall known e e', ssa known ops -> run sem ops e = Some e' -> forall o, In o ops -> satisfies e' o.
Proof.
  induction ops as [|p ops IH]; simpl; intros known e e' HS H o Ho; [tauto|].
  destruct HS as (H1 & H2 & H3).
  destruct (all_some _) as [vs|] eqn:E1; try discriminate H. destruct (apply_kind _ _ _) as [v|] eqn:E2; try discriminate H.
  destruct Ho as [<-|Ho]; [|eapply IH; eauto].
  assert (Hp : e' (rid p) = Some v).
  { rewrite (run_frame _ _ _ H); [unfold set; now rewrite Nat.eqb_refl|]. eapply ssa_notin; [apply H3|simpl; auto]. }
  exists vs, v. split; auto. rewrite <- E1. apply all_some_ext. intros a Ha.
  rewrite (run_frame _ _ _ H); [|eapply ssa_notin; [apply H3|simpl; auto]].
  unfold set. destruct (Nat.eqb_spec a (rid p)) as [E|E]; auto. subst. exfalso. apply H2. now apply H1.
Qed.
Lemma satisfies_run F ops : forall known e, ssa known ops -> (forall o, In o ops -> satisfies F o) ->
  (forall x, In x known -> e x = F x) ->
  exists e', run sem ops e = Some e' /\ (forall x, In x known \/ In x (map rid ops) -> e' x = F x).
Proof.
  induction ops as [|o ops IH]; simpl; intros known e HS HF He.
  - exists e. split; auto. intros x [H|[]]. auto.
  - destruct HS as (H1 & H2 & H3). destruct (HF o) as (vs & v & A & B & C); auto.
    rewrite (all_some_ext e F) by auto. rewrite A, B.
    destruct (IH (rid o :: known) (set e (rid o) v)) as (e' & R & Q); auto.
    + intros x [E|Hx]; unfold set.
      * subst. now rewrite Nat.eqb_refl.
      * destruct (Nat.eqb_spec x (rid o)); auto. subst. auto.
    + exists e'. split; auto. intros x Hx. apply Q. simpl. tauto.
Qed.
End Meaning.

(** ** A block with a rank on its values can be put into SSA order *)
Lemma ssa_app known l1 l2 : ssa known (l1 ++ l2) <-> ssa known l1 /\ ssa (rev (map rid l1) ++ known) l2.
Proof.
  revert known. induction l1 as [|o l1 IH]; intros known; simpl; [tauto|].
  rewrite IH. replace ((rev (map rid l1) ++ [rid o]) ++ known) with (rev (map rid l1) ++ rid o :: known); [tauto|].
  now rewrite <- app_assoc.
Qed.
Lemma pick_max (R : nat -> nat) (l : list op) : l <> [] ->
  exists m r, Permutation l (m :: r) /\ forall o, In o l -> R (rid o) <= R (rid m).
Proof.
  induction l as [|o l IH]; [congruence|]. intros _. destruct l as [|p l].
  - exists o, []. split; auto. intros q [<-|[]]. auto.
  - destruct IH as (m & r & P & M); [congruence|]. destruct (le_lt_dec (R (rid o)) (R (rid m))) as [L|L].
    + exists m, (o :: r). split.
      * eapply perm_trans; [apply perm_skip, P|apply perm_swap].
      * intros q [<-|Hq]; auto.
    + exists o, (p :: l). split; auto. intros q [<-|Hq]; auto. specialize (M q Hq). lia.
Qed.
Lemma rank_ssa (R : nat -> nat) I n : forall l, length l = n -> NoDup (map rid l) -> (forall o, In o l -> ~ In (rid o) I) ->
  (forall o a, In o l -> In a (args o) -> In a I \/ (In a (map rid l) /\ R a < R (rid o))) ->
  exists Q, Permutation l Q /\ ssa I Q.
Proof.
  induction n as [|n IH]; intros l HL ND HI HW.
  - destruct l; [|discriminate HL]. exists []. simpl; auto.
  - destruct (pick_max R l) as (m & r & P & M); [destruct l; [discriminate HL|congruence]|].
    assert (In_iff : forall o, In o l <-> o = m \/ In o r).
    { intros o. split; intros H.
      - apply (Permutation_in _ P) in H. destruct H; auto.
      - apply (Permutation_in _ (Permutation_sym P)). destruct H; simpl; auto. }
    assert (NDr : NoDup (map rid (m :: r))) by (eapply Permutation_NoDup; [apply Permutation_map, P|auto]).
    simpl in NDr. inversion_clear NDr as [|? ? N1 N2].
    destruct (IH r) as (Q & PQ & SQ); auto.
    + apply Permutation_length in P. simpl in P. lia.
    + intros o Ho. apply HI, In_iff; auto.
    + intros o a Ho Ha. assert (Hl : In o l) by (apply In_iff; auto). destruct (HW o a Hl Ha) as [H|[H1 H2]]; auto.
      right. split; auto. apply in_map_iff in H1 as (q & <- & Hq). apply In_iff in Hq as [->|Hq].
      * exfalso. specialize (M o Hl). lia.
      * now apply in_map.
    + exists (Q ++ [m]). split.
      * eapply perm_trans; [apply P|]. eapply perm_trans; [apply perm_skip, PQ|]. apply Permutation_cons_append.
      * apply ssa_app. split; auto. simpl. assert (Hm : In m l) by (apply In_iff; auto).
        assert (EQ : forall x, In x (map rid Q) <-> In x (map rid r)).
        { intros x. split; apply Permutation_in; [apply Permutation_sym|]; now apply Permutation_map. }
        split; [|split; auto].
        -- intros a Ha. apply in_or_app. destruct (HW m a Hm Ha) as [H|[H1 H2]]; auto. left.
           rewrite <- in_rev. apply EQ. apply in_map_iff in H1 as (q & <- & Hq). apply In_iff in Hq as [->|Hq]; [lia|].
           now apply in_map.
        -- intros H. apply in_app_or in H as [H|H]; [|exact (HI m Hm H)]. rewrite <- in_rev in H. apply EQ in H. auto.
Qed.

(** ** The invariant of the rewriting *)
Section Invariant.
Context {X : Type} (sem : scalar_op -> list (value X) -> option (value X)).
Notation val := (value X).
(** the arguments of the block, and a bound on the values of the original block *)
Context (I : list nat) (N0 : nat).

Record good (F : nat -> option val) (base sub : nat -> nat) (next : nat) (l : list op) : Prop := {
  g_nodup : NoDup (map rid l);
  g_notin : forall o, In o l -> ~ In (rid o) I;
  g_lt : forall o, In o l -> rid o < next;
  g_known : forall i, In i I -> i < N0;
  g_next : N0 <= next;
  g_wired : forall o a, In o l -> In a (args o) -> In a I \/ In a (map rid l);
  g_eq : forall o, In o l -> satisfies sem F o;
  g_rank : forall o a, In o l -> In a (args o) ->
     (sub (rid o) = 0 /\ (In a I \/ base a < base (rid o))) \/
     (N0 <= a /\ base a = base (rid o) /\ sub a < sub (rid o));
  g_sub : forall x, x < N0 -> sub x = 0
}.

Lemma good_perm F base sub nx l l' : Permutation l l' -> good F base sub nx l -> good F base sub nx l'.
Proof.
  intros P G. pose proof (Permutation_map rid P) as PM.
  assert (Q : forall o, In o l' -> In o l) by (intros o; apply Permutation_in, Permutation_sym, P).
  split.
  - eapply Permutation_NoDup; [exact PM|apply G].
  - intros o Ho. apply G; auto.
  - intros o Ho. apply G; auto.
  - apply G.
  - apply G.
  - intros o a Ho Ha. destruct (g_wired _ _ _ _ _ G o a (Q o Ho) Ha); auto. right. eapply Permutation_in; eauto.
  - intros o Ho. apply G; auto.
  - intros o a Ho. apply G; auto.
  - apply G.
Qed.
(** a larger bound *)
Lemma good_next F base sub nx nx' l : nx <= nx' -> good F base sub nx l -> good F base sub nx' l.
Proof. intros L G. destruct G. split; auto; [intros o Ho; specialize (g_lt0 o Ho)|]; lia. Qed.
(** values that do not occur may change *)
Lemma good_ext F F' base base' sub sub' nx l : (forall x, x < nx -> F' x = F x /\ base' x = base x /\ sub' x = sub x) ->
  good F base sub nx l -> good F' base' sub' nx l.
Proof.
  intros E G.
  assert (A : forall o a, In o l -> In a (args o) -> a < nx).
  { intros o a Ho Ha. destruct (g_wired _ _ _ _ _ G o a Ho Ha) as [H|H].
    - apply (g_known _ _ _ _ _ G) in H. pose proof (g_next _ _ _ _ _ G). lia.
    - apply in_map_iff in H as (q & <- & Hq). now apply (g_lt _ _ _ _ _ G). }
  pose proof (g_lt _ _ _ _ _ G) as L.
  split; try apply G.
  - intros o Ho. destruct (g_eq _ _ _ _ _ G o Ho) as (vs & v & H1 & H2 & H3). exists vs, v. split; [|split; auto].
    + rewrite <- H1. apply all_some_ext. intros a Ha. apply E. eauto.
    + rewrite <- H3. apply E. auto.
  - intros o a Ho Ha. destruct (E (rid o) (L o Ho)) as (_ & -> & ->), (E a (A o a Ho Ha)) as (_ & -> & ->).
    apply (g_rank _ _ _ _ _ G); auto.
  - intros x Hx. pose proof (g_next _ _ _ _ _ G). destruct (E x) as (_ & _ & ->); [lia|]. now apply G.
Qed.
(** one more operation *)
Lemma good_cons F base sub nx l o : good F base sub nx l -> ~ In (rid o) (map rid l) -> ~ In (rid o) I -> rid o < nx ->
  (forall a, In a (args o) -> In a I \/ In a (map rid l)) -> satisfies sem F o ->
  (forall a, In a (args o) -> (sub (rid o) = 0 /\ (In a I \/ base a < base (rid o))) \/
     (N0 <= a /\ base a = base (rid o) /\ sub a < sub (rid o))) ->
  good F base sub nx (o :: l).
Proof.
  intros G H1 H2 H3 H4 H5 H6. split; try apply G; simpl.
  - constructor; auto. apply G.
  - intros p [<-|Hp]; auto. now apply G.
  - intros p [<-|Hp]; auto. now apply G.
  - intros p a [<-|Hp] Ha; [destruct (H4 a Ha); auto|]. destruct (g_wired _ _ _ _ _ G p a Hp Ha); auto.
  - intros p [<-|Hp]; auto. now apply G.
  - intros p a [<-|Hp]; auto. now apply G.
Qed.
(** renaming old values into values with the same meaning and base *)
Definition renaming (F : nat -> option val) (base : nat -> nat) (l : list op) (s : list (nat * nat)) : Prop :=
  forall r x, In (r, x) s -> F x = F r /\ base x = base r /\ In x (map rid l) /\ r < N0 /\ ~ In r I /\ N0 <= x.
Lemma assoc_cases s a : (assoc s a = a /\ ~ In a (map fst s)) \/ In (a, assoc s a) s.
Proof.
  induction s as [|[r x] s IH]; simpl; auto. destruct (Nat.eqb_spec a r) as [E|E]; [subst; auto|].
  destruct IH as [[H1 H2]|H]; auto. left. split; auto. intros [H|H]; auto.
Qed.
Lemma rename_rids s l : map rid (map (rename s) l) = map rid l.
Proof. rewrite map_map. reflexivity. Qed.
Lemma good_rename F base sub nx l s : renaming F base l s -> good F base sub nx l -> good F base sub nx (map (rename s) l).
Proof.
  intros RN G. split; try apply G; rewrite ?rename_rids; try apply G.
  - intros o Ho. apply in_map_iff in Ho as (p & <- & Hp). exact (g_notin _ _ _ _ _ G p Hp).
  - intros o Ho. apply in_map_iff in Ho as (p & <- & Hp). exact (g_lt _ _ _ _ _ G p Hp).
  - intros o a Ho Ha. apply in_map_iff in Ho as (p & <- & Hp). simpl in Ha. apply in_map_iff in Ha as (b & <- & Hb).
    destruct (assoc_cases s b) as [[-> _]|H]; [now apply (g_wired _ _ _ _ _ G p b)|]. right. now apply (RN _ _ H).
  - intros o Ho. apply in_map_iff in Ho as (p & <- & Hp). destruct (g_eq _ _ _ _ _ G p Hp) as (vs & v & A & B & C).
    exists vs, v. simpl. split; auto. rewrite <- A, map_map. apply all_some_ext. intros a _.
    destruct (assoc_cases s a) as [[-> _]|H]; auto. now apply (RN _ _ H).
  - intros o a Ho Ha. apply in_map_iff in Ho as (p & <- & Hp). simpl in Ha |- *. apply in_map_iff in Ha as (b & <- & Hb).
    pose proof (g_rank _ _ _ _ _ G p b Hp Hb) as R.
    destruct (assoc_cases s b) as [[-> _]|H]; auto.
    destruct (RN _ _ H) as (_ & EB & _ & L & NI & _). destruct R as [[H1 [H2|H2]]|(H1 & H2 & H3)]; [tauto| |lia].
    left. split; auto. right. lia.
Qed.
(** nothing reads a renamed value *)
Definition unused (i : nat) (l : list op) : Prop := forall o, In o l -> ~ In i (args o).
Lemma rename_unused F base l s r : renaming F base l s -> In r (map fst s) -> unused r (map (rename s) l).
Proof.
  intros RN Hr o Ho Ha. apply in_map_iff in Ho as (p & <- & Hp). simpl in Ha. apply in_map_iff in Ha as (b & Hb & _).
  destruct (assoc_cases s b) as [[E N]|H].
  - rewrite E in Hb. subst. auto.
  - destruct (RN _ _ H) as (_ & _ & _ & _ & _ & H1). apply in_map_iff in Hr as ([r' x] & E & Hr). simpl in E. subst r'.
    destruct (RN _ _ Hr) as (_ & _ & _ & H2 & _). lia.
Qed.
Lemma rename_unused_other F base l s r : renaming F base l s -> r < N0 -> unused r l -> unused r (map (rename s) l).
Proof.
  intros RN L U o Ho Ha. apply in_map_iff in Ho as (p & <- & Hp). simpl in Ha. apply in_map_iff in Ha as (b & Hb & HB).
  destruct (assoc_cases s b) as [[E N]|H].
  - rewrite E in Hb. subst. exact (U p Hp HB).
  - destruct (RN _ _ H) as (_ & _ & _ & _ & _ & H1). lia.
Qed.
(** removing values that nothing reads *)
Lemma good_filter F base sub nx l (f : op -> bool) : (forall o, In o l -> f o = false -> unused (rid o) l) ->
  good F base sub nx l -> good F base sub nx (filter f l).
Proof.
  intros U G. assert (Q : forall o, In o (filter f l) -> In o l) by (intros o Ho; apply filter_In in Ho; tauto).
  split; try apply G.
  - pose proof (g_nodup _ _ _ _ _ G) as ND. clear -ND. induction l as [|o l IH]; simpl; auto.
    inversion_clear ND as [|? ? H1 H2]. destruct (f o); auto. simpl. constructor; auto.
    intros H. apply H1. apply in_map_iff in H as (p & <- & Hp). apply filter_In in Hp as [Hp _]. now apply in_map.
  - intros o Ho. apply G; auto.
  - intros o Ho. apply G; auto.
  - intros o a Ho Ha. destruct (g_wired _ _ _ _ _ G o a (Q o Ho) Ha) as [H|H]; auto. right.
    apply in_map_iff in H as (p & <- & Hp). apply in_map. apply filter_In. split; auto.
    destruct (f p) eqn:E; auto. exfalso. exact (U p Hp E o (Q o Ho) Ha).
  - intros o Ho. apply G; auto.
  - intros o a Ho. apply G; auto.
Qed.
Lemma good_ssa F base sub nx l : (forall x, sub x < 3) -> good F base sub nx l -> exists Q, Permutation l Q /\ ssa I Q.
Proof.
  intros S3 G. apply (rank_ssa (fun x => 3 * base x + sub x) I (length l)); auto; try apply G.
  intros o a Ho Ha. destruct (g_wired _ _ _ _ _ G o a Ho Ha) as [H|H]; auto.
  pose proof (S3 a) as Sa. pose proof (S3 (rid o)) as So.
  destruct (g_rank _ _ _ _ _ G o a Ho Ha) as [[H1 [H2|H2]]|(H1 & H2 & H3)]; auto; right; split; auto; lia.
Qed.
End Invariant.

(** ** Replacing one bucket *)
Lemma map_seq_nth {A B} (f : nat -> B) (g : A -> B) (l : list A) : forall s,
  (forall i a, nth_error l i = Some a -> f (s + i) = g a) -> map f (seq s (length l)) = map g l.
Proof.
  induction l as [|a l IH]; intros s H; simpl; auto. f_equal.
  - rewrite <- (Nat.add_0_r s). auto.
  - apply IH. intros i b Hb. simpl. rewrite <- Nat.add_succ_r. auto.
Qed.
Lemma combine_seq (f : nat -> nat) (l : list nat) r x : forall s, In (r, x) (combine l (map f (seq s (length l)))) ->
  exists i, nth_error l i = Some r /\ x = f (s + i).
Proof.
  induction l as [|a l IH]; intros s; simpl; [tauto|]. intros [H|H].
  - injection H as <- <-. exists 0. rewrite Nat.add_0_r. auto.
  - destruct (IH _ H) as (i & H1 & H2). exists (S i). rewrite Nat.add_succ_r. auto.
Qed.
Lemma insert_before_perm i new l : In i (map rid l) -> Permutation (insert_before i new l) (new ++ l).
Proof.
  induction l as [|o l IH]; simpl; [tauto|]. destruct (Nat.eqb_spec (rid o) i) as [E|E]; intros H.
  - apply Permutation_refl.
  - destruct H as [H|H]; [tauto|]. eapply perm_trans; [apply perm_skip, IH, H|]. apply Permutation_middle.
Qed.
Lemma nth_error_seq0 n i : i < n -> nth_error (seq 0 n) i = Some i.
Proof.
  intros H. rewrite (nth_error_nth' _ 0) by (rewrite seq_length; auto). now rewrite seq_nth by auto.
Qed.

Lemma same_head_refl o : same_head o o.
Proof. unfold same_head. auto. Qed.
Lemma same_head_trans a b c : same_head a b -> same_head b c -> same_head a c.
Proof. unfold same_head. intros (A1 & A2 & A3 & A4 & A5) (B1 & B2 & B3 & B4 & B5). repeat split; congruence. Qed.
Lemma Forall2_rids l l' : Forall2 same_head l l' -> map rid l' = map rid l.
Proof. induction 1 as [|o o' l l' H HF IH]; simpl; auto. destruct H as (-> & _). now rewrite IH. Qed.
Lemma Forall2_In_r {A B} (R : A -> B -> Prop) l l' b : Forall2 R l l' -> In b l' -> exists a, In a l /\ R a b.
Proof.
  induction 1 as [|x y l l' Hxy HF IH]; simpl; [tauto|]. intros [<-|Hb]; eauto. destruct (IH Hb) as (a & Ha & Hr); eauto.
Qed.
Lemma Forall2_len {A B} (R : A -> B -> Prop) l l' : Forall2 R l l' -> length l' = length l.
Proof. induction 1; simpl; auto. Qed.

Lemma NoDup_app_remove_r {A} (l l' : list A) : NoDup (l ++ l') -> NoDup l.
Proof.
  induction l as [|x l IH]; simpl; intros H; [constructor|]. inversion_clear H as [|? ? H1 H2]. constructor; auto.
  intros E. apply H1, in_or_app. auto.
Qed.
Lemma NoDup_app_remove_l {A} (l l' : list A) : NoDup (l ++ l') -> NoDup l'.
Proof. induction l as [|x l IH]; simpl; auto. intros H. inversion_clear H. auto. Qed.

Section Bucket.
Context {X : Type} (sem : scalar_op -> list (value X) -> option (value X)).
Notation val := (value X).
Context (I : list nat) (N0 : nat) (base0 : nat -> nat) (e : nat -> option val) (rets0 : list nat).
(** what is known about the number of lanes of a vector operation *)
Context (width : nat -> Prop).
Definition widths (l : list op) : Prop := forall o ks, In o l -> kind o = Lanes ks -> width (length ks).

Lemma good_app F base sub nx l new : good sem I N0 F base sub nx l -> NoDup (map rid new) ->
  (forall o, In o new -> ~ In (rid o) (map rid l) /\ ~ In (rid o) I /\ rid o < nx /\
     (forall a, In a (args o) -> In a I \/ In a (map rid l)) /\ satisfies sem F o /\
     (forall a, In a (args o) -> (sub (rid o) = 0 /\ (In a I \/ base a < base (rid o))) \/
        (N0 <= a /\ base a = base (rid o) /\ sub a < sub (rid o)))) ->
  good sem I N0 F base sub nx (new ++ l).
Proof.
  intros G. induction new as [|o new IH]; simpl; intros ND H; auto.
  inversion_clear ND as [|? ? N1 N2]. destruct (H o) as (H1 & H2 & H3 & H4 & H5 & H6); auto.
  apply good_cons; auto.
  - rewrite map_app. intros E. apply in_app_or in E as [E|E]; auto.
  - intros a Ha. rewrite map_app. destruct (H4 a Ha); auto. right. apply in_or_app. auto.
Qed.

Lemma build_operands_ok st k now : (forall o, In o now -> length (args o) = length (args k)) ->
  exists vectors, build_operands st k now = Some vectors /\
    map rid vectors = map (fun j => next st + j) (seq 0 (length (args k))) /\
    length vectors = length (args k) /\
    forall v, In v vectors -> exists j a, j < length (args k) /\ operand j now = Some a /\
      v = {| rid := next st + j; kind := FromElements; args := a; typ := typ k; disc := 0 |}.
Proof.
  intros HA. unfold build_operands.
  match goal with |- context [all_some (map ?f _)] => set (mk := f) end.
  destruct (all_some_exists (map mk (seq 0 (length (args k))))) as [vectors E].
  { intros x Hx. apply in_map_iff in Hx as (j & <- & Hj). apply in_seq in Hj. unfold mk, operand.
    destruct (all_some_exists (map (fun o => nth_error (args o) j) now)) as [a Ea]; [|rewrite Ea; simpl; eauto].
    intros y Hy. apply in_map_iff in Hy as (o & <- & Ho). destruct (nth_error (args o) j) eqn:N; eauto.
    apply nth_error_None in N. rewrite (HA o Ho) in N. lia. }
  exists vectors. split; auto. pose proof (all_some_length _ _ E) as L. rewrite map_length, seq_length in L.
  apply all_some_iff in E. split; [|split; auto].
  - assert (M : map Some (map rid vectors) = map Some (map (fun j => next st + j) (seq 0 (length (args k))))).
    { transitivity (map (option_map rid) (map Some vectors)); [now rewrite !map_map|]. rewrite <- E, !map_map.
      apply map_ext_in. intros j Hj.
      assert (Hin : In (mk j) (map Some vectors)) by (rewrite <- E; now apply in_map).
      apply in_map_iff in Hin as (v & Hv & _). unfold mk in Hv |- *. destruct (operand j now); [reflexivity|discriminate Hv]. }
    assert (Inj : forall l l' : list nat, map Some l = map Some l' -> l = l').
    { clear. induction l as [|x l IH]; intros [|y l'] H; simpl in H; try congruence. injection H as -> H. f_equal. auto. }
    now apply Inj.
  - intros v Hv. assert (Hin : In (Some v) (map Some vectors)) by now apply in_map.
    rewrite <- E in Hin. apply in_map_iff in Hin as (j & Hj & Hs). apply in_seq in Hs. unfold mk in Hj.
    destruct (operand j now) as [a|] eqn:Ea; [|discriminate Hj]. injection Hj as <-. exists j, a. split; [lia|auto].
Qed.

Definition Inv (st : state) : Prop := exists F base sub,
  good sem I N0 F base sub (next st) (ops st) /\ (forall x, sub x < 3) /\ (forall x, x < N0 -> F x = e x) /\
  (forall x, x < N0 -> base x = base0 x) /\ (forall r, In r (rets st) -> In r I \/ In r (map rid (ops st))) /\
  map F (rets st) = map e rets0 /\ widths (ops st).
Definition keeps (st st' : state) : Prop := forall o, In o (ops st) -> exists o', In o' (ops st') /\ same_head o o'.
Definition free (r : nat) (st : state) : Prop := unused r (ops st) /\ ~ In r (rets st).

Definition new_state st vectors k now ks : state :=
  let packed := next st + length vectors in
  let vop := {| rid := packed; kind := Lanes ks; args := map rid vectors; typ := typ k; disc := 0 |} in
  let extracts := map (fun i => {| rid := packed + 1 + i; kind := Extract i; args := [packed]; typ := typ k; disc := 0 |})
                      (seq 0 (length now)) in
  let s := combine (map rid now) (map rid extracts) in
  {| ops := map (rename s) (insert_before (rid (last now k)) (vectors ++ vop :: extracts) (ops st));
     rets := map (assoc s) (rets st); next := packed + 1 + length now |}.

Lemma replace_now st B k now ks : Inv st -> width (length now) -> now <> [] -> (forall o, In o now -> In o (ops st)) -> In k (ops st) ->
  NoDup (map rid now) -> (forall o, In o now -> rid o < N0 /\ base0 (rid o) = B) ->
  (forall o, In o now -> length (args o) = length (args k)) ->
  Forall2 (fun o s => kind o = Scalar s) now ks ->
  exists vectors, build_operands st k now = Some vectors /\ Inv (new_state st vectors k now ks) /\
    keeps st (new_state st vectors k now ks) /\
    (forall r, In r (map rid now) -> free r (new_state st vectors k now ks)) /\
    (forall r, r < N0 -> free r st -> free r (new_state st vectors k now ks)).
Proof.
  intros (F & base & sub & G & S3 & FE & BE & RW & RE & WD) WN NE Hin Hk ND HB HA HK.
  destruct (build_operands_ok st k now HA) as (vectors & EV & RV & LV & VV). exists vectors. split; auto.
  set (nx := next st) in *. set (nv := length (args k)) in *. set (packed := nx + nv) in *.
  set (n := length now) in *.
  pose proof (g_next _ _ _ _ _ _ _ _ G) as HN. fold nx in HN.
  assert (LK : length ks = n) by (unfold n; clear -HK; induction HK; simpl; auto).
  assert (INI : forall i, In i I -> i < nx) by (intros i Hi; apply (g_known _ _ _ _ _ _ _ _ G) in Hi; lia).
  assert (Hold : forall x, In x (map rid (ops st)) -> x < nx).
  { intros x Hx. apply in_map_iff in Hx as (o & <- & Ho). exact (g_lt _ _ _ _ _ _ _ _ G o Ho). }
  assert (AL : forall o a, In o (ops st) -> In a (args o) -> a < nx).
  { intros o a Ho Ha. destruct (g_wired _ _ _ _ _ _ _ _ G o a Ho Ha); auto. }
  (* operands *)
  assert (OP : forall j, j < nv -> exists a, operand j now = Some a /\ length a = n /\
            (forall i o, nth_error now i = Some o -> nth_error a i = nth_error (args o) j) /\
            (forall x, In x a -> exists o, In o now /\ In x (args o))).
  { intros j Hj. unfold operand.
    destruct (all_some_exists (map (fun o => nth_error (args o) j) now)) as [a Ea].
    { intros y Hy. apply in_map_iff in Hy as (o & <- & Ho). destruct (nth_error (args o) j) eqn:N; eauto.
      apply nth_error_None in N. rewrite (HA o Ho) in N. lia. }
    exists a. split; auto. pose proof (all_some_length _ _ Ea) as La. rewrite map_length in La. split; auto.
    apply all_some_iff in Ea. split.
    - intros i o Ho. assert (Q : nth_error (map Some a) i = Some (nth_error (args o) j)).
      { rewrite <- Ea, nth_error_map, Ho. reflexivity. }
      rewrite nth_error_map in Q. destruct (nth_error a i); simpl in Q; [now injection Q as ->|discriminate Q].
    - intros x Hx. assert (Hs : In (Some x) (map Some a)) by now apply in_map. rewrite <- Ea in Hs.
      apply in_map_iff in Hs as (o & Ho & Hno). exists o. split; auto. eapply nth_error_In; eauto. }
  assert (OPlt : forall j a x, operand j now = Some a -> j < nv -> In x a -> x < nx /\ (In x I \/ In x (map rid (ops st))) /\ (In x I \/ base x < B)).
  { intros j a x Ea Hj Hx. destruct (OP j Hj) as (a' & E' & _ & _ & Q). rewrite Ea in E'. injection E' as <-.
    destruct (Q x Hx) as (o & Ho & Hxo). split; [eauto|]. split; [exact (g_wired _ _ _ _ _ _ _ _ G o x (Hin o Ho) Hxo)|].
    destruct (HB o Ho) as [L0 EB]. rewrite <- EB, <- BE by auto.
    destruct (g_rank _ _ _ _ _ _ _ _ G o x (Hin o Ho) Hxo) as [[_ H]|(_ & _ & H)]; auto.
    rewrite (g_sub _ _ _ _ _ _ _ _ G (rid o)) in H by auto. lia. }
  (* values *)
  set (col := fun j => match operand j now with Some a => all_some (map F a) | None => None end).
  set (F' := fun x => if x <? nx then F x else if x <? packed then option_map Vector (col (x - nx))
                      else if x =? packed then option_map Vector (all_some (map (fun o => F (rid o)) now))
                      else match nth_error now (x - packed - 1) with Some o => F (rid o) | None => None end).
  set (base' := fun x => if x <? nx then base x else B).
  set (sub' := fun x => if x <? nx then sub x else if x <? packed then 0 else if x =? packed then 1 else 2).
  assert (F0 : forall x, x < nx -> F' x = F x /\ base' x = base x /\ sub' x = sub x).
  { intros x Hx. unfold F', base', sub'. apply Nat.ltb_lt in Hx. now rewrite Hx. }
  assert (F1 : forall j, j < nv -> F' (nx + j) = option_map Vector (col j) /\ base' (nx + j) = B /\ sub' (nx + j) = 0).
  { intros j Hj. unfold F', base', sub'. destruct (Nat.ltb_spec (nx + j) nx); [lia|].
    destruct (Nat.ltb_spec (nx + j) packed); [|unfold packed in *; lia]. replace (nx + j - nx) with j by lia. auto. }
  assert (F2 : F' packed = option_map Vector (all_some (map (fun o => F (rid o)) now)) /\ base' packed = B /\ sub' packed = 1).
  { unfold F', base', sub'. destruct (Nat.ltb_spec packed nx); [unfold packed in *; lia|].
    rewrite Nat.ltb_irrefl, Nat.eqb_refl. auto. }
  assert (F3 : forall i, F' (packed + 1 + i) = match nth_error now i with Some o => F (rid o) | None => None end /\
                         base' (packed + 1 + i) = B /\ sub' (packed + 1 + i) = 2).
  { intros i. unfold F', base', sub'. destruct (Nat.ltb_spec (packed + 1 + i) nx); [unfold packed in *; lia|].
    destruct (Nat.ltb_spec (packed + 1 + i) packed); [lia|]. destruct (Nat.eqb_spec (packed + 1 + i) packed); [lia|].
    replace (packed + 1 + i - packed - 1) with i by lia. auto. }
  assert (S3' : forall x, sub' x < 3).
  { intros x. unfold sub'. destruct (x <? nx); auto. destruct (x <? packed); [lia|]. destruct (x =? packed); lia. }
  assert (SAT : forall o, In o now -> satisfies sem F o) by (intros o Ho; apply (g_eq _ _ _ _ _ _ _ _ G); auto).
  assert (FA : forall o a, In o now -> In a (args o) -> exists v, F a = Some v).
  { intros o a Ho Ha. destruct (SAT o Ho) as (vs & v & E1 & _). destruct (all_some_In _ _ (F a) E1) as (w & Hw & _); eauto.
    now apply in_map. }
  assert (COL : forall j, j < nv -> exists c, col j = Some c /\ length c = n).
  { intros j Hj. destruct (OP j Hj) as (a & Ea & La & _ & Qa). unfold col. rewrite Ea.
    destruct (all_some_exists (map F a)) as [c Ec].
    - intros y Hy. apply in_map_iff in Hy as (x & <- & Hx). destruct (Qa x Hx) as (o & Ho & Hxo). eauto.
    - exists c. split; auto. apply all_some_length in Ec. rewrite map_length in Ec. lia. }
  destruct (all_some_exists (map col (seq 0 nv))) as [cols EC].
  { intros y Hy. apply in_map_iff in Hy as (j & <- & Hj). apply in_seq in Hj. destruct (COL j) as (c & -> & _); [lia|eauto]. }
  destruct (all_some_exists (map (fun o => F (rid o)) now)) as [bv EBV].
  { intros y Hy. apply in_map_iff in Hy as (o & <- & Ho). destruct (SAT o Ho) as (_ & v & _ & _ & ->). eauto. }
  assert (LBV : length bv = n) by (apply all_some_length in EBV; now rewrite map_length in EBV).
  (* the state before renaming *)
  set (vop := {| rid := packed; kind := Lanes ks; args := map rid vectors; typ := typ k; disc := 0 |}).
  set (ext := fun i => {| rid := packed + 1 + i; kind := Extract i; args := [packed]; typ := typ k; disc := 0 |}).
  set (nx' := packed + 1 + n).
  assert (G1 : good sem I N0 F' base' sub' nx' (ops st)).
  { apply (good_next sem I N0 F' base' sub' nx nx'); [unfold nx', packed; lia|]. eapply good_ext; [|exact G]. auto. }
  assert (FRI : forall x, nx <= x -> ~ In x (map rid (ops st)) /\ ~ In x I).
  { intros x Hx. split; intros H; [apply Hold in H|apply INI in H]; lia. }
  assert (RVin : forall x, In x (map rid vectors) <-> nx <= x < packed).
  { intros x. rewrite RV, in_map_iff. split.
    - intros (j & <- & Hj). apply in_seq in Hj. unfold packed. lia.
    - intros Hx. exists (x - nx). split; [lia|]. apply in_seq. unfold packed in Hx. lia. }
  assert (G2 : good sem I N0 F' base' sub' nx' (vectors ++ ops st)).
  { apply good_app; auto.
    - rewrite RV. apply FinFun.Injective_map_NoDup; [intros x y; lia|apply seq_NoDup].
    - intros v Hv. destruct (VV v Hv) as (j & a & Hj & Ea & ->). simpl. destruct (FRI (nx + j)) as [Q1 Q2]; [lia|].
      split; auto. split; auto. split; [unfold nx', packed; lia|].
      split; [intros x Hx; now apply (OPlt j a x)|]. destruct (F1 j Hj) as (E1 & E2 & E3). split.
      + destruct (COL j Hj) as (c & Ec & _). exists c, (Vector c). simpl. unfold col in Ec. rewrite Ea in Ec.
        split; [|split; auto].
        * rewrite <- Ec. apply all_some_ext. intros x Hx. apply F0. now apply (OPlt j a x).
        * rewrite E1. unfold col. now rewrite Ea, Ec.
      + intros x Hx. left. split; auto. destruct (OPlt j a x) as (H1 & _ & [H2|H2]); auto.
        destruct (F0 x H1) as (_ & -> & _). right. lia. }
  assert (G3 : good sem I N0 F' base' sub' nx' (vop :: vectors ++ ops st)).
  { apply good_cons; auto; cbn [rid args vop].
    - rewrite map_app. intros H. apply in_app_or in H as [H|H]; [apply RVin in H; lia|]. apply Hold in H. unfold packed in H. lia.
    - apply FRI. unfold packed. lia.
    - unfold nx'. lia.
    - intros a Ha. right. rewrite map_app. apply in_or_app. auto.
    - exists (map Vector cols), (Vector bv). cbn [rid kind args vop apply_kind]. split; [|split].
      + apply all_some_iff. rewrite RV. apply all_some_iff in EC.
        transitivity (map (option_map (@Vector X)) (map col (seq 0 nv))).
        * rewrite !map_map. apply map_ext_in. intros j Hj. apply in_seq in Hj. apply F1. lia.
        * rewrite EC. now rewrite !map_map.
      + replace (map elements (map Vector cols)) with (map Some cols) by now rewrite map_map.
        rewrite all_some_map_Some, LK. apply all_some_iff in EC.
        assert (CIN : forall c, In c cols -> length c = n).
        { intros c Hc. assert (Q : In (Some c) (map Some cols)) by now apply in_map. rewrite <- EC in Q.
          apply in_map_iff in Q as (j & Ej & Hj). apply in_seq in Hj. destruct (COL j) as (c' & Ec' & Lc'); [lia|]. congruence. }
        replace (forallb _ _) with true; [|symmetry; apply forallb_forall; intros c Hc; apply Nat.eqb_eq; auto].
        replace (map (lane sem ks cols) (seq 0 n)) with (map (fun o => F (rid o)) now); [now rewrite EBV|].
        symmetry. unfold n. apply map_seq_nth. intros i o Ho. simpl. unfold lane.
        assert (Hi : i < length now) by (apply nth_error_Some; congruence).
        destruct (nth_error ks i) as [s|] eqn:Es; [|apply nth_error_None in Es; lia].
        assert (Eo : kind o = Scalar s).
        { clear -HK Ho Es. revert i Ho Es. induction HK as [|? ? ? ? H1 H2 IH]; intros [|i] Ho Es; simpl in *; try discriminate.
          - congruence.
          - eauto. }
        assert (Hno : In o now) by (eapply nth_error_In; eauto).
        destruct (SAT o Hno) as (vs & v & E1 & E2 & E3).
        replace (map (fun l => nth_error l i) cols) with (map F (args o)).
        * rewrite E1, E3. rewrite Eo in E2. exact E2.
        * transitivity (map (fun oc => match oc with Some c => nth_error c i | None => None end) (map Some cols)); [|now rewrite map_map].
          rewrite <- EC, map_map. symmetry. rewrite <- (HA o Hno).
          apply map_seq_nth. intros j a Hja. simpl.
          assert (Hj : j < nv). { rewrite <- (HA o Hno). apply nth_error_Some. congruence. }
          destruct (OP j Hj) as (aj & Eaj & _ & Qn & _). specialize (Qn i o Ho).
          destruct (COL j Hj) as (c & Ec & _). rewrite Ec. unfold col in Ec. rewrite Eaj in Ec.
          apply all_some_iff in Ec. assert (Z : nth_error (map Some c) i = Some (F a)).
          { rewrite <- Ec, nth_error_map, Qn, Hja. reflexivity. }
          rewrite nth_error_map in Z. destruct (nth_error c i); simpl in Z; [now injection Z as ->|discriminate Z].
      + destruct F2 as (-> & _). now rewrite EBV.
    - intros a Ha. apply RVin in Ha. right. destruct F2 as (_ & -> & ->). split; [lia|].
      destruct (F1 (a - nx)) as (_ & E2 & E3); [unfold packed in Ha; lia|]. replace (nx + (a - nx)) with a in * by lia.
      rewrite E2, E3. lia. }
  assert (G4 : good sem I N0 F' base' sub' nx' (map ext (seq 0 n) ++ vop :: vectors ++ ops st)).
  { apply good_app; auto.
    - rewrite map_map. simpl. apply FinFun.Injective_map_NoDup; [intros x y; lia|apply seq_NoDup].
    - intros o Ho. apply in_map_iff in Ho as (i & <- & Hi). apply in_seq in Hi. cbn [rid args ext map vop].
      destruct (FRI (packed + 1 + i)) as [Q1 Q2]; [unfold packed; lia|]. split.
      + intros [H|H]; [lia|]. rewrite map_app in H. apply in_app_or in H as [H|H]; auto. apply RVin in H. lia.
      + split; auto. split; [unfold nx'; lia|]. split; [intros a [<-|[]]; right; simpl; auto|].
        destruct (F3 i) as (E1 & E2 & E3), F2 as (P1 & P2 & P3). split.
        * assert (Hn : i < length now) by (fold n; lia). destruct (nth_error now i) as [o|] eqn:Eo; [|apply nth_error_None in Eo; lia].
          assert (Hno : In o now) by (eapply nth_error_In; eauto). destruct (SAT o Hno) as (_ & v & _ & _ & Ev).
          exists [Vector bv], v. cbn [rid kind args ext map apply_kind]. split; [|split].
          -- simpl. now rewrite P1, EBV.
          -- apply all_some_iff in EBV. assert (Z : nth_error (map Some bv) i = Some (F (rid o))) by now rewrite <- EBV, nth_error_map, Eo.
             rewrite nth_error_map in Z. destruct (nth_error bv i); simpl in Z; [injection Z as ->; auto|discriminate Z].
          -- congruence.
        * intros a [<-|[]]. right. rewrite E2, E3, P2, P3. unfold packed. lia. }
  (* inserted in place *)
  set (new := vectors ++ vop :: map ext (seq 0 n)).
  set (s := combine (map rid now) (map rid (map ext (seq 0 n)))).
  set (l1 := insert_before (rid (last now k)) new (ops st)).
  assert (Hlast : In (rid (last now k)) (map rid (ops st))).
  { apply in_map. destruct now as [|o0 now']; [congruence|]. apply Hin. clear. revert o0. induction now' as [|o1 now' IH]; intros; simpl; auto.
    destruct (IH o1) as [H|H]; [right; left|right; right]; auto. }
  assert (P1 : Permutation (map ext (seq 0 n) ++ vop :: vectors ++ ops st) l1).
  { eapply perm_trans; [|apply Permutation_sym, insert_before_perm; exact Hlast]. unfold new. rewrite <- app_assoc. simpl.
    eapply perm_trans; [|apply Permutation_middle]. eapply perm_trans; [apply Permutation_sym, Permutation_middle|]. apply perm_skip.
    rewrite !app_assoc. apply Permutation_app_tail, Permutation_app_comm. }
  assert (G5 : good sem I N0 F' base' sub' nx' l1) by (eapply good_perm; [exact P1|exact G4]).
  assert (Hs : forall r x, In (r, x) s -> exists i o, nth_error now i = Some o /\ r = rid o /\ x = packed + 1 + i).
  { intros r x H. unfold s in H. rewrite map_map in H. unfold n in H. rewrite <- (map_length rid now) in H.
    apply combine_seq in H as (i & H1 & H2). rewrite nth_error_map in H1. destruct (nth_error now i) as [o|] eqn:Eo; [|discriminate H1].
    injection H1 as <-. exists i, o. auto. }
  assert (RN : renaming I N0 F' base' l1 s).
  { intros r x H. destruct (Hs r x H) as (i & o & Eo & -> & ->). assert (Hno : In o now) by (eapply nth_error_In; eauto).
    destruct (HB o Hno) as [L0 EB]. destruct (F3 i) as (E1 & E2 & _). destruct (F0 (rid o)) as (E4 & E5 & _); [lia|].
    assert (Hi : i < n) by (apply nth_error_Some; congruence).
    split; [rewrite E1, Eo, E4; auto|]. split; [rewrite E2, E5, BE by auto; auto|]. split; [|split; [auto|split; [|unfold packed; lia]]].
    - eapply Permutation_in; [apply Permutation_map; exact P1|]. rewrite map_app. apply in_or_app. left. rewrite map_map.
      apply in_map_iff. exists i. split; auto. apply in_seq. lia.
    - apply (g_notin _ _ _ _ _ _ _ _ G). auto. }
  assert (FSTs : map fst s = map rid now).
  { unfold s. rewrite !map_map. assert (L : length (map rid now) = length (map (fun x => rid (ext x)) (seq 0 n))) by now rewrite !map_length, seq_length.
    revert L. generalize (map rid now) (map (fun x => rid (ext x)) (seq 0 n)). clear. induction l as [|x l IH]; intros [|y l'] L; simpl in *; try discriminate; auto.
    f_equal. auto. }
  assert (NSE : new_state st vectors k now ks = {| ops := map (rename s) l1; rets := map (assoc s) (rets st); next := nx' |}).
  { unfold new_state. rewrite LV. reflexivity. }
  rewrite NSE. split; [|split; [|split]].
  - exists F', base', sub'. cbn [ops rets next]. split; [now apply good_rename|]. split; auto.
    split; [intros x Hx; rewrite (proj1 (F0 x ltac:(lia))); auto|]. split; [intros x Hx; destruct (F0 x ltac:(lia)) as (_ & -> & _); auto|]. split.
    + intros r Hr. rewrite rename_rids. apply in_map_iff in Hr as (x & <- & Hx). destruct (assoc_cases s x) as [[-> _]|H].
      * destruct (RW x Hx) as [H|H]; auto. right. eapply Permutation_in; [apply Permutation_map; exact P1|].
        rewrite map_app. apply in_or_app. right. simpl. right. rewrite map_app. apply in_or_app. auto.
      * right. now apply (RN _ _ H).
    + split; [|intros o' ks' Ho' Ek; apply in_map_iff in Ho' as (q & <- & Hq); cbn [kind rename] in Ek;
        apply (Permutation_in _ (Permutation_sym P1)) in Hq; apply in_app_or in Hq as [Hq|[Hq|Hq]];
        [apply in_map_iff in Hq as (i & <- & _); discriminate Ek|subst q; injection Ek as <-; rewrite LK; exact WN|];
        apply in_app_or in Hq as [Hq|Hq]; [destruct (VV q Hq) as (j & a & _ & _ & ->); discriminate Ek|exact (WD q ks' Hq Ek)]].
      rewrite <- RE, map_map. apply map_ext_in. intros x Hx. assert (Lx : x < nx) by (destruct (RW x Hx); auto).
      destruct (F0 x Lx) as (Ex & _). destruct (assoc_cases s x) as [[-> _]|H]; auto. destruct (RN _ _ H) as (-> & _). auto.
  - intros o Ho. exists (rename s o). cbn [ops]. split.
    + apply in_map. eapply Permutation_in; [exact P1|]. apply in_or_app. right. simpl. right. apply in_or_app. auto.
    + unfold same_head. cbn. now rewrite map_length.
  - intros r Hr. rewrite <- FSTs in Hr. split; cbn [ops rets]; [eapply rename_unused; eauto|].
    intros H. apply in_map_iff in H as (x & Hx & _). destruct (assoc_cases s x) as [[E N]|H]; [congruence|].
    destruct (RN _ _ H) as (_ & _ & _ & _ & _ & H1). apply in_map_iff in Hr as ([r' y] & E & Hr). simpl in E. subst r'.
    destruct (RN _ _ Hr) as (_ & _ & _ & H2 & _). lia.
  - intros r Lr [U1 U2]. split; cbn [ops rets].
    + eapply rename_unused_other; eauto. intros o Ho Ha. apply (Permutation_in _ (Permutation_sym P1)) in Ho.
      apply in_app_or in Ho as [Ho|[Ho|Ho]].
      * apply in_map_iff in Ho as (i & <- & _). destruct Ha as [Ha|[]]. unfold packed in Ha. lia.
      * subst o. cbn [args vop] in Ha. apply RVin in Ha. lia.
      * apply in_app_or in Ho as [Ho|Ho]; [|exact (U1 o Ho Ha)]. destruct (VV o Ho) as (j & a & Hj & Ea & ->). simpl in Ha.
        destruct (OP j Hj) as (a' & E' & _ & _ & Q). rewrite Ea in E'. injection E' as <-. destruct (Q r Ha) as (q & Hq & Hqr).
        exact (U1 q (Hin q Hq) Hqr).
    + intros H. apply in_map_iff in H as (x & Hx & HX). destruct (assoc_cases s x) as [[E N]|H]; [congruence|].
      destruct (RN _ _ H) as (_ & _ & _ & _ & _ & H1). lia.
Qed.
Definition alive (st : state) (o : op) : Prop := exists o', In o' (ops st) /\ same_head o o'.
Lemma keeps_alive st st' o : keeps st st' -> alive st o -> alive st' o.
Proof. intros K (o' & H1 & H2). destruct (K o' H1) as (o'' & H3 & H4). exists o''. split; auto. eapply same_head_trans; eauto. Qed.
Lemma keeps_trans a b c : keeps a b -> keeps b c -> keeps a c.
Proof. intros H1 H2 o Ho. destruct (H1 o Ho) as (p & Hp & Q). destruct (H2 p Hp) as (r & Hr & R). exists r. split; auto. eapply same_head_trans; eauto. Qed.
Lemma current_ok st l : NoDup (map rid (ops st)) -> (forall o, In o l -> alive st o) ->
  exists now, current st l = Some now /\ Forall2 same_head l now /\ (forall o, In o now -> In o (ops st)).
Proof.
  intros ND. unfold current. induction l as [|o l IH]; intros H; simpl.
  - exists []. split; auto. split; [constructor|intros ? []].
  - destruct (H o) as (o' & H1 & H2); [simpl; auto|]. destruct IH as (now & E & HF & HI); [intros; apply H; simpl; auto|].
    rewrite E. destruct H2 as (R & H2). rewrite <- R. rewrite (find_op_In _ o') by auto.
    exists (o' :: now). split; auto. split; [constructor; auto; split; auto|]. intros q [<-|Hq]; auto.
Qed.
Variable candidate : op -> bool.
Variable compatible : op -> op -> bool.
Variable lanes : op -> list op -> option (list scalar_op).
Hypothesis candidate_head : forall o o', same_head o o' -> candidate o' = candidate o.
Hypothesis compatible_head : forall k k' o o', same_head k k' -> same_head o o' -> compatible k' o' = compatible k o.
Hypothesis compatible_sym : forall a b, compatible a b = true -> compatible b a = true.
Hypothesis compatible_trans : forall a b c, compatible a b = true -> compatible b c = true -> compatible a c = true.
Hypothesis lanes_ok : forall k l, candidate k = true -> (forall o, In o l -> compatible k o = true \/ same_head k o) ->
  exists ks, lanes k l = Some ks /\ Forall2 (fun o s => kind o = Scalar s) l ks.

(** the operations of a bucket fit to the key *)
Definition fits (B : nat) (key o : op) : Prop :=
  rid o < N0 /\ base0 (rid o) = B /\ length (args o) = length (args key) /\ (o = key \/ compatible key o = true).

Lemma replace_bucket_ok st B key bucket : Inv st -> width (length bucket) -> bucket <> [] -> candidate key = true -> alive st key ->
  (forall o, In o bucket -> alive st o /\ fits B key o) -> NoDup (map rid bucket) ->
  exists st', replace_bucket lanes key bucket st = Some st' /\ Inv st' /\ keeps st st' /\
    (forall r, In r (map rid bucket) -> free r st') /\ (forall r, r < N0 -> free r st -> free r st').
Proof.
  intros HI HW NE HC HK HB ND. destruct HI as (F & base & sub & G & HI'). pose proof (g_nodup _ _ _ _ _ _ _ _ G) as NDO.
  assert (HI : Inv st) by (exists F, base, sub; auto). clear HI'.
  destruct (current_ok st [key] NDO) as (nk & Ek & FK & IK); [intros o [<-|[]]; auto|].
  inversion FK as [|? k ? ? HKk HK0]; subst. inversion HK0; subst.
  destruct (current_ok st bucket NDO) as (now & En & FN & INow); [intros o Ho; apply HB; auto|].
  pose proof (Forall2_rids _ _ FN) as RN. pose proof (Forall2_len _ _ _ FN) as LN.
  assert (HCk : candidate k = true) by (rewrite (candidate_head key k); auto).
  destruct (lanes_ok k now HCk) as (ks & EL & HKS).
  { intros o' Ho'. destruct (Forall2_In_r _ _ _ _ FN Ho') as (o & Ho & Hh). destruct (HB o Ho) as (_ & _ & _ & _ & [E|E]).
    - right. subst o. destruct HKk as (A1 & A2 & A3 & A4 & A5), Hh as (B1 & B2 & B3 & B4 & B5). unfold same_head. repeat split; congruence.
    - left. now rewrite (compatible_head key k o o'). }
  destruct (replace_now st B k now ks) as (vectors & EV & HI2 & HKe & HF1 & HF2); auto.
  - now rewrite LN.
  - intros ->. destruct bucket; [congruence|discriminate LN].
  - apply IK. simpl; auto.
  - now rewrite RN.
  - intros o' Ho'. destruct (Forall2_In_r _ _ _ _ FN Ho') as (o & Ho & Hh). destruct Hh as (-> & _). apply HB in Ho as (_ & H1 & H2 & _). auto.
  - intros o' Ho'. destruct (Forall2_In_r _ _ _ _ FN Ho') as (o & Ho & Hh). destruct Hh as (_ & _ & _ & _ & ->).
    destruct HKk as (_ & _ & _ & _ & ->). apply HB; auto.
  - exists (new_state st vectors k now ks). split; [|split; [auto|split; [auto|split; [|auto]]]].
    + unfold replace_bucket. rewrite Ek, En, EV, EL. reflexivity.
    + rewrite <- RN. auto.
Qed.
Lemma replace_buckets_ok B key : candidate key = true -> forall buckets st, Inv st -> alive st key ->
  (forall b, In b buckets -> b <> [] /\ width (length b)) ->
  (forall o, In o (concat buckets) -> alive st o /\ fits B key o) -> NoDup (map rid (concat buckets)) ->
  exists st', replace_buckets lanes key buckets st = Some st' /\ Inv st' /\ keeps st st' /\
    (forall r, In r (map rid (concat buckets)) -> free r st') /\ (forall r, r < N0 -> free r st -> free r st').
Proof.
  intros HC. induction buckets as [|b buckets IH]; intros st HI HK HW HB ND; cbn [replace_buckets].
  - exists st. split; auto. split; auto. split; [intros o Ho; exists o; split; auto; apply same_head_refl|]. simpl. split; [tauto|auto].
  - simpl in ND. rewrite map_app in ND.
    assert (ND1 : NoDup (map rid b)) by (apply NoDup_app_remove_r in ND; auto).
    assert (ND2 : NoDup (map rid (concat buckets))) by (apply NoDup_app_remove_l in ND; auto).
    destruct (HW b) as [W1 W2]; [simpl; auto|].
    destruct (replace_bucket_ok st B key b) as (st1 & E1 & I1 & K1 & R1 & O1); auto.
    { intros o Ho. apply HB. simpl. apply in_or_app. auto. }
    rewrite E1. destruct (IH st1) as (st2 & E2 & I2 & K2 & R2 & O2); auto.
    { eapply keeps_alive; eauto. }
    { intros b' Hb'. apply HW. simpl; auto. }
    { intros o Ho. destruct (HB o) as [H1 H2]; [simpl; apply in_or_app; auto|]. split; auto. eapply keeps_alive; eauto. }
    exists st2. split; auto. split; auto. split; [eapply keeps_trans; eauto|]. split; [|auto].
    intros r Hr. simpl in Hr. rewrite map_app in Hr. apply in_app_or in Hr as [Hr|Hr]; auto. apply O2; auto.
    apply in_map_iff in Hr as (o & <- & Ho). apply (HB o). simpl. apply in_or_app. auto.
Qed.
Lemma erase_ok l st : Inv st -> (forall r, In r (map rid l) -> free r st) ->
  Inv (erase l st) /\ (forall o, alive st o -> ~ In (rid o) (map rid l) -> alive (erase l st) o) /\
  (forall r, In r (map rid l) -> ~ In r (map rid (ops (erase l st)))) /\
  (forall x, In x (map rid (ops (erase l st))) -> In x (map rid (ops st))).
Proof.
  intros (F & base & sub & G & S3 & FE & BE & RW & RE & WD) HF. split; [|split; [|split]].
  - exists F, base, sub. cbn [ops rets next erase]. split; [|split; [auto|split; [auto|split; [auto|split; [|split; [auto|]]]]]].
    + apply good_filter; auto. intros o Ho E. apply negb_false_iff, mem_In in E. now apply HF.
    + intros r Hr. destruct (RW r Hr) as [H|H]; auto. right. apply in_map_iff in H as (o & <- & Ho). apply in_map, filter_In.
      split; auto. destruct (mem (rid o) (map rid l)) eqn:E; auto. exfalso. apply mem_In in E. destruct (HF _ E) as [_ H]. auto.
    + intros o ks Ho. apply filter_In in Ho as [Ho _]. now apply WD.
  - intros o (o' & H1 & H2) N. exists o'. split; auto. apply filter_In. split; auto.
    destruct (mem (rid o') (map rid l)) eqn:E; auto. exfalso. apply mem_In in E. destruct H2 as (H2 & _). rewrite H2 in E. auto.
  - intros r Hr H. apply in_map_iff in H as (o & <- & Ho). cbn [ops erase] in Ho. apply filter_In in Ho as [_ E].
    apply negb_true_iff in E. apply mem_In in Hr. congruence.
  - intros x Hx. apply in_map_iff in Hx as (o & <- & Ho). apply filter_In in Ho as [Ho _]. now apply in_map.
Qed.

Definition members (g : group) : list op := concat (snd g).
Definition group_ok (g : group) : Prop :=
  In (fst g) (members g) /\ (forall b, In b (snd g) -> b <> [] /\ width (length b)) /\
  (forall o, In o (members g) -> o = fst g \/ compatible (fst g) o = true).
Lemma bucket_size_length buckets : bucket_size buckets = length (concat buckets).
Proof.
  unfold bucket_size. assert (H : forall n, fold_left (fun n b => n + length b) buckets n = n + length (concat buckets)); [|apply (H 0)].
  induction buckets as [|b buckets IH]; intros n; simpl; auto. rewrite IH, app_length. lia.
Qed.
(** the old values of a state *)
Definition gone (r : nat) (st : state) : Prop := ~ In r (map rid (ops st)).
Lemma new_old st key buckets st' : replace_buckets lanes key buckets st = Some st' ->
  forall x, x < next st -> In x (map rid (ops st')) -> In x (map rid (ops st)).
Proof.
  revert st. induction buckets as [|b buckets IH]; intros st; cbn [replace_buckets].
  - intros H. injection H as <-. auto.
  - destruct (replace_bucket lanes key b st) as [st1|] eqn:E; [|discriminate]. intros H x Hx Hin.
    unfold replace_bucket in E. destruct (current st [key]) as [[|k [|? ?]]|]; try discriminate E.
    destruct (current st b) as [now|]; [|discriminate E]. destruct (build_operands st k now) as [vectors|] eqn:EV; [|discriminate E].
    destruct (lanes k now) as [ks|]; [|discriminate E]. injection E as <-.
    apply IH with (x := x) in H; [|cbn [next]; lia|auto]. cbn [ops] in H. rewrite rename_rids in H.
    apply in_map_iff in H as (o & <- & Ho).
    assert (D : In o (vectors ++ {| rid := next st + length vectors; kind := Lanes ks; args := map rid vectors; typ := typ k; disc := 0 |}
        :: map (fun i => {| rid := next st + length vectors + 1 + i; kind := Extract i; args := [next st + length vectors]; typ := typ k; disc := 0 |}) (seq 0 (length now))) \/ In o (ops st)).
    { revert Ho. match goal with |- In o (insert_before _ ?nw _) -> _ => generalize nw end. intros nw. generalize (rid (last now k)). intros i.
      induction (ops st) as [|q l IHl]; simpl; auto. destruct (rid q =? i); simpl.
      - intros H. apply in_app_or in H as [H|H]; auto.
      - intros [H|H]; auto. destruct (IHl H); auto. }
    destruct D as [D|D]; [|now apply in_map]. exfalso. apply in_app_or in D as [D|[D|D]].
    + unfold build_operands in EV. apply all_some_iff in EV. assert (Q : In (Some o) (map Some vectors)) by now apply in_map.
      rewrite <- EV in Q. apply in_map_iff in Q as (j & Ej & _). destruct (operand j now); [|discriminate Ej]. injection Ej as <-. simpl in Hx. lia.
    + subst o. simpl in Hx. lia.
    + apply in_map_iff in D as (i & <- & _). simpl in Hx. lia.
Qed.

Lemma vectorize_groups_ok B : forall groups st, Inv st -> (forall g, In g groups -> group_ok g) ->
  (forall g, In g groups -> candidate (fst g) = true) ->
  (forall g o, In g groups -> In o (members g) -> alive st o /\ fits B (fst g) o) ->
  NoDup (map rid (concat (map members groups))) ->
  exists st', vectorize_groups lanes groups st = Some st' /\ Inv st' /\
    (forall o, alive st o -> ~ In (rid o) (map rid (concat (map members groups))) -> alive st' o) /\
    (forall g o, In g groups -> In o (members g) -> 2 <= length (members g) -> gone (rid o) st') /\
    (forall r, r < N0 -> gone r st -> gone r st').
Proof.
  induction groups as [|[key buckets] groups IH]; intros st HI HG HC HF ND; cbn [vectorize_groups].
  - exists st. simpl. repeat (split; auto). intros g o [].
  - simpl in ND. rewrite map_app in ND. change (members (key, buckets)) with (concat buckets) in ND.
    destruct (HG (key, buckets)) as (G1 & G2 & G3); [simpl; auto|]. change (members (key, buckets)) with (concat buckets) in *. cbn [fst snd] in *.
    assert (ND2 : NoDup (map rid (concat (map members groups)))) by (apply NoDup_app_remove_l in ND; auto).
    assert (DISJ : forall o x, In o (concat buckets) -> In x (concat (map members groups)) -> rid x <> rid o).
    { intros o x Ho Hx E. clear -ND Ho Hx E. apply in_split in Ho as (a1 & a2 & EQ). rewrite EQ in ND. rewrite map_app in ND. simpl in ND.
      rewrite <- app_assoc in ND. apply NoDup_remove_2 in ND. apply ND. apply in_or_app. right. apply in_or_app. right. rewrite <- E. now apply in_map. }
    rewrite bucket_size_length. destruct (Nat.ltb_spec (length (concat buckets)) 2) as [L|L].
    + destruct (IH st) as (st' & E & I' & A' & D' & K'); auto.
      * intros; apply HG; simpl; auto.
      * intros; apply HC; simpl; auto.
      * intros g o Hg Ho. apply HF; simpl; auto.
      * exists st'. split; auto. split; auto. split; [|split; [|auto]].
        -- intros o Ho N. apply A'; auto. intros H. apply N. simpl. rewrite map_app. apply in_or_app. auto.
        -- intros g o [<-|Hg] Ho L2; [|eapply D'; eauto]. change (members (key, buckets)) with (concat buckets) in L2. lia.
    + destruct (replace_buckets_ok B key) with (buckets := buckets) (st := st) as (st1 & E1 & I1 & K1 & R1 & O1); auto.
      * apply (HC (key, buckets)). simpl; auto.
      * apply (HF (key, buckets)); simpl; auto.
      * intros o Ho. apply (HF (key, buckets)); simpl; auto.
      * apply NoDup_app_remove_r in ND. auto.
      * rewrite E1. destruct (erase_ok (concat buckets) st1 I1 R1) as (I2 & A2 & D2 & Q2).
        destruct (IH (erase (concat buckets) st1)) as (st' & E & I' & A' & D' & K'); auto.
        -- intros; apply HG; simpl; auto.
        -- intros; apply HC; simpl; auto.
        -- intros g o Hg Ho. destruct (HF g o) as [H1 H2]; simpl; auto. split; auto. apply A2; [eapply keeps_alive; eauto|].
           intros H. apply in_map_iff in H as (q & Eq & Hq). apply (DISJ q o); auto. apply in_concat. exists (members g). split; auto. now apply in_map.
        -- assert (KG : forall r, r < N0 -> gone r st -> gone r (erase (concat buckets) st1)).
           { intros r Hr Hg H. apply Q2 in H. apply Hg. eapply new_old; [exact E1| |exact H].
             destruct HI as (F & base & sub & G & _). pose proof (g_next _ _ _ _ _ _ _ _ G). lia. }
           exists st'. split; auto. split; auto. split; [|split; [|auto]].
           ++ intros o Ho N. simpl in N. rewrite map_app in N. change (members (key, buckets)) with (concat buckets) in N.
              apply A'; [|intros H; apply N; apply in_or_app; auto]. apply A2; [eapply keeps_alive; eauto|]. intros H. apply N. apply in_or_app. auto.
           ++ intros g o [<-|Hg] Ho L2; [|eapply D'; eauto]. apply K'.
              ** destruct (HF (key, buckets) o) as (_ & H & _); simpl; auto.
              ** apply D2. now apply in_map.
Qed.

(** ** Grouping *)
Section Grouping.
Variable parallelism : nat.
Hypothesis width_ok : forall n, 1 <= n -> (parallelism = 0 \/ n <= parallelism) -> width n.
Lemma push_spec o buckets : buckets <> [] ->
  (forall b, In b buckets -> b <> [] /\ (parallelism = 0 \/ length b <= parallelism)) ->
  Permutation (concat (push parallelism o buckets)) (o :: concat buckets) /\ push parallelism o buckets <> [] /\
  (forall b, In b (push parallelism o buckets) -> b <> [] /\ (parallelism = 0 \/ length b <= parallelism)).
Proof.
  induction buckets as [|b buckets IH]; [congruence|]. intros _ H. destruct buckets as [|b2 buckets].
  - cbn [push]. destruct (H b) as [H1 H2]; [simpl; auto|].
    destruct ((parallelism =? 0) || (length b <? parallelism)) eqn:E.
    + split; [simpl; rewrite !app_nil_r; apply Permutation_sym, Permutation_cons_append|]. split; [congruence|].
      intros c [<-|[]]. split; [destruct b; discriminate|]. rewrite app_length. simpl.
      apply orb_true_iff in E as [E|E]; [left; now apply Nat.eqb_eq|right; apply Nat.ltb_lt in E; lia].
    + apply orb_false_iff in E as [E1 E2]. apply Nat.eqb_neq in E1. split; [simpl; rewrite app_nil_r; apply Permutation_sym, Permutation_cons_append|]. split; [congruence|].
      intros c [<-|[<-|[]]]; [auto|]. split; [congruence|]. right. simpl. lia.
  - change (push parallelism o (b :: b2 :: buckets)) with (b :: push parallelism o (b2 :: buckets)).
    destruct IH as (P & N & Q); [congruence|intros; apply H; simpl; auto|]. split; [|split; [congruence|]].
    + change (concat (b :: push parallelism o (b2 :: buckets))) with (b ++ concat (push parallelism o (b2 :: buckets))).
      change (concat (b :: b2 :: buckets)) with (b ++ concat (b2 :: buckets)).
      eapply perm_trans; [apply Permutation_app_head, P|]. apply Permutation_sym, Permutation_middle.
    + intros c [<-|Hc]; [apply H; simpl; auto|auto].
Qed.
Definition group_shape (g : group) : Prop :=
  In (fst g) (members g) /\ snd g <> [] /\ (forall b, In b (snd g) -> b <> [] /\ (parallelism = 0 \/ length b <= parallelism)) /\
  (forall o, In o (members g) -> o = fst g \/ compatible (fst g) o = true).
Fixpoint apart (groups : list group) : Prop :=
  match groups with
  | [] => True
  | g :: rest => (forall h, In h rest -> compatible (fst g) (fst h) = false) /\ apart rest
  end.
Lemma apart_snoc groups o : apart groups -> (forall g, In g groups -> compatible (fst g) o = false) -> forall b, apart (groups ++ [(o, b)]).
Proof.
  intros A H b. induction groups as [|g groups IH]; simpl; [split; [intros ? []|auto]|]. destruct A as [A1 A2]. split.
  - intros h Hh. apply in_app_or in Hh as [Hh|[<-|[]]]; [auto|]. apply H. simpl; auto.
  - apply IH; auto. intros; apply H; simpl; auto.
Qed.
Definition step_group (o : op) (g : group) : group := if compatible (fst g) o then (fst g, push parallelism o (snd g)) else g.
Lemma apart_map o groups : apart groups -> apart (map (step_group o) groups).
Proof.
  assert (K : forall g, fst (step_group o g) = fst g) by (intros g; unfold step_group; destruct (compatible _ _); auto).
  induction groups as [|g groups IH]; simpl; auto. intros [A1 A2]. split; auto.
  intros h Hh. apply in_map_iff in Hh as (h' & <- & Hh'). rewrite !K. auto.
Qed.
Lemma step_none o groups : (forall g, In g groups -> compatible (fst g) o = false) -> map (step_group o) groups = groups.
Proof.
  intros H. rewrite <- (map_id groups) at 2. apply map_ext_in. intros g Hg. unfold step_group. now rewrite H.
Qed.
Lemma step_shape o g : group_shape g -> group_shape (step_group o g).
Proof.
  intros (H1 & H2 & H3 & H4). unfold step_group. destruct (compatible (fst g) o) eqn:E; [|unfold group_shape; auto].
  destruct (push_spec o (snd g) H2 H3) as (P & N & Q). unfold group_shape, members. cbn [fst snd]. split; [|split; [auto|split; [auto|]]].
  - apply (Permutation_in _ (Permutation_sym P)). simpl. auto.
  - intros q Hq. apply (Permutation_in _ P) in Hq. destruct Hq as [<-|Hq]; auto.
Qed.
Lemma step_perm o groups : (forall g, In g groups -> group_shape g) -> apart groups ->
  existsb (fun g => compatible (fst g) o) groups = true ->
  Permutation (concat (map members (map (step_group o) groups))) (o :: concat (map members groups)).
Proof.
  induction groups as [|g groups IH]; simpl; [discriminate|]. intros HS [A1 A2] E.
  destruct (compatible (fst g) o) eqn:C.
  - rewrite step_none.
    + unfold step_group. rewrite C. unfold members at 1. cbn [snd]. destruct (HS g) as (H1 & H2 & H3 & H4); auto.
      destruct (push_spec o (snd g) H2 H3) as (P & _). change (o :: members g ++ concat (map members groups)) with ((o :: members g) ++ concat (map members groups)).
      apply Permutation_app_tail. exact P.
    + intros h Hh. destruct (compatible (fst h) o) eqn:C2; auto. exfalso. specialize (A1 h Hh).
      rewrite (compatible_trans (fst g) o (fst h)) in A1; auto; discriminate A1.
  - unfold step_group at 1. rewrite C. eapply perm_trans; [apply Permutation_app_head, IH; auto|].
    apply Permutation_sym, Permutation_middle.
Qed.
Lemma add_op_ok groups o : (forall g, In g groups -> group_shape g) -> apart groups ->
  (forall g, In g (add_op compatible parallelism groups o) -> group_shape g) /\ apart (add_op compatible parallelism groups o) /\
  Permutation (concat (map members (add_op compatible parallelism groups o))) (o :: concat (map members groups)).
Proof.
  intros HS A. unfold add_op. change (fun g : op * list (list op) => if compatible (fst g) o then (fst g, push parallelism o (snd g)) else g) with (step_group o).
  assert (HS' : forall g, In g (map (step_group o) groups) -> group_shape g).
  { intros g Hg. apply in_map_iff in Hg as (h & <- & Hh). apply step_shape. auto. }
  destruct (existsb _ _) eqn:E.
  - split; auto. split; [now apply apart_map|]. now apply step_perm.
  - assert (N : forall g, In g groups -> compatible (fst g) o = false).
    { intros g Hg. destruct (compatible (fst g) o) eqn:C; auto. exfalso.
      assert (existsb (fun g => compatible (fst g) o) groups = true) as Q by (apply existsb_exists; eauto). unfold group in *. congruence. }
    rewrite step_none by auto. split; [|split].
    + intros g Hg. apply in_app_or in Hg as [Hg|[<-|[]]]; auto. unfold group_shape, members. simpl.
      split; auto. split; [congruence|]. split; [|intros q [<-|[]]; auto].
      intros b [<-|[]]. split; [congruence|]. simpl. destruct parallelism; [left|right]; lia.
    + now apply apart_snoc.
    + rewrite map_app, concat_app. simpl. unfold members at 2. simpl. apply Permutation_sym, Permutation_cons_append.
Qed.
Lemma build_groups_ok level : (forall g, In g (build_groups compatible parallelism level) -> group_shape g) /\
  apart (build_groups compatible parallelism level) /\
  Permutation (concat (map members (build_groups compatible parallelism level))) level.
Proof.
  unfold build_groups. assert (H : forall groups, (forall g, In g groups -> group_shape g) -> apart groups ->
    (forall g, In g (fold_left (add_op compatible parallelism) level groups) -> group_shape g) /\
    apart (fold_left (add_op compatible parallelism) level groups) /\
    Permutation (concat (map members (fold_left (add_op compatible parallelism) level groups))) (level ++ concat (map members groups))).
  { induction level as [|o level IH]; intros groups HS A; cbn [fold_left]; [auto|].
    destruct (add_op_ok groups o HS A) as (H1 & H2 & H3). destruct (IH _ H1 H2) as (Q1 & Q2 & Q3). split; auto. split; auto.
    eapply perm_trans; [exact Q3|]. eapply perm_trans; [apply Permutation_app_head, H3|]. apply Permutation_sym. apply (Permutation_middle level (concat (map members groups)) o). }
  destruct (H []) as (Q1 & Q2 & Q3); [intros ? []|exact Coq.Init.Logic.I|]. simpl in Q3. rewrite app_nil_r in Q3. auto.
Qed.

(** ** Levels *)
Lemma vectorize_levels_ok : forall levels st, Inv st -> (forall o, In o (concat levels) -> alive st o /\ candidate o = true /\ rid o < N0) ->
  (forall l, In l levels -> exists B, forall o, In o l -> base0 (rid o) = B) ->
  (forall k o, In k (concat levels) -> In o (concat levels) -> compatible k o = true -> length (args o) = length (args k)) ->
  NoDup (map rid (concat levels)) ->
  exists st', vectorize_levels compatible lanes parallelism levels st = Some st' /\ Inv st' /\
    (forall l k o, In l levels -> In k l -> In o l -> rid k <> rid o -> compatible k o = true -> gone (rid k) st' /\ gone (rid o) st') /\
    (forall r, r < N0 -> gone r st -> gone r st').
Proof.
  induction levels as [|l levels IH]; intros st HI HA HB HL ND; cbn [vectorize_levels].
  - exists st. split; auto. split; auto. split; auto. intros l k o [].
  - simpl in ND. rewrite map_app in ND. destruct (build_groups_ok l) as (G1 & G2 & G3). destruct (HB l) as [B HBl]; [simpl; auto|].
    assert (INM : forall g o, In g (build_groups compatible parallelism l) -> In o (members g) -> In o l).
    { intros g o Hg Ho. eapply Permutation_in; [exact G3|]. apply in_concat. exists (members g). split; auto. now apply in_map. }
    assert (PR : Permutation (map rid (concat (map members (build_groups compatible parallelism l)))) (map rid l)) by now apply Permutation_map.
    destruct (vectorize_groups_ok B (build_groups compatible parallelism l) st) as (st1 & E1 & I1 & A1 & D1 & K1); auto.
    + intros g Hg. destruct (G1 g Hg) as (H1 & H2 & H3 & H4). split; [auto|split; [|auto]]. intros b Hb. destruct (H3 b Hb) as [Q1 Q2]. split; auto.
      apply width_ok; auto. destruct b; [congruence|simpl; lia].
    + intros g Hg. destruct (G1 g Hg) as (H1 & _). apply (HA (fst g)). simpl. apply in_or_app. left. eauto.
    + intros g o Hg Ho. destruct (G1 g Hg) as (H1 & H2 & H3 & H4). assert (Hol : In o (concat (l :: levels))) by (simpl; apply in_or_app; eauto).
      assert (Hkl : In (fst g) (concat (l :: levels))) by (simpl; apply in_or_app; eauto).
      destruct (HA o Hol) as (Q1 & Q2 & Q3). split; auto. split; auto. split; [eauto|]. split; auto.
      destruct (H4 o Ho) as [->|C]; auto.
    + eapply Permutation_NoDup; [apply Permutation_sym; exact PR|]. apply NoDup_app_remove_r in ND. auto.
    + rewrite E1. assert (ND' : forall o, In o (concat levels) -> ~ In (rid o) (map rid l)).
      { intros o Ho H. clear -ND Ho H. apply in_split in H as (a1 & a2 & EQ). rewrite EQ in ND. rewrite <- app_assoc in ND. simpl in ND.
        apply NoDup_remove_2 in ND. apply ND. apply in_or_app. right. apply in_or_app. right. now apply in_map. }
      destruct (IH st1) as (st2 & E2 & I2 & D2 & K2); auto.
      * intros o Ho. destruct (HA o) as (Q1 & Q2 & Q3); [simpl; apply in_or_app; auto|]. split; auto. apply A1; auto.
        intros H. apply (ND' o Ho). eapply Permutation_in; [exact PR|exact H].
      * intros l' Hl'. apply HB. simpl; auto.
      * intros k o Hk Ho. apply HL; simpl; apply in_or_app; auto.
      * apply NoDup_app_remove_l in ND. auto.
      * exists st2. split; auto. split; auto. split; [|auto].
        intros l' k o [<-|Hl'] Hk Ho Nk C; [|eapply D2; eauto].
        assert (S1 : forall x, In x l -> exists g, In g (build_groups compatible parallelism l) /\ In x (members g)).
        { intros x Hx. apply (Permutation_in _ (Permutation_sym G3)) in Hx. apply in_concat in Hx as (m & Hm & Hx).
          apply in_map_iff in Hm as (g & <- & Hg). eauto. }
        destruct (S1 k Hk) as (g & Hg & Hkg), (S1 o Ho) as (h & Hh & Hoh).
        (* both are in the same group *)
        assert (SG : g = h).
        { destruct (G1 g Hg) as (_ & _ & _ & Cg), (G1 h Hh) as (_ & _ & _ & Ch).
          assert (CK : fst g = fst h \/ compatible (fst g) (fst h) = true /\ compatible (fst h) (fst g) = true).
          { assert (Q : fst g = fst h \/ compatible (fst g) (fst h) = true).
            { destruct (Cg k Hkg) as [Ek|Ek], (Ch o Hoh) as [Eo|Eo].
              - right. congruence.
              - right. rewrite <- Ek. eauto.
              - right. rewrite <- Eo. eauto.
              - right. eauto. }
            destruct Q as [Q|Q]; auto. }
          clear -CK Hg Hh G1 G2 G3 ND.
          assert (NDg : NoDup (map rid (concat (map members (build_groups compatible parallelism l))))).
          { eapply Permutation_NoDup; [apply Permutation_map, Permutation_sym; exact G3|]. apply NoDup_app_remove_r in ND. auto. }
          revert NDg Hg Hh G1 G2. generalize (build_groups compatible parallelism l). clear G3. induction l0 as [|x l0 IH]; simpl; [tauto|].
          intros NDg [->|Hg] [Hh|Hh] G1 [A1 A2]; auto.
          - exfalso. destruct CK as [CK|[CK _]]; [|rewrite A1 in CK by auto; discriminate CK].
            destruct (G1 g) as (M1 & _); auto. destruct (G1 h) as (M2 & _); auto. rewrite map_app in NDg.
            apply in_split in M1 as (a1 & a2 & EQ). rewrite EQ in NDg. rewrite map_app in NDg. simpl in NDg. rewrite <- app_assoc in NDg.
            apply NoDup_remove_2 in NDg. apply NDg. apply in_or_app. right. apply in_or_app. right. rewrite CK. apply in_map. apply in_concat. exists (members h). split; auto. now apply in_map.
          - subst x. exfalso. destruct CK as [CK|[_ CK]]; [|rewrite A1 in CK by auto; discriminate CK].
            destruct (G1 g) as (M1 & _); auto. destruct (G1 h) as (M2 & _); auto. rewrite map_app in NDg.
            apply in_split in M2 as (a1 & a2 & EQ). rewrite EQ in NDg. rewrite map_app in NDg. simpl in NDg. rewrite <- app_assoc in NDg.
            apply NoDup_remove_2 in NDg. apply NDg. apply in_or_app. right. apply in_or_app. right. rewrite <- CK. apply in_map. apply in_concat. exists (members g). split; auto. now apply in_map.
          - apply IH; auto. rewrite map_app in NDg. apply NoDup_app_remove_l in NDg. auto. }
        subst h. assert (L2 : 2 <= length (members g)).
        { apply in_split in Hkg as (a1 & a2 & EQ). rewrite EQ in Hoh |- *. rewrite app_length. simpl.
          apply in_app_or in Hoh as [H|[H|H]]; [|congruence|].
          - destruct a1; [destruct H|simpl; lia].
          - destruct a2; [destruct H|simpl; lia]. }
        assert (R0 : forall x, In x l -> rid x < N0) by (intros x Hx; apply HA; simpl; apply in_or_app; auto).
        split; (apply K2; [auto|]); (eapply D1; [exact Hg| |exact L2]); auto.
Qed.
End Grouping.
End Bucket.

(** ** The backward slice *)
Lemma slice_incl before : forall w, incl w (slice before w).
Proof.
  induction before as [|o before IH]; intros w x Hx; simpl; auto. apply IH. destruct (mem _ _); auto. apply in_or_app. auto.
Qed.
Lemma slice_least before (S : nat -> Prop) : forall w, (forall x, In x w -> S x) ->
  (forall p x, In p before -> S (rid p) -> In x (args p) -> S x) -> forall x, In x (slice before w) -> S x.
Proof.
  induction before as [|o before IH]; intros w Hw Hc x; simpl; auto. apply IH.
  - intros y Hy. destruct (mem (rid o) w) eqn:E; auto. apply in_app_or in Hy as [Hy|Hy]; auto.
    apply (Hc o y); simpl; auto. apply Hw. now apply mem_In.
  - intros p y Hp. apply Hc. simpl; auto.
Qed.
Lemma slice_cases before w x : In x (slice before w) -> In x w \/ exists p, In p before /\ In x (args p).
Proof. apply (slice_least before (fun x => In x w \/ exists p, In p before /\ In x (args p))); eauto. Qed.
Lemma slice_closed I before : ssa I (rev before) -> forall w p x, In p before -> In (rid p) (slice before w) -> In x (args p) -> In x (slice before w).
Proof.
  induction before as [|o before IH]; intros HS w p x Hp Hr Hx; simpl in *; [tauto|].
  apply ssa_app in HS as [HS HO]. simpl in HO. destruct HO as (O1 & O2 & _).
  destruct Hp as [->|Hp]; [|eapply IH; eauto].
  destruct (mem (rid p) w) eqn:E; [apply slice_incl, in_or_app; auto|]. exfalso.
  assert (Nm : ~ In (rid p) w) by (intros H; apply mem_In in H; congruence).
  apply slice_cases in Hr as [Hr|(q & Hq & Hr)]; auto.
  apply O2. rewrite in_app_iff, <- in_rev.
  destruct (ssa_wired _ _ HS q (rid p)) as [H|H]; auto. rewrite <- in_rev. auto.
Qed.
Lemma slice_depends before w x : In x (slice before w) -> In x w \/ exists y, In y w /\ depends before y x.
Proof.
  apply (slice_least before (fun x => In x w \/ exists y, In y w /\ depends before y x)); auto.
  intros p z Hp [H|(y & Hy & Hd)] Hz.
  - right. exists (rid p). split; auto. apply t_step. exists p. auto.
  - right. exists y. split; auto. eapply t_trans; [exact Hd|]. apply t_step. exists p. auto.
Qed.
Lemma depends_incl l l' a b : incl l l' -> depends l a b -> depends l' a b.
Proof. intros H. induction 1 as [x y (o & H1 & H2)|]; [apply t_step; exists o; intuition|eapply t_trans; eauto]. Qed.

(** ** The dependency graph *)
Section Dependencies.
Variable candidate : op -> bool.
Definition is_cand (l : list op) (v : nat) : Prop := exists o, In o l /\ candidate o = true /\ rid o = v.
Definition dep_edge (l : list op) (u v : nat) : Prop := exists p1 o p2, l = p1 ++ o :: p2 /\ candidate o = true /\ rid o = v /\
  In u (slice (rev p1) (args o)) /\ is_cand (p1 ++ [o]) u.
Definition graph_of (l : list op) (g : graph) : Prop :=
  built g /\ (forall v, vertex g v <-> is_cand l v) /\ (forall u v, edge g u v <-> dep_edge l u v).

Lemma vertex_add v g x : vertex (add_vertex v g) x <-> x = v \/ vertex g x.
Proof. unfold vertex, add_vertex. cbn [verts]. rewrite set_insert_In. tauto. Qed.
Lemma edge_add_vertex v g x y : built g -> (edge (add_vertex v g) x y <-> edge g x y).
Proof.
  intros B. rewrite (edge_out (add_vertex v g)) by (apply built_wf; constructor; auto).
  rewrite (edge_out g) by (apply built_wf; auto). reflexivity.
Qed.
Lemma vertex_add_edge s t g x : vertex (snd (add_edge s t g)) x <-> vertex g x.
Proof. unfold vertex, add_edge. destruct (negb _ || negb _); reflexivity. Qed.
Lemma fold_edges v us : forall g, built g -> vertex g v ->
  let g' := fold_left (fun g u => snd (add_edge u v g)) us g in
  built g' /\ (forall x, vertex g' x <-> vertex g x) /\ (forall x y, edge g' x y <-> edge g x y \/ (y = v /\ In x us /\ vertex g x)).
Proof.
  induction us as [|u us IH]; intros g B V; cbn [fold_left].
  - split; auto. split; [tauto|]. intros x y. simpl. tauto.
  - destruct (IH (snd (add_edge u v g))) as (H1 & H2 & H3); [constructor; auto|now apply vertex_add_edge|].
    split; auto. split; [intros x; rewrite H2; apply vertex_add_edge|]. intros x y. rewrite H3.
    destruct (C38_edges g u v x y B) as [-> _]. rewrite vertex_add_edge. simpl.
    split; [intros [[H|(-> & -> & H & _)]|(-> & H & H')]; auto|]. intros [H|(-> & [->|H] & H')]; auto 6.
Qed.
Lemma build_graph_ok : forall rest before g, graph_of (rev before) g -> graph_of (rev before ++ rest) (build_graph candidate before rest g).
Proof.
  induction rest as [|o rest IH]; intros before g HG; cbn [build_graph]; [now rewrite app_nil_r|].
  replace (rev before ++ o :: rest) with (rev (o :: before) ++ rest) by (simpl; now rewrite <- app_assoc).
  apply IH. destruct HG as (B & HV & HE). simpl. set (l := rev before) in *.
  assert (SP : forall p1 q p2, l ++ [o] = p1 ++ q :: p2 -> (p1 = l /\ q = o /\ p2 = []) \/ exists p2', p2 = p2' ++ [o] /\ l = p1 ++ q :: p2').
  { intros p1 q p2 E. destruct p2 as [|z p2] using rev_ind.
    - apply app_inj_tail in E as [-> ->]. auto.
    - right. exists p2. rewrite app_comm_cons, app_assoc in E. apply app_inj_tail in E as [-> ->]. auto. }
  assert (CA : forall v, is_cand (l ++ [o]) v <-> is_cand l v \/ (candidate o = true /\ rid o = v)).
  { intros v. unfold is_cand. split.
    - intros (q & Hq & H1 & H2). apply in_app_or in Hq as [Hq|[<-|[]]]; eauto.
    - intros [(q & Hq & H)|H]; [exists q|exists o]; (split; [apply in_or_app; simpl; auto|auto]). }
  destruct (candidate o) eqn:C.
  - destruct (fold_edges (rid o) (slice before (args o)) (add_vertex (rid o) g)) as (F1 & F2 & F3); [constructor; auto|apply vertex_add; auto|].
    split; auto. split.
    + intros v. rewrite F2, vertex_add, HV, CA. intuition.
    + intros u v. rewrite F3, edge_add_vertex, HE, vertex_add, HV by auto. split.
      * intros [(p1 & q & p2 & E & H)|(-> & H1 & H2)].
        -- exists p1, q, (p2 ++ [o]). rewrite E, <- app_assoc. simpl. auto.
        -- exists l, o, []. split; auto. split; auto. split; auto. unfold l. rewrite rev_involutive. split; auto. apply CA. intuition.
      * intros (p1 & q & p2 & E & H1 & H2 & H3 & H4). destruct (SP _ _ _ E) as [(-> & -> & ->)|(p2' & -> & E')].
        -- right. unfold l in H3. rewrite rev_involutive in H3. split; auto. split; auto. apply CA in H4. intuition.
        -- left. exists p1, q, p2'. auto.
  - split; auto. split.
    + intros v. rewrite HV, CA. intuition discriminate.
    + intros u v. rewrite HE. split.
      * intros (p1 & q & p2 & E & H). exists p1, q, (p2 ++ [o]). rewrite E, <- app_assoc. simpl. auto.
      * intros (p1 & q & p2 & E & H1 & H). destruct (SP _ _ _ E) as [(-> & -> & ->)|(p2' & -> & E')]; [congruence|].
        exists p1, q, p2'. auto.
Qed.
Lemma graph_of_block l : graph_of l (build_graph candidate [] l empty_graph).
Proof.
  apply (build_graph_ok l []). split; [constructor|]. split.
  - intros v. unfold vertex. simpl. split; [tauto|]. intros (o & [] & _).
  - intros u v. rewrite edge_out by (apply built_wf; constructor). simpl. split; [tauto|].
    intros (p1 & o & p2 & E & _). destruct p1; discriminate E.
Qed.

Fixpoint pos (l : list op) (x : nat) : nat := match l with [] => 0 | o :: r => if rid o =? x then 0 else S (pos r x) end.
Lemma pos_split p1 o p2 : ~ In (rid o) (map rid p1) -> pos (p1 ++ o :: p2) (rid o) = length p1.
Proof.
  induction p1 as [|q p1 IH]; simpl; intros H; [now rewrite Nat.eqb_refl|].
  destruct (Nat.eqb_spec (rid q) (rid o)); [tauto|]. rewrite IH; tauto.
Qed.
Lemma pos_in p1 p2 x : In x (map rid p1) -> pos (p1 ++ p2) x < length p1.
Proof.
  induction p1 as [|q p1 IH]; simpl; [tauto|]. intros H. destruct (Nat.eqb_spec (rid q) x); [lia|]. destruct H; [tauto|]. specialize (IH H). lia.
Qed.
Lemma ssa_split I p1 o p2 : ssa I (p1 ++ o :: p2) -> (forall a, In a (args o) -> In a I \/ In a (map rid p1)) /\
  ~ In (rid o) I /\ ~ In (rid o) (map rid p1) /\ ssa I p1.
Proof.
  intros H. apply ssa_app in H as [H1 H2]. simpl in H2. destruct H2 as (A & B & _). split; [|split; [|split; auto]].
  - intros a Ha. apply A in Ha. rewrite in_app_iff, <- in_rev in Ha. tauto.
  - intros H. apply B. apply in_or_app. auto.
  - intros H. apply B. apply in_or_app. left. now rewrite <- in_rev.
Qed.
Lemma slice_known I p1 o p2 x : ssa I (p1 ++ o :: p2) -> In x (slice (rev p1) (args o)) -> In x I \/ In x (map rid p1).
Proof.
  intros HS Hx. apply ssa_split in HS as (A & _ & _ & S1). apply slice_cases in Hx as [Hx|(p & Hp & Hx)]; auto.
  rewrite <- in_rev in Hp. eapply ssa_wired; eauto.
Qed.
Lemma cand_not_input I l v : ssa I l -> is_cand l v -> ~ In v I.
Proof. intros HS (o & Ho & _ & <-) H. eapply ssa_notin; eauto. now apply in_map. Qed.
Lemma dep_edge_pos I l u v : ssa I l -> dep_edge l u v -> pos l u < pos l v.
Proof.
  intros HS (p1 & o & p2 & -> & C & <- & Hu & HC).
  destruct (slice_known _ _ _ _ _ HS Hu) as [H|H].
  - exfalso. eapply cand_not_input; [exact HS| |exact H]. destruct HC as (q & Hq & H1). exists q. split; auto.
    apply in_app_or in Hq as [Hq|[<-|[]]]; apply in_or_app; simpl; auto.
  - rewrite pos_split by (eapply ssa_split; eauto). now apply pos_in.
Qed.

Section Base.
Context (I : list nat) (P : list op) (HS : ssa I P) (L : list (list nat)).
Context (HL : sort_by_levels (build_graph candidate [] P empty_graph) = Some (Some L)).
Let g := build_graph candidate [] P empty_graph.
Lemma levels_facts : Permutation (concat L) (verts g) /\ (forall i j u v, In u (nth i L []) -> In v (nth j L []) -> dep_edge P u v -> i < j).
Proof.
  destruct (graph_of_block P) as (B & HV & HE). destruct (C39_levels g B) as (r & E & H). unfold g in E. rewrite HL in E. injection E as <-.
  destruct H as [H1 H2]. split; auto. intros i j u v Hu Hv Hd. apply (H2 i j u v); auto. now apply HE.
Qed.
Lemma verts_nodup : NoDup (verts g).
Proof. apply sorted_nodup, wf_verts, built_wf. apply graph_of_block. Qed.
Fixpoint first_index (f : list nat -> bool) (l : list (list nat)) : nat :=
  match l with [] => 0 | x :: r => if f x then 0 else S (first_index f r) end.
Definition lvl (v : nat) : nat := first_index (fun l => mem v l) L.
Lemma lvl_spec v i : In v (nth i L []) -> lvl v = i.
Proof.
  intros Hv. assert (ND : NoDup (concat L)).
  { eapply Permutation_NoDup; [apply Permutation_sym, levels_facts|apply verts_nodup]. }
  unfold lvl. revert i Hv. clear -ND. induction L as [|l L' IH]; intros i Hv; simpl in *; [destruct i; destruct Hv|].
  destruct (mem v l) eqn:E.
  - apply mem_In in E. destruct i; auto. exfalso. simpl in Hv. clear -ND E Hv.
    apply in_split in E as (a1 & a2 & ->). rewrite <- app_assoc in ND. simpl in ND. apply NoDup_remove_2 in ND. apply ND.
    apply in_or_app. right. apply in_or_app. right. apply in_concat. exists (nth i L' []). split; auto. apply nth_In.
    destruct (le_lt_dec (length L') i); auto. rewrite nth_overflow in Hv by auto. destruct Hv.
  - destruct i; simpl in Hv; [apply mem_In in Hv; congruence|]. f_equal. apply IH; auto. apply NoDup_app_remove_l in ND. auto.
Qed.
Lemma lvl_in v : is_cand P v -> In v (nth (lvl v) L []).
Proof.
  intros HC. destruct (graph_of_block P) as (B & HV & HE). apply HV in HC. destruct levels_facts as [PM _].
  apply (Permutation_in _ (Permutation_sym PM)) in HC. apply in_concat in HC as (l & Hl & Hv).
  apply In_nth with (d := []) in Hl as (i & Hi & <-). now rewrite (lvl_spec v i).
Qed.
Lemma lvl_edge u v : is_cand P u -> is_cand P v -> dep_edge P u v -> lvl u < lvl v.
Proof. intros Hu Hv. apply levels_facts; now apply lvl_in. Qed.

Definition candb (v : nat) : bool := existsb (fun o => candidate o && (rid o =? v)) P.
Lemma candb_spec v : candb v = true <-> is_cand P v.
Proof.
  unfold candb, is_cand. rewrite existsb_exists. split.
  - intros (o & Ho & E). apply andb_true_iff in E as [E1 E2]. apply Nat.eqb_eq in E2. eauto.
  - intros (o & Ho & E1 & E2). exists o. split; auto. rewrite E1, E2, Nat.eqb_refl. auto.
Qed.
Definition height (x : nat) : nat := list_max (map (fun b => if candb b then S (lvl b) else 0) (slice (rev P) [x])).
Lemma height_ge b x : In b (slice (rev P) [x]) -> is_cand P b -> S (lvl b) <= height x.
Proof.
  intros Hb HC. unfold height. apply candb_spec in HC.
  assert (H : Forall (fun k => k <= height x) (map (fun b => if candb b then S (lvl b) else 0) (slice (rev P) [x]))) by (apply list_max_le; auto).
  rewrite Forall_forall in H. apply H. apply in_map_iff. exists b. now rewrite HC.
Qed.
Lemma height_le x n : (forall b, In b (slice (rev P) [x]) -> is_cand P b -> S (lvl b) <= n) -> height x <= n.
Proof.
  intros H. unfold height. apply list_max_le. rewrite Forall_forall. intros k Hk. apply in_map_iff in Hk as (b & <- & Hb).
  destruct (candb b) eqn:E; [|lia]. apply H; auto. now apply candb_spec.
Qed.
Lemma closed_P w p x : In p P -> In (rid p) (slice (rev P) w) -> In x (args p) -> In x (slice (rev P) w).
Proof. intros Hp. apply (slice_closed I); [now rewrite rev_involutive|now rewrite <- in_rev]. Qed.
Lemma height_arg o a : In o P -> In a (args o) -> height a <= height (rid o).
Proof.
  intros Ho Ha. apply height_le. intros b Hb HC. apply height_ge; auto. revert b Hb HC.
  intros b Hb _. revert b Hb. apply (slice_least (rev P) (fun x => In x (slice (rev P) [rid o]))).
  - intros x [<-|[]]. eapply closed_P; eauto. apply slice_incl. simpl; auto.
  - intros p x Hp. apply closed_P. now rewrite in_rev.
Qed.
Lemma height_cand o a : In o P -> candidate o = true -> In a (args o) -> height a <= lvl (rid o).
Proof.
  intros Ho C Ha. apply height_le. intros b Hb HC. apply lvl_edge; auto; [exists o; auto|].
  apply in_split in Ho as (p1 & p2 & E). exists p1, o, p2. split; auto. split; auto. split; auto.
  pose proof HS as HS'. rewrite E in HS'. destruct (ssa_split _ _ _ _ HS') as (A1 & A2 & A3 & A4).
  assert (SB : forall x, In x (slice (rev P) [a]) -> In x (slice (rev p1) (args o))).
  { apply (slice_least (rev P) (fun x => In x (slice (rev p1) (args o)))).
    - intros x [<-|[]]. now apply slice_incl.
    - intros p x Hp Hr Hx. rewrite <- in_rev in Hp. assert (Hp1 : In p p1).
      { destruct (slice_known _ _ _ _ _ HS' Hr) as [H|H].
        - exfalso. eapply ssa_notin; [exact HS|exact H|now apply in_map].
        - apply in_map_iff in H as (q & Eq & Hq). replace p with q; auto.
          pose proof (ssa_nodup _ _ HS) as ND. assert (HqP : In q P) by (rewrite E; apply in_or_app; auto).
          pose proof (find_op_In _ _ ND HqP) as F1. pose proof (find_op_In _ _ ND Hp) as F2. rewrite Eq in F1. congruence. }
      eapply slice_closed; [rewrite rev_involutive; exact A4|rewrite <- in_rev; exact Hp1|exact Hr|exact Hx]. }
  specialize (SB b Hb). split; auto. destruct (slice_known _ _ _ _ _ HS' SB) as [H|H].
  - exfalso. exact (cand_not_input I P b HS HC H).
  - destruct HC as (q & Hq & Cq & Rq). apply in_map_iff in H as (q' & Eq & Hq'). exists q'. split; [apply in_or_app; auto|]. split; auto.
    pose proof (ssa_nodup _ _ HS) as ND. assert (HqP : In q' P) by (rewrite E; apply in_or_app; auto).
    pose proof (find_op_In _ _ ND HqP) as F1. pose proof (find_op_In _ _ ND Hq) as F2. rewrite Eq, <- Rq in F1. congruence.
Qed.
Definition width_K : nat := 2 + length P.
Definition base_of (x : nat) : nat := if candb x then (2 * lvl x + 1) * width_K else 2 * height x * width_K + pos P x + 1.
Lemma pos_lt o : In o P -> pos P (rid o) < length P.
Proof. intros H. rewrite <- (app_nil_r P) at 1. apply pos_in. now apply in_map. Qed.
Lemma base_arg o a : In o P -> In a (args o) -> In a I \/ base_of a < base_of (rid o).
Proof.
  intros Ho Ha. destruct (ssa_wired _ _ HS o a Ho Ha) as [H|H]; auto. right. apply in_map_iff in H as (q & Eq & Hq). subst a.
  pose proof (height_arg o (rid q) Ho Ha) as H1. pose proof (pos_lt q Hq) as H2.
  assert (PO : pos P (rid q) < pos P (rid o)).
  { apply in_split in Ho as (p1 & p2 & E). pose proof HS as HS'. rewrite E in HS'. destruct (ssa_split _ _ _ _ HS') as (A1 & A2 & A3 & A4).
    rewrite E, pos_split by auto. apply pos_in. destruct (A1 _ Ha); auto. exfalso. eapply ssa_notin; [exact HS|eauto|now apply in_map]. }
  unfold base_of. destruct (candb (rid q)) eqn:Cq, (candb (rid o)) eqn:Co.
  - pose proof (proj1 (candb_spec _) Cq) as Q1. pose proof (proj1 (candb_spec _) Co) as Q2.
    assert (S (lvl (rid q)) <= height (rid q)) by (apply height_ge; auto; apply slice_incl; simpl; auto).
    assert (height (rid q) <= lvl (rid o)).
    { destruct Q2 as (o' & Ho' & C' & R'). rewrite <- R'. apply height_cand; auto.
      pose proof (ssa_nodup _ _ HS) as ND. pose proof (find_op_In _ _ ND Ho') as F1. pose proof (find_op_In _ _ ND Ho) as F2. rewrite R' in F1. congruence. }
    apply Nat.mul_lt_mono_pos_r; unfold width_K; lia.
  - pose proof (proj1 (candb_spec _) Cq) as Q1.
    assert (S (lvl (rid q)) <= height (rid q)) by (apply height_ge; auto; apply slice_incl; simpl; auto).
    assert ((2 * lvl (rid q) + 1) * width_K <= 2 * height (rid o) * width_K) by (apply Nat.mul_le_mono_r; lia). lia.
  - pose proof (proj1 (candb_spec _) Co) as Q2.
    assert (height (rid q) <= lvl (rid o)).
    { destruct Q2 as (o' & Ho' & C' & R'). rewrite <- R'. apply height_cand; auto.
      pose proof (ssa_nodup _ _ HS) as ND. pose proof (find_op_In _ _ ND Ho') as F1. pose proof (find_op_In _ _ ND Ho) as F2. rewrite R' in F1. congruence. }
    assert ((2 * height (rid q) + 1) * width_K <= (2 * lvl (rid o) + 1) * width_K) by (apply Nat.mul_le_mono_r; lia).
    assert ((2 * height (rid q) + 1) * width_K = 2 * height (rid q) * width_K + width_K) by (rewrite Nat.mul_add_distr_r; lia).
    unfold width_K in *. lia.
  - assert (2 * height (rid q) * width_K <= 2 * height (rid o) * width_K) by (apply Nat.mul_le_mono_r; lia). lia.
Qed.
End Base.
End Dependencies.

(** ** The vectorizer *)
Section Vectorizer.
Context {X : Type} (sem : scalar_op -> list (value X) -> option (value X)).
Variable candidate : op -> bool.
Variable compatible : op -> op -> bool.
Variable lanes : op -> list op -> option (list scalar_op).
Hypothesis candidate_head : forall o o', same_head o o' -> candidate o' = candidate o.
Hypothesis compatible_head : forall k k' o o', same_head k k' -> same_head o o' -> compatible k' o' = compatible k o.
Hypothesis compatible_sym : forall a b, compatible a b = true -> compatible b a = true.
Hypothesis compatible_trans : forall a b c, compatible a b = true -> compatible b c = true -> compatible a c = true.
Hypothesis lanes_ok : forall k l, candidate k = true -> (forall o, In o l -> compatible k o = true \/ same_head k o) ->
  exists ks, lanes k l = Some ks /\ Forall2 (fun o s => kind o = Scalar s) l ks.

Lemma vectorize_ok I par P rs nx e0 e : ssa I P -> (forall i, In i I -> i < nx) -> (forall o, In o P -> rid o < nx) ->
  (forall r, In r rs -> In r I \/ In r (map rid P)) ->
  (forall k o, In k P -> In o P -> candidate k = true -> candidate o = true -> compatible k o = true -> length (args o) = length (args k)) ->
  run sem P e0 = Some e ->
  exists st', vectorize candidate compatible lanes par {| ops := P; rets := rs; next := nx |} = Some st' /\
    (exists Q, Permutation (ops st') Q /\ ssa I Q) /\
    (forall Q, Permutation (ops st') Q -> ssa I Q -> exists e', run sem Q e0 = Some e' /\ map e' (rets st') = map e rs) /\
    (forall o ks, In o (ops st') -> kind o = Lanes ks -> (1 <= length ks /\ (par = 0 \/ length ks <= par)) \/
       exists p ks', In p P /\ kind p = Lanes ks' /\ length ks = length ks') /\
    (forall k o, In k P -> In o P -> candidate k = true -> candidate o = true -> rid k <> rid o -> compatible k o = true ->
       (forall q, In q P -> candidate q = true -> ~ depends P (rid q) (rid k) /\ ~ depends P (rid q) (rid o)) ->
       ~ In (rid k) (map rid (ops st')) /\ ~ In (rid o) (map rid (ops st'))).
Proof.
  intros HS HI HP HR HA HRun. unfold vectorize. cbn [ops]. set (g := build_graph candidate [] P empty_graph).
  destruct (graph_of_block candidate P) as (BG & HV & HE). fold g in BG, HV, HE.
  destruct (C39_levels g BG) as (r & ER & HL). destruct r as [L|].
  2: { exfalso. destruct HL as (v & Hv). assert (T : forall u v, reaches g u v -> pos P u < pos P v).
       { intros u w H. induction H as [u w H|u w z H1 IH1 H2 IH2]; [|lia]. apply HE in H. eapply dep_edge_pos; eauto. }
       specialize (T v v Hv). lia. }
  rewrite ER. pose proof (ssa_nodup _ _ HS) as ND.
  pose proof (levels_facts candidate P L ER) as [PM _]. fold g in PM.
  assert (LC : forall v, In v (concat L) -> exists o, In o P /\ candidate o = true /\ rid o = v).
  { intros v Hv. apply (Permutation_in _ PM) in Hv. apply HV in Hv. exact Hv. }
  assert (LS : exists ls, all_some (map (fun l => all_some (map (find_op P) l)) L) = Some ls /\ map (map rid) ls = L /\
                (forall l o, In l ls -> In o l -> In o P)).
  { clear -LC ND. induction L as [|l L IH]; [exists []; simpl; split; auto; split; auto; intros l o []|].
    destruct IH as (ls & E1 & E2 & E3); [intros v Hv; apply LC; simpl; apply in_or_app; auto|].
    assert (LL : exists os, all_some (map (find_op P) l) = Some os /\ map rid os = l /\ forall o, In o os -> In o P).
    { assert (LC' : forall v, In v l -> exists o, In o P /\ rid o = v).
      { intros v Hv. destruct (LC v) as (o & H1 & _ & H2); [simpl; apply in_or_app; auto|]. eauto. }
      clear -LC' ND. induction l as [|v l IH]; [exists []; simpl; split; auto; split; auto; intros o []|].
      destruct IH as (os & F1 & F2 & F3); [intros; apply LC'; simpl; auto|]. destruct (LC' v) as (o & Ho & <-); [simpl; auto|].
      exists (o :: os). simpl. rewrite F1, (find_op_In _ _ ND Ho). split; auto. split; [now rewrite F2|]. intros q [<-|Hq]; auto. }
    destruct LL as (os & F1 & F2 & F3). exists (os :: ls). simpl. rewrite F1, E1. split; auto. split; [now rewrite F2, E2|].
    intros l' o [<-|Hl]; eauto. }
  destruct LS as (ls & E1 & E2 & E3). rewrite E1.
  set (base0 := base_of candidate P L).
  set (width := fun n => (1 <= n /\ (par = 0 \/ n <= par)) \/ exists p ks', In p P /\ kind p = Lanes ks' /\ n = length ks').
  assert (RC : map rid (concat ls) = concat L) by (rewrite concat_map, E2; auto).
  assert (CIN : forall o, In o (concat ls) -> In o P /\ candidate o = true).
  { intros o Ho. assert (HoP : In o P) by (apply in_concat in Ho as (l & Hl & Ho); eauto). split; auto.
    destruct (LC (rid o)) as (q & Hq & Cq & Rq); [rewrite <- RC; now apply in_map|].
    pose proof (find_op_In _ _ ND HoP) as F1. pose proof (find_op_In _ _ ND Hq) as F2. rewrite Rq in F2. congruence. }
  assert (INTH : forall l, In l ls -> exists i, forall o, In o l -> In (rid o) (nth i L [])).
  { intros l Hl. apply (in_map (map rid)) in Hl. rewrite E2 in Hl. apply In_nth with (d := []) in Hl as (i & _ & Ei).
    exists i. intros o Ho. rewrite Ei. now apply in_map. }
  assert (INV : Inv sem I nx base0 e rs width {| ops := P; rets := rs; next := nx |}).
  { exists e, base0, (fun _ => 0). cbn [ops rets next]. split; [split; auto|].
    - intros o Ho H. eapply ssa_notin; eauto. now apply in_map.
    - intros o a. apply (ssa_wired _ _ HS).
    - intros o Ho. eapply run_satisfies; eauto.
    - intros o a Ho Ha. left. split; auto. apply base_arg; auto.
    - split; [intros; lia|]. split; auto. split; auto. split; auto. split; auto.
      intros o ks Ho Ek. right. eauto. }
  destruct (vectorize_levels_ok sem I nx base0 e rs width candidate compatible lanes candidate_head compatible_head compatible_sym compatible_trans lanes_ok
              par) with (levels := ls) (st := {| ops := P; rets := rs; next := nx |}) as (st' & EV & IV & DV & _); auto.
  - intros n H1 H2. left. auto.
  - intros o Ho. destruct (CIN o Ho) as [H1 H2]. split; [exists o; split; auto; apply same_head_refl|]. auto.
  - intros l Hl. destruct (INTH l Hl) as [i Hi]. exists ((2 * i + 1) * width_K P). intros o Ho. unfold base0, base_of.
    replace (candb candidate P (rid o)) with true.
    + now rewrite (lvl_spec candidate P L ER (rid o) i) by auto.
    + symmetry. apply candb_spec. exists o. destruct (CIN o); auto. apply in_concat. eauto.
  - intros k o Hk Ho. destruct (CIN k Hk), (CIN o Ho). now apply HA.
  - rewrite RC. eapply Permutation_NoDup; [apply Permutation_sym; exact PM|]. apply verts_nodup.
  - exists st'. split; auto. destruct IV as (F & base & sub & G & S3 & FE & BE & RW & RE & WD).
    split; [eapply good_ssa; eauto|]. split; [|split].
    + intros Q PQ SQ. destruct (satisfies_run sem F Q I e0 SQ) as (e' & RE' & EE).
      * intros o Ho. apply (g_eq _ _ _ _ _ _ _ _ G). eapply Permutation_in; [apply Permutation_sym; exact PQ|auto].
      * intros x Hx. rewrite FE by auto. symmetry. eapply run_frame; eauto. eapply ssa_notin; eauto.
      * exists e'. split; auto. rewrite <- RE. apply map_ext_in. intros x Hx. apply EE. destruct (RW x Hx) as [H|H]; auto.
        right. eapply Permutation_in; [apply Permutation_map; exact PQ|auto].
    + intros o ks Ho Ek. destruct (WD o ks Ho Ek) as [H|(p & ks' & H1 & H2 & H3)]; eauto 6.
    + intros k o Hk Ho Ck Co NE C HD.
      assert (LAST : forall q, In q P -> candidate q = true -> (forall p, In p P -> candidate p = true -> ~ depends P (rid p) (rid q)) ->
                exists i, In (rid q) (nth i L []) /\ S i = length L).
      { intros q Hq Cq ND'. assert (Hc : is_cand candidate P (rid q)) by (exists q; auto).
        exists (lvl L (rid q)). pose proof (lvl_in candidate P L ER _ Hc) as HIN. split; auto.
        destruct (C39_level_is_longest_walk g L _ (rid q) BG ER HIN) as ((w & (W1 & W2) & W3 & W4) & _).
        destruct w as [|x [|y w]]; [congruence|simpl in W4; lia|]. exfalso. simpl in W3. subst x.
        inversion W2 as [|? ? _ HH]; subst. inversion HH as [|? ? Hed]; subst. apply HE in Hed.
        destruct Hed as (p1 & p & p2 & EP & Cp & Rp & Hsl & _). apply (ND' p); [rewrite EP; apply in_or_app; simpl; auto|auto|].
        assert (INC : incl (rev p1) P) by (intros z Hz; rewrite <- in_rev in Hz; rewrite EP; apply in_or_app; auto).
        assert (HpP : In p P) by (rewrite EP; apply in_or_app; simpl; auto).
        apply slice_depends in Hsl as [Hsl|(z & Hz & Hd)]; [apply t_step; exists p; auto|].
        eapply t_trans; [apply t_step; exists p; split; [exact HpP|split; [auto|exact Hz]]|]. eapply depends_incl; eauto. }
      destruct (LAST k Hk Ck) as (i & Hi & Li); [intros p Hp Cp; apply HD; auto|].
      destruct (LAST o Ho Co) as (j & Hj & Lj); [intros p Hp Cp; apply HD; auto|].
      assert (j = i) by lia. subst j.
      assert (HLi : In (nth i L []) (map (map rid) ls)) by (rewrite E2; apply nth_In; lia).
      apply in_map_iff in HLi as (l & El & Hl). rewrite <- El in Hi, Hj.
      assert (PICK : forall q, In q P -> In (rid q) (map rid l) -> In q l).
      { intros q Hq H. apply in_map_iff in H as (q' & Eq & Hq'). replace q with q'; auto.
        pose proof (find_op_In _ _ ND (E3 l q' Hl Hq')) as F1. pose proof (find_op_In _ _ ND Hq) as F2. rewrite Eq in F1. congruence. }
      exact (DV l k o Hl (PICK k Hk Hi) (PICK o Ho Hj) NE C).
Qed.
End Vectorizer.
