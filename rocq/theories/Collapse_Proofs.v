(** Proofs about the collapse of insertion chains. *)
From Coq Require Import ZArith List Bool Lia.
From Verif Require Import Rotate_Spec Rotate_Proofs Collapse_Model.
Import ListNotations.
Open Scope Z_scope.

Lemma tref_eqb_ok a b : tref_eqb a b = true -> a = b.
Proof. destruct a, b; cbn; intros H; try discriminate; apply Nat.eqb_eq in H; subst; auto. Qed.
Lemma tref_eqb_refl a : tref_eqb a a = true.
Proof. destruct a; cbn; apply Nat.eqb_refl. Qed.
Lemma set_insert_in z y acc : In y (set_insert z acc) <-> y = z \/ In y acc.
Proof.
  unfold set_insert. destruct (existsb (Z.eqb z) acc) eqn:E.
  - apply existsb_exists in E. destruct E as (x & Hx & E). apply Z.eqb_eq in E. subst x. intuition. subst. auto.
  - cbn. intuition.
Qed.
Lemma set_insert_nodup z acc : NoDup acc -> NoDup (set_insert z acc).
Proof.
  intros H. unfold set_insert. destruct (existsb (Z.eqb z) acc) eqn:E; auto. constructor; auto. intros I.
  assert (existsb (Z.eqb z) acc = true) by (apply existsb_exists; exists z; split; auto; apply Z.eqb_refl). congruence.
Qed.
(** n distinct numbers below n are all of them *)
Lemma covers n (acc : list Z) : NoDup acc -> (forall z, In z acc -> 0 <= z < Z.of_nat n) -> length acc = n -> forall z, 0 <= z < Z.of_nat n -> In z acc.
Proof.
  intros Nd B L z Hz.
  assert (I : incl acc (map Z.of_nat (seq 0 n))).
  { intros y Hy. apply B in Hy. apply in_map_iff. exists (Z.to_nat y). split; [lia|]. apply in_seq. lia. }
  assert (J : incl (map Z.of_nat (seq 0 n)) acc) by (apply NoDup_length_incl; auto; rewrite map_length, seq_length; lia).
  apply J. apply in_map_iff. exists (Z.to_nat z). split; [lia|]. apply in_seq. lia.
Qed.
Lemma nth_error_replace p k o : (k < length p)%nat -> forall j, nth_error (replace_op p k o) j = if Nat.eqb j k then Some o else nth_error p j.
Proof.
  revert k. induction p as [|a p IH]; intros [|k] H [|j]; cbn in *; try lia; auto. apply IH. lia.
Qed.
Lemma replace_length p k o : length (replace_op p k o) = length p.
Proof. revert k. induction p as [|a p IH]; intros [|k]; cbn; auto. Qed.

Section Meaning.
Variable E : Type.
Variable args : nat -> list E.
Variable scal : nat -> E.
Variable idx : nat -> Z.
Notation tget := (tget E args).
Notation exec := (exec E args scal idx).
Notation run := (run E args scal idx).

Lemma set_nth_length l : forall j e, length (set_nth E l j e) = length l.
Proof. induction l as [|a l IH]; intros [|j] e; cbn; auto. Qed.
Lemma nth_error_set l : forall j e i, (j < length l)%nat -> nth_error (set_nth E l j e) i = if Nat.eqb i j then Some e else nth_error l i.
Proof. induction l as [|a l IH]; intros [|j] e [|i] H; cbn in *; try lia; auto. apply IH. lia. Qed.
Lemma at_index_ok l z e : at_index E l z = Some e <-> 0 <= z < Z.of_nat (length l) /\ nth_error l (Z.to_nat z) = Some e.
Proof.
  unfold at_index. destruct (Z.ltb_spec z 0).
  - split; [discriminate|]. lia.
  - split; [|tauto]. intros H1. split; auto. assert (Z.to_nat z < length l)%nat by (apply nth_error_Some; congruence). lia.
Qed.

(** the values of a program *)
Lemma run_char p : forall v0 vals, run v0 p = Some vals <->
  length vals = (length v0 + length p)%nat /\ firstn (length v0) vals = v0 /\
  forall k o, nth_error p k = Some o -> exists v, nth_error vals (length v0 + k) = Some v /\ exec (firstn (length v0 + k) vals) o = Some v.
Proof.
  induction p as [|o p IH]; intros v0 vals; cbn [Collapse_Model.run].
  - split.
    + intros [= <-]. cbn. rewrite Nat.add_0_r, firstn_all. split; auto. split; auto. intros [|k] o H; discriminate.
    + intros (L & F & _). cbn in L. rewrite Nat.add_0_r in L. rewrite <- L, firstn_all in F. congruence.
  - destruct (exec v0 o) as [v|] eqn:Ev.
    + rewrite IH, app_length. cbn [length]. split; intros (L & F & H).
      * split; [lia|]. assert (F0 : firstn (length v0) vals = v0).
        { transitivity (firstn (length v0) (firstn (length v0 + 1) vals)); [rewrite firstn_firstn; f_equal; lia|]. rewrite F.
          rewrite firstn_app, Nat.sub_diag, firstn_all. cbn. apply app_nil_r. }
        split; auto. intros [|k] o' Hk.
        -- injection Hk as <-. exists v. rewrite Nat.add_0_r, F0. split; auto.
           rewrite <- (firstn_skipn (length v0 + 1) vals), F. rewrite nth_error_app1 by (rewrite app_length; cbn; lia). rewrite nth_error_app2 by lia. rewrite Nat.sub_diag. reflexivity.
        -- specialize (H k o' Hk). replace (length v0 + 1 + k)%nat with (length v0 + S k)%nat in H by lia. exact H.
      * split; [lia|]. split.
        -- destruct (H 0%nat o eq_refl) as (v' & N & X). rewrite Nat.add_0_r, F in X. rewrite Nat.add_0_r in N. assert (v' = v) by congruence. subst v'.
           rewrite <- (firstn_skipn (length v0) vals), F. rewrite firstn_app, firstn_all2 by lia. f_equal.
           replace (length v0 + 1 - length v0)%nat with 1%nat by lia. rewrite <- (firstn_skipn (length v0) vals), F in N. rewrite nth_error_app2, Nat.sub_diag in N by lia.
           destruct (skipn (length v0) vals); [discriminate|]. cbn in *. congruence.
        -- intros k o' Hk. specialize (H (S k) o' Hk). replace (length v0 + 1 + k)%nat with (length v0 + S k)%nat by lia. exact H.
    + split; [discriminate|]. intros (L & F & H). destruct (H 0%nat o eq_refl) as (v' & _ & X). rewrite Nat.add_0_r, F in X. congruence.
Qed.
Lemma run_values p vals : run [] p = Some vals <->
  length vals = length p /\ forall k o, nth_error p k = Some o -> exists v, nth_error vals k = Some v /\ exec (firstn k vals) o = Some v.
Proof. rewrite run_char. cbn. intuition. Qed.

Lemma tget_prefix k vals t l : tget (firstn k vals) t = Some l -> tget vals t = Some l.
Proof.
  destruct t as [x|j]; cbn; auto. intros H. assert (B : (j < length (firstn k vals))%nat) by (apply nth_error_Some; congruence).
  rewrite <- (firstn_skipn k vals). rewrite nth_error_app1 by auto. exact H.
Qed.

Section Block.
Variable alen : nat -> Z.
Hypothesis alen_ok : forall x, Z.of_nat (length (args x)) = alen x.
Variable p : program.
Variable vals : list (list E).
Hypothesis Hrun : run [] p = Some vals.

Lemma value k o : nth_error p k = Some o -> exists v, nth_error vals k = Some v /\ exec (firstn k vals) o = Some v.
Proof. exact (proj2 (proj1 (run_values p vals) Hrun) k o). Qed.
Lemma insert_value k s d i : nth_error p k = Some (Insert s d i) -> exists v e l, nth_error vals k = Some v /\
  sget E args scal idx (firstn k vals) s = Some e /\ tget vals d = Some l /\ 0 <= iget idx i < Z.of_nat (length l) /\ v = set_nth E l (Z.to_nat (iget idx i)) e.
Proof.
  intros H. destruct (value k _ H) as (v & N & X). cbn [Collapse_Model.exec] in X.
  destruct (sget _ _ _ _ _ s) as [e|] eqn:Es; [|discriminate]. destruct (tget (firstn k vals) d) as [l|] eqn:Ed; [|discriminate].
  destruct (at_index E l (iget idx i)) as [e'|] eqn:Ea; [|discriminate]. injection X as <-. apply at_index_ok in Ea.
  exists (set_nth E l (Z.to_nat (iget idx i)) e), e, l. split; auto. split; auto. split; [eapply tget_prefix; eauto|]. split; [tauto|auto].
Qed.
Lemma length_of_ok f : forall t n l, length_of alen f p t = Some n -> tget vals t = Some l -> Z.of_nat (length l) = n.
Proof.
  induction f as [|f IH]; intros t n l H Hl; [discriminate|]. cbn [length_of] in H. destruct t as [x|k].
  - injection H as <-. cbn in Hl. injection Hl as <-. apply alen_ok.
  - destruct (nth_error p k) as [[s d i|t' s]|] eqn:Ek; [| |discriminate].
    + destruct (insert_value k s d i Ek) as (v & e & l' & N & _ & D & _ & Ev). cbn in Hl. rewrite N in Hl. injection Hl as <-. subst v. rewrite set_nth_length. eapply IH; eauto.
    + destruct (value k _ Ek) as (v & N & X). cbn in X. destruct (tget (firstn k vals) t') as [l'|] eqn:Et; [|discriminate]. injection X as <-.
      cbn in Hl. rewrite N in Hl. injection Hl as <-. rewrite rot_length. eapply IH; eauto. eapply tget_prefix; eauto.
Qed.
Lemma shift_ok d i src e s l ls : calculateShift alen p d i src e = Some s -> tget vals d = Some l -> tget vals src = Some ls ->
  exists iz ez, i = Cst iz /\ e = Cst ez /\ length l = length ls /\ (0 <= iz < Z.of_nat (length ls) -> 0 <= ez < Z.of_nat (length ls) -> (iz + s) mod Z.of_nat (length ls) = ez).
Proof.
  unfold calculateShift. intros H Hd Hs. destruct i as [iz|]; [|discriminate]. destruct e as [ez|]; [|discriminate]. cbn [get1DExtractionIndex] in H.
  destruct (length_of _ _ p d) as [n|] eqn:En; [|discriminate]. destruct (length_of _ _ p src) as [m|] eqn:Em; [|discriminate].
  destruct (Z.eqb_spec n m) as [->|]; [|discriminate]. cbv zeta in H. injection H as <-.
  pose proof (length_of_ok _ _ _ _ En Hd). pose proof (length_of_ok _ _ _ _ Em Hs). exists iz, ez. split; auto. split; auto. split; [lia|].
  intros B1 B2. destruct (Z.ltb_spec (ez - iz) 0).
  - replace (iz + (ez - iz + m)) with (ez + 1 * Z.of_nat (length ls)) by lia. rewrite Z_mod_plus_full. apply Z.mod_small. lia.
  - replace (iz + (ez - iz)) with ez by lia. apply Z.mod_small. lia.
Qed.

Variable src : tref.
Variable ls : list E.
Variable shift : Z.
Notation n := (Z.of_nat (length ls)).
Hypothesis Hsrc : tget vals src = Some ls.
(** the elements set so far *)
Definition upto (acc : list Z) (v : list E) : Prop :=
  length v = length ls /\ NoDup acc /\
  forall z, In z acc -> 0 <= z < n /\ nth_error v (Z.to_nat z) = nth_error ls (Z.to_nat ((z + shift) mod n)).
Lemma insert_upto k e d i acc l v : nth_error p k = Some (Insert (Extract src e) d i) -> calculateShift alen p d i src e = Some shift ->
  tget vals d = Some l -> nth_error vals k = Some v -> upto acc l -> exists z, i = Cst z /\ upto (set_insert z acc) v.
Proof.
  intros Hk Hs Hd Hv (L & Nd & F). destruct (shift_ok _ _ _ _ _ _ _ Hs Hd Hsrc) as (iz & ez & -> & -> & _ & M). exists iz. split; auto.
  destruct (insert_value k _ _ _ Hk) as (v' & x & l' & N & S1 & D & B & Ev). assert (v' = v) as -> by congruence. assert (l' = l) as -> by congruence. cbn [iget] in B, Ev.
  cbn [sget] in S1. destruct (tget (firstn k vals) src) as [ls'|] eqn:Es; [|discriminate]. apply tget_prefix in Es. assert (ls' = ls) by congruence. subst ls'.
  apply at_index_ok in S1. cbn [iget] in S1. destruct S1 as [Be Ne]. rewrite L in B. specialize (M B Be).
  split; [rewrite Ev, set_nth_length; auto|]. split; [apply set_insert_nodup; auto|]. intros z Hz. apply set_insert_in in Hz.
  rewrite Ev, nth_error_set by lia. destruct (Z.eq_dec z iz) as [->|Hne].
  - split; auto. rewrite Nat.eqb_refl. rewrite M, Ne. reflexivity.
  - destruct Hz as [|Hz]; [contradiction|]. destruct (F z Hz) as [Bz Fz]. split; auto. destruct (Nat.eqb_spec (Z.to_nat z) (Z.to_nat iz)); [lia|exact Fz].
Qed.
Definition link (k : nat) : Prop := exists e d i, nth_error p k = Some (Insert (Extract src e) d i).

Hypothesis Hfork : unforked p.
Lemma visit_skip c us : (forall u, In u us -> exists s i, nth_error p u = Some (Insert s (Res c) i)) ->
  (forall u t e i, In u us -> nth_error p u <> Some (Insert (Extract t e) (Res c) i)) -> forall st, visit_users alen p src shift us st = Some st.
Proof.
  induction us as [|u us IH]; intros Hu Hn st; [reflexivity|]. cbn [visit_users]. unfold visit_user. destruct (Hu u (or_introl eq_refl)) as (s & i & Eu). rewrite Eu.
  destruct s as [x|t e]; [|exfalso; exact (Hn u t e i (or_introl eq_refl) Eu)]. apply IH; intros; [apply Hu|apply Hn]; right; auto.
Qed.
Lemma visit_ok c us : NoDup us -> (forall u, In u us -> exists s i, nth_error p u = Some (Insert s (Res c) i)) ->
  forall st st', visit_users alen p src shift us st = Some st' ->
  st' = st \/ exists u e z, nth_error p u = Some (Insert (Extract src e) (Res c) (Cst z)) /\ calculateShift alen p (Res c) (Cst z) src e = Some shift /\ st' = (set_insert z (fst (fst st)), u, true).
Proof.
  induction us as [|u us IH]; intros Nd Hu st st' H; [injection H as <-; auto|]. cbn [visit_users] in H.
  inversion Nd as [|? ? Nu Nd']; subst. destruct (Hu u (or_introl eq_refl)) as (s & i & Eu).
  unfold visit_user in H. rewrite Eu in H. destruct s as [x|t e].
  - apply IH; auto. intros; apply Hu; right; auto.
  - destruct (tref_eqb t src) eqn:Et; [|discriminate]. apply tref_eqb_ok in Et. subst t.
    destruct (calculateShift alen p (Res c) i src e) as [s|] eqn:Es; [|discriminate]. destruct (Z.eqb_spec s shift) as [->|]; [|discriminate].
    destruct i as [z|]; [|discriminate]. cbn [get1DExtractionIndex] in H. right. exists u, e, z. split; auto. split; auto.
    rewrite (visit_skip c us) in H; [congruence| |].
    + intros; apply Hu; right; auto.
    + intros w t' e' i' Hw Ew. assert (w = u) by (eapply Hfork; eauto). subst w. contradiction.
Qed.

Variable users : nat -> list nat.
Hypothesis Husers : users_of p users.
Lemma follow_ok fuel : forall acc cur acc' cur' v, follow alen users fuel p src shift acc cur = Some (Some (acc', cur')) ->
  link cur -> nth_error vals cur = Some v -> upto acc v -> link cur' /\ exists v', nth_error vals cur' = Some v' /\ upto acc' v'.
Proof.
  induction fuel as [|f IH]; intros acc cur acc' cur' v H Hl Hv Hu; [discriminate|]. cbn [follow] in H.
  destruct (visit_users alen p src shift (users cur) (acc, cur, false)) as [[[a c] b]|] eqn:Ev; [|discriminate].
  destruct (Husers cur) as [Nd Hus]. apply (visit_ok cur) in Ev; auto; [|intros u; apply Hus].
  destruct Ev as [[= -> -> ->]|(u & e & z & Eu & Es & [= -> -> ->])].
  - injection H as <- <-. split; auto. exists v. auto.
  - cbn [fst] in H. destruct (insert_value u _ _ _ Eu) as (w & _ & _ & Nw & _).
    destruct (insert_upto u e (Res cur) (Cst z) acc v w Eu Es Hv Nw Hu) as (z' & [= <-] & Hu').
    apply (IH _ _ _ _ w H); auto. exists e, (Res cur), (Cst z). auto.
Qed.
End Block.

Lemma nth_error_ext (l m : list E) : (forall j, nth_error l j = nth_error m j) -> l = m.
Proof.
  revert m. induction l as [|a l IH]; intros [|b m] H; auto; try (specialize (H 0%nat); discriminate).
  f_equal; [specialize (H 0%nat); cbn in H; congruence|]. apply IH. intros j. apply (H (S j)).
Qed.
Lemma upto_all ls shift acc v : upto ls shift acc v -> length acc = length ls -> v = rot E shift ls.
Proof.
  intros (L & Nd & F) Ha. apply nth_error_ext. intros j. destruct (le_lt_dec (length ls) j) as [Hj|Hj].
  - rewrite (proj2 (nth_error_None v j)) by lia. rewrite (proj2 (nth_error_None _ j)) by (rewrite rot_length; lia). reflexivity.
  - assert (In (Z.of_nat j) acc) as Hin by (apply (covers (length ls)); auto; [intros z Hz; apply F; auto|lia]).
    destruct (F _ Hin) as [_ G]. rewrite Nat2Z.id in G. rewrite G. symmetry. apply nth_error_rot. auto.
Qed.
Lemma collapse_ok alen p vals users k p' : (forall x, Z.of_nat (length (args x)) = alen x) -> unforked p -> users_of p users ->
  run [] p = Some vals -> collapse alen users p k = Some p' -> run [] p' = Some vals /\ unforked p'.
Proof.
  intros Ha Hf Hu Hr H. unfold collapse in H. destruct (nth_error p k) as [o|] eqn:Ek; [|discriminate]. destruct o as [[x|src e] d i|]; try discriminate.
  destruct (calculateShift alen p d i src e) as [shift|] eqn:Es; [|discriminate]. destruct (get1DExtractionIndex i) as [z|] eqn:Ei; [|discriminate].
  destruct i as [z'|]; [|discriminate]. injection Ei as ->.
  destruct (follow _ _ _ _ _ _ _ _) as [[[acc cur]|]|] eqn:Ef; try discriminate. destruct (length_of alen _ p src) as [n|] eqn:En; [|discriminate].
  destruct (Z.eqb_spec (Z.of_nat (length acc)) n) as [Hn|]; [|discriminate]. injection H as <-.
  destruct (insert_value p vals Hr k _ _ _ Ek) as (v & x & l & Nv & Sx & Dl & _).
  cbn [sget] in Sx. destruct (tget (firstn k vals) src) as [ls|] eqn:Els; [|discriminate]. apply tget_prefix in Els.
  pose proof (length_of_ok alen Ha p vals Hr _ _ _ _ En Els) as Ln.
  destruct (shift_ok alen Ha p vals Hr _ _ _ _ _ _ _ Es Dl Els) as (_ & ez & _ & _ & Ll & _).
  destruct (insert_upto alen Ha p vals Hr src ls shift Els k e d (Cst z) [] l v Ek Es Dl Nv) as (z' & [= <-] & U).
  { split; auto. split; [constructor|]. intros ? []. }
  assert (Hl : link p src k) by (exists e, d, (Cst z); auto).
  destruct (follow_ok alen Ha p vals Hr src ls shift Els Hf users Hu _ _ _ _ _ _ Ef Hl Nv U) as ((e' & d' & i' & Ecur) & w & Nw & Uw).
  assert (Ew : w = rot E shift ls) by (eapply upto_all; [exact Uw|lia]).
  assert (Bc : (cur < length p)%nat) by (apply nth_error_Some; congruence).
  split.
  - apply run_values. destruct (proj1 (run_values p vals) Hr) as [Lv Hv]. rewrite replace_length. split; auto. intros j o Hj.
    rewrite nth_error_replace in Hj by auto. destruct (Nat.eqb_spec j cur) as [->|]; [|apply Hv; auto]. injection Hj as <-. exists w. split; auto.
    destruct (insert_value p vals Hr cur _ _ _ Ecur) as (_ & y & _ & _ & Sy & _). cbn [sget] in Sy. cbn [Collapse_Model.exec].
    destruct (tget (firstn cur vals) src) as [ls'|] eqn:Els'; [|discriminate]. apply tget_prefix in Els'. congruence.
  - intros c j1 j2 t1 e1 i1 t2 e2 i2 H1 H2. rewrite nth_error_replace in H1, H2 by auto.
    destruct (Nat.eqb_spec j1 cur); [discriminate|]. destruct (Nat.eqb_spec j2 cur); [discriminate|]. eapply Hf; eauto.
Qed.
Lemma collapses_ok alen p vals p' : (forall x, Z.of_nat (length (args x)) = alen x) -> unforked p ->
  run [] p = Some vals -> collapses alen p p' -> run [] p' = Some vals.
Proof.
  intros Ha Hf Hr H. induction H as [p|p users k p1 p2 Hu Hc H IH]; auto. destruct (collapse_ok alen p vals users k p1 Ha Hf Hu Hr Hc). auto.
Qed.
End Meaning.

(** the loop ends *)
Section Ends.
Variable alen : nat -> Z.
Variable p : program.
Variable users : nat -> list nat.
Hypothesis Hssa : ssa p.
Hypothesis Husers : users_of p users.
Lemma visit_up src shift c us : (forall u, In u us -> (c < u < length p)%nat) -> forall acc cur b acc' cur' b',
  visit_users alen p src shift us (acc, cur, b) = Some (acc', cur', b') -> (b = true -> (c < cur < length p)%nat) -> b' = true -> (c < cur' < length p)%nat.
Proof.
  induction us as [|u us IH]; intros Hu acc cur b acc' cur' b' H Hb Hb'; cbn [visit_users] in H; [injection H as <- <- <-; auto|].
  assert (Hus : forall u, In u us -> (c < u < length p)%nat) by (intros; apply Hu; right; auto).
  unfold visit_user in H. destruct (nth_error p u) as [[[x|t e] d i|]|]; try (apply (IH Hus _ _ _ _ _ _ H); assumption).
  destruct (tref_eqb t src); [|discriminate]. destruct (calculateShift _ _ _ _ _ _) as [s|]; [|discriminate]. destruct (s =? shift); [|discriminate].
  destruct (get1DExtractionIndex i); [|discriminate]. apply (IH Hus _ _ _ _ _ _ H); auto. intros _. apply Hu. left. auto.
Qed.
Lemma follow_ends src shift : forall fuel acc cur, (length p < fuel + cur)%nat -> (cur < length p)%nat -> follow alen users fuel p src shift acc cur <> None.
Proof.
  induction fuel as [|f IH]; intros acc cur Hf Hc; [lia|]. cbn [follow].
  destruct (visit_users _ _ _ _ _ _) as [[[a c] b]|] eqn:Ev; [|discriminate]. destruct b; [|discriminate].
  assert (B : (cur < c < length p)%nat).
  { apply (visit_up _ _ cur _) in Ev; auto; [|discriminate]. intros u Hu. destruct (Husers cur) as [_ Hus]. apply Hus in Hu. destruct Hu as (s & i & Eu).
    split; [|apply nth_error_Some; congruence]. apply Hssa in Eu. cbn in Eu. destruct s; cbn in Eu; lia. }
  apply IH; lia.
Qed.
End Ends.
