From Coq Require Import ZArith List Bool Arith Lia Znumtheory.
From Verif Require Import RotCount_Spec RotCount_Model.
Import ListNotations.
Open Scope Z_scope.

(** * Direct secrecy, decided *)
Fixpoint ds_b (fuel : nat) (d : dag) (i : nat) : bool :=
  match fuel with
  | O => false
  | S fuel =>
      match nth_error d i with
      | Some (Leaf b) => b
      | Some n => existsb (ds_b fuel d) (operands n)
      | None => false
      end
  end.

Lemma nth_some_lt {A} (l : list A) i x : nth_error l i = Some x -> (i < length l)%nat.
Proof. intros H. apply nth_error_Some. congruence. Qed.

Lemma reach_lt d i j : reach d i j -> (j < length d)%nat.
Proof. induction 1; auto. Qed.

Lemma reach_src d i j : reach d i j -> (i < length d)%nat.
Proof. destruct 1; auto. eapply nth_some_lt; eauto. Qed.

Lemma reach_trans d i j k : reach d i j -> reach d j k -> reach d i k.
Proof. induction 1; intros; auto. econstructor; eauto. Qed.

Lemma ds_unfold d i n : nth_error d i = Some n ->
  (directly_secret d i <->
   n = Leaf true \/ exists c, In c (operands n) /\ directly_secret d c).
Proof.
  intros Hn. split.
  - intros (j & Hr & Hj). destruct Hr as [i Hi|i n' c j Hn' Hc Hr].
    + left. congruence.
    + right. rewrite Hn in Hn'. injection Hn' as <-. exists c. split; auto. exists j; auto.
  - intros [-> | (c & Hc & j & Hr & Hj)].
    + exists i. split; auto. constructor. eapply nth_some_lt; eauto.
    + exists j. split; auto. econstructor; eauto.
Qed.

Lemma ds_spec d : acyclic d -> forall fuel i, (i < fuel)%nat -> (i < length d)%nat ->
  (ds_b fuel d i = true <-> directly_secret d i).
Proof.
  intros Ha. induction fuel as [|fuel IH]; [lia|]. intros i Hi Hl. cbn [ds_b].
  destruct (nth_error d i) as [n|] eqn:Hn.
  2:{ apply nth_error_None in Hn. lia. }
  rewrite (ds_unfold d i n Hn).
  assert (G : existsb (ds_b fuel d) (operands n) = true <->
              exists c, In c (operands n) /\ directly_secret d c).
  { rewrite existsb_exists. split; intros (c & Hc & Hd); exists c; (split; [exact Hc|]);
      pose proof (Ha i n Hn c Hc); apply IH in Hd || (apply IH); auto; lia. }
  destruct n; try (rewrite G; split; [intros; right; assumption | intros [X|X]; [discriminate X|assumption]]).
  destruct isSecret; split; auto.
  - intros X; discriminate X.
  - intros [X|(c & [] & _)]. discriminate X.
Qed.

Lemma directly_is_secret d i : directly_secret d i -> secret d i.
Proof.
  intros (j & Hr & Hj). induction Hr as [i Hi|i n c j Hn Hc Hr IH].
  - now constructor.
  - eapply secret_operand; eauto.
Qed.

Lemma secret_is_direct d i :
  (forall l n a b c lo up st, nth_error d l = Some n -> n <> ForLoop a b c lo up st) ->
  secret d i -> directly_secret d i.
Proof.
  intros Hno. induction 1.
  - exists i. split; auto. constructor. eapply nth_some_lt; eauto.
  - destruct IHsecret as (j & Hr & Hj). exists j. split; auto. econstructor; eauto.
  - exfalso. eapply Hno; eauto.
  - exfalso. eapply (Hno i); eauto.
Qed.

(** * Nodes the visitor goes to *)
Definition vops (n : node) : list nat :=
  match n with
  | LeftRotate a _ | LeftRotateBulk a _ => [a]
  | _ => operands n
  end.

Lemma vops_operands n c : In c (vops n) -> In c (operands n).
Proof. destruct n; simpl; auto; intros [H|[]]; auto. Qed.

Inductive vreach (d : dag) : nat -> nat -> Prop :=
  | vreach_self i : (i < length d)%nat -> vreach d i i
  | vreach_step i n c j : nth_error d i = Some n -> In c (vops n) -> vreach d c j -> vreach d i j.

Lemma vreach_reach d i j : vreach d i j -> reach d i j.
Proof. induction 1; [now constructor|]. econstructor; eauto using vops_operands. Qed.

Lemma vreach_le d : acyclic d -> forall i j, vreach d i j -> (j <= i)%nat.
Proof.
  intros Ha i j. induction 1; auto. pose proof (Ha i n H c (vops_operands _ _ H0)). lia.
Qed.

Fixpoint total (f : nat -> Z) (l : list nat) : Z :=
  match l with [] => 0 | j :: r => f j + total f r end.

Lemma total_app f a b : total f (a ++ b) = total f a + total f b.
Proof. induction a; simpl; lia. Qed.

Section Main.
  Variable d : dag.
  Variable root : nat.
  Variable w : nat -> Z.
  Hypothesis Hac : acyclic d.
  Hypothesis Hpub : positions_public d root.
  Hypothesis Hw : forall i n c, reach d root i -> nth_error d i = Some n -> In c (operands n) ->
    (exists p, secret_rotation d c p) ->
    match n with
    | ForLoop inits _ body lo up st =>
        (In c inits -> w c = w i) /\
        (body = Some c -> exists t, iterates lo up st t /\ w c = w i * t)
    | _ => w c = w i
    end.
  Hypothesis Hloop : forall i inits args body lo up st, reach d root i ->
    nth_error d i = Some (ForLoop inits args body lo up st) ->
    0 < st /\ lo <= up /\ (st | up - lo) /\ up - lo < 2 ^ 31.

  Definition ds (i : nat) : bool := ds_b (length d) d i.

  Lemma ds_ok i : (i < length d)%nat -> (ds i = true <-> directly_secret d i).
  Proof. intros. apply ds_spec; auto. Qed.

  Definition rots (i : nat) : nat :=
    match nth_error d i with
    | Some n => match rotates n with Some (a, m) => if ds a then m else O | None => O end
    | None => O
    end.
  Definition cost (i : nat) : Z := w i * Z.of_nat (rots i).

  Lemma in_range i n c : nth_error d i = Some n -> In c (operands n) -> (c < length d)%nat.
  Proof. intros Hn Hc. pose proof (Hac i n Hn c Hc). apply nth_some_lt in Hn. lia. Qed.

  Lemma reach_operand i n c : reach d root i -> nth_error d i = Some n -> In c (operands n) ->
    reach d root c.
  Proof.
    intros Hr Hn Hc. eapply reach_trans; eauto. econstructor; eauto. constructor.
    eapply in_range; eauto.
  Qed.

  Lemma ds_existsb i n : nth_error d i = Some n -> (forall b, n <> Leaf b) ->
    ds i = existsb ds (operands n).
  Proof.
    intros Hn Hl. apply eq_true_iff_eq. rewrite (ds_ok i) by (eapply nth_some_lt; eauto).
    rewrite (ds_unfold d i n Hn), existsb_exists. split.
    - intros [E|(c & Hc & Hd)]; [now apply Hl in E|]. exists c. split; auto. apply ds_ok; auto.
      eapply in_range; eauto.
    - intros (c & Hc & Hd). right. exists c. split; auto. apply ds_ok in Hd; auto. eapply in_range; eauto.
  Qed.

  Lemma public_ds i n s : reach d root i -> nth_error d i = Some n -> In s (public_positions n) ->
    In s (operands n) -> ds s = false.
  Proof.
    intros Hr Hn Hs Ho. destruct (ds s) eqn:E; auto. exfalso.
    apply (Hpub i n s Hr Hn Hs). apply directly_is_secret. apply ds_ok; auto. eapply in_range; eauto.
  Qed.

  Definition good (s : state) (B : nat) : Prop :=
    forall j, (j < B)%nat -> In j (visitedNodes s) ->
      nodeSecretStatus s j = ds j /\ forall k, vreach d j k -> In k (visitedNodes s).

  Definition step_ok (cs : list nat) (T : Z) (s s' : state) (B : nat) : Prop :=
    exists new, visitedNodes s' = new ++ visitedNodes s /\ NoDup new /\
      (forall j, In j new -> ~ In j (visitedNodes s) /\ (j < B)%nat /\
         exists c, In c cs /\ vreach d c j) /\
      (forall c k, In c cs -> vreach d c k -> In k (visitedNodes s')) /\
      good s' B /\
      (forall j, (B <= j)%nat -> nodeSecretStatus s' j = nodeSecretStatus s j) /\
      T = total cost new.

  Lemma step_frame cs T s s' B B' : step_ok cs T s s' B -> good s B' -> (B <= B')%nat ->
    step_ok cs T s s' B'.
  Proof.
    intros (new & Hv & Hnd & Hnew & Hcs & Hg & Hst & HT) Hg' HB. exists new.
    repeat split; auto.
    - apply Hnew; auto.
    - destruct (Hnew j H) as (_ & ? & _). lia.
    - apply Hnew; auto.
    - destruct (Nat.lt_ge_cases j B) as [L|L]; [apply Hg; auto|].
      rewrite Hst by auto. apply Hg'; auto.
      rewrite Hv in H0. apply in_app_or in H0 as [X|X]; auto.
      apply Hnew in X as (_ & ? & _). lia.
    - intros k Hk. destruct (Nat.lt_ge_cases j B) as [L|L]; [eapply Hg; eauto|].
      rewrite Hv in *. apply in_app_or in H0 as [X|X].
      + apply Hnew in X as (_ & ? & _). lia.
      + apply in_or_app. right. eapply (Hg' j); eauto.
    - intros j Hj. apply Hst. lia.
  Qed.

  Lemma step_nil s B : good s B -> step_ok [] 0 s s B.
  Proof.
    intros Hg. exists []. repeat split; auto; try (intros; contradiction).
    - constructor.
    - apply Hg; auto.
    - apply Hg; auto.
  Qed.

  Lemma step_app cs1 cs2 T1 T2 s s1 s2 B : step_ok cs1 T1 s s1 B -> step_ok cs2 T2 s1 s2 B ->
    step_ok (cs1 ++ cs2) (T1 + T2) s s2 B.
  Proof.
    intros (n1 & Hv1 & Hnd1 & Hn1 & Hc1 & Hg1 & Hs1 & HT1)
           (n2 & Hv2 & Hnd2 & Hn2 & Hc2 & Hg2 & Hs2 & HT2).
    exists (n2 ++ n1). split; [|split; [|split; [|split; [|split; [|split]]]]].
    - rewrite Hv2, Hv1, app_assoc. reflexivity.
    - clear - Hnd1 Hnd2 Hn2 Hv1. induction n2 as [|a n2 IH]; simpl; auto.
      inversion Hnd2; subst. constructor.
      + intros X. apply in_app_or in X as [X|X]; auto.
        destruct (Hn2 a (or_introl eq_refl)) as (Y & _). apply Y. rewrite Hv1.
        apply in_or_app. now left.
      + apply IH; auto. intros j Hj. apply Hn2. now right.
    - intros j Hj. apply in_app_or in Hj as [Hj|Hj].
      + destruct (Hn2 j Hj) as (Y & ? & c & Hc & ?). split; [|split; auto].
        * intros X. apply Y. rewrite Hv1. apply in_or_app. now right.
        * exists c. split; auto. apply in_or_app. now right.
      + destruct (Hn1 j Hj) as (Y & ? & c & Hc & ?). split; [exact Y|split; auto].
        exists c. split; auto. apply in_or_app. now left.
    - intros c k Hc Hk. apply in_app_or in Hc as [Hc|Hc].
      + rewrite Hv2. apply in_or_app. right. eapply Hc1; eauto.
      + eapply Hc2; eauto.
    - exact Hg2.
    - intros j Hj. rewrite Hs2, Hs1; auto.
    - rewrite total_app. lia.
  Qed.

  Lemma step_good cs T s s' B : step_ok cs T s s' B -> good s' B.
  Proof. intros (? & ? & ? & ? & ? & ? & ?); auto. Qed.

  Lemma step_visited cs T s s' B c : step_ok cs T s s' B -> In c cs -> (c < length d)%nat ->
    In c (visitedNodes s').
  Proof. intros (new & H1 & H2 & H3 & Hc & H5 & H6) H Hl. eapply Hc; eauto. now constructor. Qed.

  Lemma step_status cs T s s' B c : step_ok cs T s s' B -> In c cs -> (c < length d)%nat ->
    (c < B)%nat -> nodeSecretStatus s' c = ds c.
  Proof. intros Hs Hc Hl HB. apply (step_good _ _ _ _ _ Hs); auto. eapply step_visited; eauto. Qed.

  (** entering a node, processing what it is computed from and leaving it *)
  Lemma step_node i n T s s1 b :
    nth_error d i = Some n -> visited s i = false -> good s (S i) ->
    step_ok (vops n) T (insert_visited i s) s1 i -> b = ds i ->
    step_ok [i] (T + cost i) s (set_status i b s1) (S i).
  Proof.
    intros Hn Hnv Hg (new & Hv & Hnd & Hnew & Hcs & Hg1 & Hst & HT) ->.
    assert (Hni : ~ In i (visitedNodes s)).
    { intros X. assert (visited s i = true); [|congruence].
      apply existsb_exists. exists i. split; auto. apply Nat.eqb_refl. }
    pose proof (nth_some_lt _ _ _ Hn) as Hl.
    assert (Hin : forall k, vreach d i k -> In k (visitedNodes s1)).
    { intros k Hk. destruct Hk as [i Hi|i n' c k Hn' Hc Hk].
      - rewrite Hv. apply in_or_app. right. now left.
      - rewrite Hn in Hn'. injection Hn' as <-. eapply Hcs; eauto. }
    exists (new ++ [i]). split; [|split; [|split; [|split; [|split; [|split]]]]].
    - simpl. rewrite Hv, <- app_assoc. reflexivity.
    - clear - Hnd Hnew. induction new as [|a new IH]; simpl.
      + constructor; [auto|constructor].
      + inversion Hnd; subst. constructor.
        * intros X. apply in_app_or in X as [X|[X|[]]]; auto. subst a.
          destruct (Hnew i (or_introl eq_refl)) as (_ & ? & _). lia.
        * apply IH; auto. intros j Hj. apply Hnew. now right.
    - intros j Hj. apply in_app_or in Hj as [Hj|[<-|[]]].
      + destruct (Hnew j Hj) as (Y & ? & c & Hc & Hr). split; [|split; [lia|]].
        * intros X. apply Y. now right.
        * exists i. split; [now left|]. econstructor; eauto.
      + split; auto. split; [lia|]. exists i. split; [now left|]. now constructor.
    - intros c k [<-|[]] Hk. simpl. auto.
    - intros j Hj Hin'. simpl in *. destruct (Nat.eqb_spec j i) as [->|Hne]; [auto|].
      apply Hg1; auto. lia.
    - intros j Hj. simpl. destruct (Nat.eqb_spec j i) as [->|Hne]; [lia|].
      rewrite Hst by lia. reflexivity.
    - rewrite total_app. simpl. lia.
  Qed.

  Lemma good_insert i s : good s (S i) -> good (insert_visited i s) i.
  Proof.
    intros Hg j Hj [X|X]; [simpl in X; lia|]. simpl. destruct (Hg j ltac:(lia) X) as (? & Hk).
    split; auto.
  Qed.

  Definition rotating (i : nat) : Prop := exists p, secret_rotation d i p.

  Definition correct (f : nat -> state -> option (Z * state)) (i : nat) : Prop :=
    forall s, good s (S i) -> exists c s', f i s = Some (c, s') /\
      step_ok [i] (c * w i) s s' (S i) /\ (c = 0 \/ rotating i).

  Lemma use f c B s W : correct f c -> good s B -> (c < B)%nat -> (rotating c -> w c = W) ->
    exists x s', f c s = Some (x, s') /\ step_ok [c] (x * W) s s' B /\ (x = 0 \/ rotating c).
  Proof.
    intros Hf Hg HB HW. destruct (Hf s) as (x & s' & E & Hs & Hx).
    { intros j Hj. apply Hg. lia. }
    exists x, s'. split; auto. split; auto.
    replace (x * W) with (x * w c) by (destruct Hx as [->|Hx]; [lia|now rewrite HW]).
    eapply step_frame; eauto.
  Qed.

  Lemma rotating_operand i n c : nth_error d i = Some n -> In c (operands n) -> rotating c -> rotating i.
  Proof.
    intros Hn Hc ((j & k) & Hr & H). exists (j, k). split; auto. econstructor; eauto.
  Qed.

  Lemma elements_ok f B : forall es, (forall c, In c es -> correct f c /\ (c < B)%nat /\ (c < length d)%nat) ->
    forall W, (forall c, In c es -> rotating c -> w c = W) ->
    forall t b s, good s B ->
    exists x s', visit_elements f es t b s = Some (t + x, b || existsb ds es, s') /\
      step_ok es (x * W) s s' B /\ (x = 0 \/ exists c, In c es /\ rotating c).
  Proof.
    induction es as [|e es IH]; intros Hes W HW t b s Hg.
    - exists 0, s. cbn [visit_elements existsb]. rewrite orb_false_r, Z.add_0_r. split; auto.
      split; auto. now apply step_nil.
    - destruct (Hes e (or_introl eq_refl)) as (Hf & HB & Hl).
      destruct (use f e B s W Hf Hg HB (HW e (or_introl eq_refl))) as (x & s1 & E & Hs1 & Hx).
      destruct (IH (fun c H => Hes c (or_intror H)) W (fun c H => HW c (or_intror H))
                  (t + x) (b || nodeSecretStatus s1 e) s1 (step_good _ _ _ _ _ Hs1))
        as (y & s2 & E2 & Hs2 & Hy).
      exists (x + y), s2. cbn [visit_elements]. rewrite E. cbn [bind]. rewrite E2. split; [|split].
      + rewrite (step_status _ _ _ _ _ e Hs1 (or_introl eq_refl) Hl HB). cbn [existsb].
        rewrite orb_assoc. do 3 f_equal. lia.
      + rewrite Z.mul_add_distr_r. exact (step_app [e] es _ _ _ _ _ _ Hs1 Hs2).
      + destruct Hx as [->|Hx]; [|right; exists e; simpl; auto].
        destruct Hy as [->|(c & Hc & Hy)]; [now left|]. right. exists c. simpl; auto.
  Qed.

  Lemma iterations_ok lo up st : 0 < st -> lo <= up -> (st | up - lo) -> up - lo < 2 ^ 31 ->
    exists t, iterations lo up st = Some t /\ (forall t', iterates lo up st t' -> t' = t).
  Proof.
    intros Hs Hle (q & Hq) Hb.
    assert (Hq0 : 0 <= q) by nia.
    assert (E : Z.quot (up - lo) st = q) by (rewrite Hq; apply Z.quot_mul; lia).
    exists q. split.
    - unfold iterations. rewrite (proj2 (Z.eqb_neq st 0)) by lia. cbn [orb].
      unfold in_int32 at 1. rewrite (proj2 (Z.leb_le _ _)) by lia. rewrite (proj2 (Z.ltb_lt _ _)) by lia.
      cbn [andb negb]. rewrite E. unfold in_int32.
      rewrite (proj2 (Z.leb_le _ _)) by lia. rewrite (proj2 (Z.ltb_lt _ _)) by nia. reflexivity.
    - intros t' (Ht & Hk). destruct (Z.lt_trichotomy t' q) as [L|[L|L]]; auto.
      + assert (lo + t' * st < up) by nia. apply Hk in H; lia.
      + assert (X := proj1 (Hk q Hq0) L). nia.
  Qed.

  Lemma existsb_two (f : nat -> bool) a b : existsb f [a; b] = f a || f b.
  Proof. cbn [existsb]. now rewrite orb_false_r. Qed.

  Lemma node_ok f i n s :
    nth_error d i = Some n -> reach d root i -> visited s i = false -> good s (S i) ->
    (forall c, In c (operands n) -> correct f c) ->
    exists c s', visit_node f i n (insert_visited i s) = Some (c, s') /\
      step_ok [i] (c * w i) s s' (S i) /\ (c = 0 \/ rotating i).
  Proof.
    intros Hn Hr Hnv Hg Hf.
    pose proof (good_insert i s Hg) as Hg0.
    assert (HB : forall c, In c (operands n) -> (c < i)%nat) by (intros; eapply Hac; eauto).
    assert (HL : forall c, In c (operands n) -> (c < length d)%nat) by (intros; eapply in_range; eauto).
    assert (HW : forall c, In c (operands n) -> (forall a b e lo up st, n <> ForLoop a b e lo up st) ->
                   rotating c -> w c = w i).
    { intros c Hc Hnl Hrc. pose proof (Hw i n c Hr Hn Hc Hrc) as X. destruct n; auto.
      exfalso. eapply Hnl; eauto. }
    assert (HR : forall c, In c (operands n) -> rotating c -> rotating i)
      by (intros; eapply rotating_operand; eauto).
    assert (Hleaf : forall b, vops n = [] -> rotates n = None -> b = ds i ->
      step_ok [i] (0 * w i) s (set_status i b (insert_visited i s)) (S i) /\ (0 = 0 \/ rotating i)).
    { intros b Ev Er Eb. split; [|now left].
      replace (0 * w i) with (0 + cost i) by (unfold cost, rots; rewrite Hn, Er; lia).
      eapply step_node; eauto. rewrite Ev. now apply step_nil. }
    assert (Hno : rotates n = None -> cost i = 0).
    { intros X. unfold cost, rots. rewrite Hn, X. lia. }
    assert (Hd : (forall b, n <> Leaf b) -> ds i = existsb ds (operands n)) by (apply ds_existsb; auto).
    assert (HU : forall a s1, In a (operands n) -> (forall x b e lo up st, n <> ForLoop x b e lo up st) ->
        good s1 i ->
        exists x s', f a s1 = Some (x, s') /\ step_ok [a] (x * w i) s1 s' i /\ (x = 0 \/ rotating i)).
    { intros a s1 Ha Hnl Hg1. destruct (use f a i s1 (w i)) as (x & s' & E & Hs & Hx); auto.
      exists x, s'. split; auto. split; auto. destruct Hx as [->|Hx]; [now left|right; eauto]. }
    assert (Hbin : forall l r, operands n = [l; r] -> vops n = [l; r] -> rotates n = None ->
       (forall b, n <> Leaf b) -> (forall a b e lo up st, n <> ForLoop a b e lo up st) ->
       exists c s', visit_binary f i l r (insert_visited i s) = Some (c, s') /\
         step_ok [i] (c * w i) s s' (S i) /\ (c = 0 \/ rotating i)).
    { intros l r Eo Ev Er En Enl.
      destruct (HU l _ ltac:(rewrite Eo; now left) Enl Hg0) as (x & s1 & E1 & H1 & R1).
      destruct (HU r s1 ltac:(rewrite Eo; right; now left) Enl (step_good _ _ _ _ _ H1)) as (y & s2 & E2 & H2 & R2).
      pose proof (step_app _ _ _ _ _ _ _ _ H1 H2) as H12. cbn [app] in H12.
      unfold visit_binary. rewrite E1. cbn [bind]. rewrite E2. cbn [bind]. do 2 eexists. split; [reflexivity|].
      split; [|destruct R1 as [->|R1]; [destruct R2 as [->|R2]|]; auto].
      rewrite (step_status _ _ _ _ _ l H12), (step_status _ _ _ _ _ r H12);
        try (simpl; auto; fail); try (apply HL; rewrite Eo; simpl; auto; fail);
        try (apply HB; rewrite Eo; simpl; auto; fail).
      replace ((x + y) * w i) with ((x * w i + y * w i) + cost i) by (rewrite (Hno Er); lia).
      eapply step_node; eauto; [rewrite Ev; exact H12|]. rewrite (Hd En), Eo. symmetry. apply existsb_two. }
    assert (Hun : forall a, operands n = [a] -> vops n = [a] -> rotates n = None ->
       (forall b, n <> Leaf b) -> (forall a b e lo up st, n <> ForLoop a b e lo up st) ->
       exists c s', visit_unary f i a (insert_visited i s) = Some (c, s') /\
         step_ok [i] (c * w i) s s' (S i) /\ (c = 0 \/ rotating i)).
    { intros a Eo Ev Er En Enl.
      destruct (HU a _ ltac:(rewrite Eo; now left) Enl Hg0) as (x & s1 & E1 & H1 & R1).
      unfold visit_unary. rewrite E1. cbn [bind]. do 2 eexists. split; [reflexivity|]. split; auto.
      rewrite (step_status _ _ _ _ _ a H1);
        try (simpl; auto; fail); try (apply HL; rewrite Eo; simpl; auto; fail);
        try (apply HB; rewrite Eo; simpl; auto; fail).
      replace (x * w i) with (x * w i + cost i) by (rewrite (Hno Er); lia).
      eapply step_node; eauto; [rewrite Ev; exact H1|]. rewrite (Hd En), Eo. cbn [existsb]. now rewrite orb_false_r. }
    assert (Hrot : forall a m ss, operands n = a :: ss -> vops n = [a] -> rotates n = Some (a, m) ->
       (forall b, n <> Leaf b) -> (forall a b e lo up st, n <> ForLoop a b e lo up st) ->
       (forall x, In x ss -> ds x = false) ->
       exists c s', visit_rotate f i a (Z.of_nat m) (insert_visited i s) = Some (c, s') /\
         step_ok [i] (c * w i) s s' (S i) /\ (c = 0 \/ rotating i)).
    { intros a m ss Eo Ev Er En Enl Hss.
      assert (Hia : In a (operands n)) by (rewrite Eo; now left).
      destruct (HU a _ Hia Enl Hg0) as (x & s1 & E1 & H1 & R1).
      unfold visit_rotate. rewrite E1. cbn [bind]. do 2 eexists. split; [reflexivity|].
      rewrite (step_status _ _ _ _ _ a H1);
        try (simpl; auto; fail); try (apply HL; rewrite Eo; simpl; auto; fail);
        try (apply HB; rewrite Eo; simpl; auto; fail).
      split.
      - replace ((x + (if ds a then Z.of_nat m else 0)) * w i) with (x * w i + cost i).
        2:{ unfold cost, rots. rewrite Hn, Er. destruct (ds a); lia. }
        eapply step_node; eauto; [rewrite Ev; exact H1|]. rewrite (Hd En), Eo. cbn [existsb].
        replace (existsb ds ss) with false; [now rewrite orb_false_r|].
        symmetry. apply not_true_is_false. intros X. apply existsb_exists in X as (y & Hy & Hy').
        rewrite Hss in Hy'; [discriminate Hy'|auto].
      - destruct R1 as [->|R1]; auto. destruct (ds a) eqn:Ed; [|now left].
        destruct m as [|m]; [now left|]. right. exists (i, 0%nat). split.
        + constructor. eapply nth_some_lt; eauto.
        + exists n, a, (S m). repeat split; auto; [lia|]. apply directly_is_secret. apply ds_ok; auto. }
    destruct n; cbn [visit_node operands vops] in *.
    - do 2 eexists; split; [reflexivity|]. apply Hleaf; auto.
      rewrite Hd; auto. intros ? X; discriminate X.
    - do 2 eexists; split; [reflexivity|]. apply Hleaf; auto.
      rewrite Hd; auto. intros ? X; discriminate X.
    - do 2 eexists; split; [reflexivity|]. apply Hleaf; auto.
      unfold ds. destruct (length d) as [|m] eqn:El; [apply nth_some_lt in Hn; lia|].
      cbn [ds_b]. now rewrite Hn.
    - apply Hbin; auto; try (repeat intros ?; congruence).
    - apply Hbin; auto; try (repeat intros ?; congruence).
    - apply Hbin; auto; try (repeat intros ?; congruence).
    - apply Hun; auto; try (repeat intros ?; congruence).
    - apply Hun; auto; try (repeat intros ?; congruence).
    - apply (Hrot operand 1%nat [shift]); auto; try (repeat intros ?; congruence).
      intros x Hx. eapply public_ds; eauto; simpl; auto.
    - apply (Hrot operand (length shifts) shifts); auto; try (repeat intros ?; congruence).
      intros x Hx. eapply public_ds; eauto; simpl; auto.
    - (* Extract *)
      destruct (HU operand _ ltac:(now left) ltac:(repeat intros ?; congruence) Hg0) as (x & s1 & E1 & H1 & R1).
      destruct (HU index s1 ltac:(right; now left) ltac:(repeat intros ?; congruence) (step_good _ _ _ _ _ H1))
        as (y & s2 & E2 & H2 & R2).
      pose proof (step_app _ _ _ _ _ _ _ _ H1 H2) as H12. cbn [app] in H12.
      unfold visit_extract. rewrite E1. cbn [bind]. rewrite E2. cbn [bind]. do 2 eexists. split; [reflexivity|].
      split; [|destruct R1 as [->|R1]; [destruct R2 as [->|R2]|]; auto].
      rewrite (step_status _ _ _ _ _ operand H12); try (simpl; auto; fail).
      2:{ apply HL; simpl; auto. } 2:{ apply HB; simpl; auto. }
      replace ((x + y) * w i) with ((x * w i + y * w i) + cost i) by (rewrite (Hno eq_refl); lia).
      eapply step_node; eauto. rewrite Hd by (intros ? X; discriminate X).
      rewrite existsb_two, (public_ds i _ index Hr Hn); simpl; auto. now rewrite orb_false_r.
    - (* Insert *)
      destruct (HU scalar _ ltac:(now left) ltac:(repeat intros ?; congruence) Hg0) as (x & s1 & E1 & H1 & R1).
      destruct (HU dest s1 ltac:(right; now left) ltac:(repeat intros ?; congruence) (step_good _ _ _ _ _ H1))
        as (y & s2 & E2 & H2 & R2).
      pose proof (step_app _ _ _ _ _ _ _ _ H1 H2) as H12. cbn [app] in H12.
      destruct (HU index s2 ltac:(right; right; now left) ltac:(repeat intros ?; congruence) (step_good _ _ _ _ _ H2))
        as (z & s3 & E3 & H3 & R3).
      pose proof (step_app _ _ _ _ _ _ _ _ H12 H3) as H13. cbn [app] in H13.
      unfold visit_insert. rewrite E1. cbn [bind]. rewrite E2. cbn [bind]. rewrite E3. cbn [bind].
      do 2 eexists. split; [reflexivity|].
      split; [|destruct R1 as [->|R1]; [destruct R2 as [->|R2]; [destruct R3 as [->|R3]|]|]; auto].
      rewrite (step_status _ _ _ _ _ scalar H13), (step_status _ _ _ _ _ dest H13); try (simpl; auto; fail);
        try (apply HL; simpl; auto; fail); try (apply HB; simpl; auto; fail).
      replace ((x + y + z) * w i) with ((x * w i + y * w i + z * w i) + cost i)
        by (rewrite (Hno eq_refl); lia).
      eapply step_node; eauto. rewrite Hd by (intros ? X; discriminate X).
      cbn [existsb]. rewrite (public_ds i _ index Hr Hn); simpl; auto. now rewrite !orb_false_r.
    - apply Hbin; auto; try (repeat intros ?; congruence).
    - (* IfElse *)
      destruct (HU condition _ ltac:(now left) ltac:(repeat intros ?; congruence) Hg0) as (x & s1 & E1 & H1 & R1).
      destruct (HU thenBody s1 ltac:(right; now left) ltac:(repeat intros ?; congruence) (step_good _ _ _ _ _ H1))
        as (y & s2 & E2 & H2 & R2).
      pose proof (step_app _ _ _ _ _ _ _ _ H1 H2) as H12. cbn [app] in H12.
      destruct (HU elseBody s2 ltac:(right; right; now left) ltac:(repeat intros ?; congruence) (step_good _ _ _ _ _ H2))
        as (z & s3 & E3 & H3 & R3).
      pose proof (step_app _ _ _ _ _ _ _ _ H12 H3) as H13. cbn [app] in H13.
      unfold visit_if. rewrite E1. cbn [bind]. rewrite E2. cbn [bind]. rewrite E3. cbn [bind].
      do 2 eexists. split; [reflexivity|].
      split; [|destruct R1 as [->|R1]; [destruct R2 as [->|R2]; [destruct R3 as [->|R3]|]|]; auto].
      rewrite (step_status _ _ _ _ _ condition H13), (step_status _ _ _ _ _ thenBody H13),
        (step_status _ _ _ _ _ elseBody H13); try (simpl; auto; fail);
        try (apply HL; simpl; auto; fail); try (apply HB; simpl; auto; fail).
      replace ((x + y + z) * w i) with ((x * w i + y * w i + z * w i) + cost i)
        by (rewrite (Hno eq_refl); lia).
      eapply step_node; eauto. rewrite Hd by (intros ? X; discriminate X).
      cbn [existsb]. now rewrite orb_false_r, orb_assoc.
    - do 2 eexists; split; [reflexivity|]. apply Hleaf; auto.
      rewrite Hd; auto. intros ? X; discriminate X.
    - (* ForLoop *)
      destruct (Hloop i inits iterArgs body lower upper step Hr Hn) as (Hs & Hle & Hdiv & Hb).
      destruct (iterations_ok lower upper step Hs Hle Hdiv Hb) as (t & Et & Ht).
      destruct (elements_ok f i inits) with (W := w i) (t := 0) (b := false) (s := insert_visited i s)
        as (x & s1 & E1 & H1 & R1); auto.
      { intros c Hc. repeat split; [apply Hf|apply HB|apply HL]; apply in_or_app; auto. }
      { intros c Hc Hrc. apply (Hw i _ c Hr Hn); auto. apply in_or_app; auto. }
      assert (R1' : x = 0 \/ rotating i).
      { destruct R1 as [->|(c & Hc & Hrc)]; [now left|right]. apply (HR c); auto. apply in_or_app; auto. }
      unfold visit_for. rewrite E1. cbn [bind]. destruct body as [b|].
      + assert (Hin : In b (inits ++ [b])) by (apply in_or_app; right; now left).
        destruct (use f b i s1 (w i * t)) as (y & s2 & E2 & H2 & R2); auto.
        { eapply step_good; eauto. }
        { intros Hrb. destruct (Hw i _ b Hr Hn Hin Hrb) as (_ & Hbody).
          destruct (Hbody eq_refl) as (t' & Ht' & Wb). now rewrite (Ht t' Ht') in Wb. }
        pose proof (step_app _ _ _ _ _ _ _ _ H1 H2) as H12.
        rewrite E2. cbn [bind]. rewrite Et. cbn [bind]. do 2 eexists. split; [reflexivity|].
        split; [|destruct R1' as [->|R1']; [destruct R2 as [->|R2]; [now left|right; eauto]|now right]].
        rewrite (step_status _ _ _ _ _ b H12 Hin); auto.
        replace ((0 + x + y * t) * w i) with ((x * w i + y * (w i * t)) + cost i)
          by (rewrite (Hno eq_refl); ring).
        eapply step_node; eauto. rewrite Hd by (intros ? X; discriminate X).
        rewrite existsb_app. cbn [existsb orb]. now rewrite orb_false_r.
      + rewrite Et. cbn [bind]. do 2 eexists. split; [reflexivity|].
        split; [|destruct R1' as [->|R1']; [now left|now right]].
        replace ((0 + x + 0 * t) * w i) with (x * w i + cost i) by (rewrite (Hno eq_refl); ring).
        eapply step_node; eauto; [cbn [vops operands]; rewrite app_nil_r; exact H1|].
        rewrite Hd by (intros ? X; discriminate X).
        rewrite app_nil_r. cbn [orb]. now rewrite orb_false_r.
    - (* Yield *)
      destruct (elements_ok f i elements) with (W := w i) (t := 0) (b := false) (s := insert_visited i s)
        as (x & s1 & E1 & H1 & R1); auto.
      { intros c Hc. apply HW; auto. repeat intros ?; congruence. }
      rewrite E1. cbn [bind]. do 2 eexists. split; [reflexivity|].
      split; [|destruct R1 as [->|(c & Hc & Hrc)]; [now left|right; eauto]].
      replace ((0 + x) * w i) with (x * w i + cost i) by (rewrite (Hno eq_refl); ring).
      eapply step_node; eauto. rewrite Hd by (intros ? X; discriminate X). reflexivity.
    - apply Hun; auto; try (repeat intros ?; congruence).
    - do 2 eexists; split; [reflexivity|]. apply Hleaf; auto.
      rewrite Hd; auto. intros ? X; discriminate X.
    - do 2 eexists; split; [reflexivity|]. apply Hleaf; auto.
      rewrite Hd; auto. intros ? X; discriminate X.
  Qed.

  Lemma visited_in s i : visited s i = true <-> In i (visitedNodes s).
  Proof.
    unfold visited. rewrite existsb_exists. split.
    - intros (x & Hx & E). apply Nat.eqb_eq in E. now subst.
    - intros H. exists i. split; auto. apply Nat.eqb_refl.
  Qed.

  Lemma process_ok : forall fuel i, (i < fuel)%nat -> reach d root i ->
    correct (processInternal fuel d) i.
  Proof.
    induction fuel as [|fuel IH]; [lia|]. intros i Hi Hr s Hg. cbn [processInternal].
    destruct (visited s i) eqn:Ev.
    - exists 0, s. split; auto. split; [|now left]. apply visited_in in Ev. exists [].
      repeat split; auto; try (intros; contradiction).
      + constructor.
      + intros c k [<-|[]] Hk. eapply Hg; eauto.
      + apply Hg; auto.
      + apply Hg; auto.
    - pose proof (reach_lt _ _ _ Hr) as Hl.
      destruct (nth_error d i) as [n|] eqn:Hn; [|apply nth_error_None in Hn; lia].
      eapply node_ok; eauto. intros c Hc. apply IH.
      + pose proof (Hac i n Hn c Hc). lia.
      + eapply reach_operand; eauto.
  Qed.

  Hypothesis Hroot : (root < length d)%nat.

  Lemma process_total : exists count new, process d root = Some count /\ NoDup new /\
    (forall j, In j new <-> vreach d root j) /\ count * w root = total cost new.
  Proof.
    destruct (process_ok (S (length d)) root ltac:(lia) ltac:(now constructor)
                (State [] (fun _ => false))) as (c & s' & E & (new & Hv & Hnd & Hnew & Hcs & _ & _ & HT) & _).
    { intros j _ []. }
    exists c, new. unfold process. rewrite E. cbn [bind]. split; auto. split; auto. split; auto.
    simpl in Hv. rewrite app_nil_r in Hv. intros j. split.
    - intros Hj. destruct (Hnew j Hj) as (_ & _ & c' & [<-|[]] & H). exact H.
    - intros Hj. rewrite <- Hv. eapply Hcs; [now left|exact Hj].
  Qed.

  Definition rotations_of (new : list nat) : list (nat * nat) :=
    flat_map (fun j => map (pair j) (seq 0 (rots j))) new.

  Lemma sum_rotations new : sum (map (fun p => w (fst p)) (rotations_of new)) = total cost new.
  Proof.
    assert (A : forall a b, sum (a ++ b) = sum a + sum b).
    { induction a; intros; cbn [app sum]; [|rewrite IHa]; lia. }
    induction new as [|j new IH]; cbn [rotations_of flat_map total]; auto.
    rewrite map_app, A. fold (rotations_of new). rewrite IH. f_equal.
    rewrite map_map. cbn [fst]. unfold cost. clear. generalize (seq 0 (rots j)), (seq_length (rots j) 0).
    intros l <-. induction l; cbn [map sum length]; lia.
  Qed.

  Lemma nodup_rotations new : NoDup new -> NoDup (rotations_of new).
  Proof.
    induction new as [|j new IH]; intros Hnd; cbn [rotations_of flat_map]; [constructor|].
    inversion Hnd as [|x y Hj Hnew]; subst. specialize (IH Hnew). fold (rotations_of new).
    assert (G : forall p, In p (rotations_of new) -> In (fst p) new).
    { intros p Hp. apply in_flat_map in Hp as (x & Hx & Hp). apply in_map_iff in Hp as (k & <- & _). exact Hx. }
    generalize (seq_NoDup (rots j) 0). generalize (seq 0 (rots j)) as l.
    induction l as [|k l IHl]; intros Hl; cbn [map app]; auto.
    inversion Hl; subst. constructor; auto.
    intros X. apply in_app_or in X as [X|X].
    - apply in_map_iff in X as (k' & E & Hk'). injection E as ->. contradiction.
    - apply G in X. contradiction.
  Qed.

  Hypothesis Hdirect : forall i n a m, reach d root i -> nth_error d i = Some n ->
    rotates n = Some (a, m) -> secret d a -> directly_secret d a.

  (** what is reached through a shift only is not secret *)
  Lemma reach_vreach i j : reach d i j -> reach d root i -> secret d j -> vreach d i j.
  Proof.
    intros Hr. induction Hr as [i Hi|i n c j Hn Hc Hr IH]; intros Hri Hs.
    - now constructor.
    - assert (Hsc : secret d c).
      { clear - Hr Hs. induction Hr; auto. eapply secret_operand; eauto. }
      apply vreach_step with (n := n) (c := c); auto.
      + destruct n; cbn [vops operands] in *; auto.
        * destruct Hc as [Hc|[Hc|[]]]; [now left|]. exfalso. subst c.
          apply (Hpub i _ shift Hri Hn); simpl; auto.
        * destruct Hc as [Hc|Hc]; [now left|]. exfalso.
          apply (Hpub i _ c Hri Hn); simpl; auto.
      + apply IH; auto. eapply reach_operand; eauto.
  Qed.

  Lemma rotates_operand n a m : rotates n = Some (a, m) -> In a (operands n).
  Proof. destruct n; simpl; intros H; try discriminate H; injection H as <- _; auto. Qed.

  Lemma in_rotations new : (forall j, In j new <-> vreach d root j) ->
    forall p, In p (rotations_of new) <-> secret_rotation d root p.
  Proof.
    intros Hnew (i, k). unfold rotations_of. rewrite in_flat_map. split.
    - intros (j & Hj & Hp). apply in_map_iff in Hp as (k' & E & Hk). injection E as -> ->.
      apply in_seq in Hk. unfold rots in Hk. apply Hnew in Hj. apply vreach_reach in Hj. split; auto.
      destruct (nth_error d i) as [n|] eqn:Hn; [|lia].
      destruct (rotates n) as [(a, m)|] eqn:Er; [|lia].
      destruct (ds a) eqn:Ed; [|lia]. exists n, a, m. repeat split; auto; [lia|].
      apply directly_is_secret. apply ds_ok; auto. eapply in_range; eauto using rotates_operand.
    - intros (Hr & n & a & m & Hn & Er & Hk & Hs).
      assert (Ha : In a (operands n)) by (eapply rotates_operand; eauto).
      exists i. split.
      + apply Hnew. apply reach_vreach; auto; [now constructor|]. eapply secret_operand; eauto.
      + apply in_map. apply in_seq. unfold rots. rewrite Hn, Er.
        replace (ds a) with true; [lia|]. symmetry. apply ds_ok; [eapply in_range; eauto|].
        eapply Hdirect; eauto.
  Qed.

  Lemma process_count : w root = 1 -> exists count L, process d root = Some count /\ NoDup L /\
    (forall p, In p L <-> secret_rotation d root p) /\ count = sum (map (fun p => w (fst p)) L).
  Proof.
    intros W. destruct process_total as (c & new & E & Hnd & Hnew & HT).
    exists c, (rotations_of new). split; auto. split; [now apply nodup_rotations|].
    split; [now apply in_rotations|]. rewrite sum_rotations. rewrite W in HT. lia.
  Qed.
End Main.

(** * The visitor that caches *)
Section Paths.
  Variable d : dag.
  Hypothesis Hac : acyclic d.
  Hypothesis Hcv : convertible d.

  Fixpoint paths (fuel i : nat) : list (list nat) :=
    match fuel with
    | O => []
    | S fuel =>
        match nth_error d i with
        | Some (Add l r) | Some (Subtract l r) | Some (Multiply l r) =>
            map (cons 0%nat) (paths fuel l) ++ map (cons 1%nat) (paths fuel r)
        | Some (LeftRotate a _) => [] :: map (cons 0%nat) (paths fuel a)
        | _ => []
        end
    end.

  Lemma nodup_map_cons k (l : list (list nat)) : NoDup l -> NoDup (map (cons k) l).
  Proof.
    induction 1 as [|x l Hx Hl IH]; cbn [map]; constructor; auto.
    intros X. apply in_map_iff in X as (y & E & Hy). injection E as ->. contradiction.
  Qed.

  Lemma nodup_app {A} (a b : list A) : NoDup a -> NoDup b -> (forall x, In x a -> ~ In x b) ->
    NoDup (a ++ b).
  Proof.
    induction 1 as [|x a Hx Ha IH]; intros Hb Hd; cbn [app]; auto. constructor.
    - intros X. apply in_app_or in X as [X|X]; auto. apply (Hd x); simpl; auto.
    - apply IH; auto. intros y Hy. apply Hd. now right.
  Qed.

  Lemma follow_cons i n k p c : nth_error d i = Some n -> nth_error (operands n) k = Some c ->
    follow d i (k :: p) = follow d c p.
  Proof. intros Hn Hk. cbn [follow]. now rewrite Hn, Hk. Qed.

  Lemma paths_ok : forall fuel i, (i < fuel)%nat ->
    NoDup (paths fuel i) /\ forall p, In p (paths fuel i) <-> to_rotation d i p.
  Proof.
    induction fuel as [|fuel IH]; [lia|]. intros i Hi. cbn [paths].
    assert (Hnone : forall n, nth_error d i = Some n -> operands n = [] ->
              forall p, ~ to_rotation d i p).
    { intros n Hn Ho p (a & s & E). destruct p as [|k p]; cbn [follow] in E; rewrite Hn in E.
      - injection E as ->. discriminate Ho.
      - rewrite Ho in E. destruct k; discriminate E. }
    assert (Hbin : forall n l r, nth_error d i = Some n -> operands n = [l; r] ->
              (forall a s, n <> LeftRotate a s) ->
              NoDup (map (cons 0%nat) (paths fuel l) ++ map (cons 1%nat) (paths fuel r)) /\
              forall p, In p (map (cons 0%nat) (paths fuel l) ++ map (cons 1%nat) (paths fuel r)) <->
                        to_rotation d i p).
    { intros n l r Hn Ho Hr.
      pose proof (Hac i n Hn l ltac:(rewrite Ho; simpl; auto)).
      pose proof (Hac i n Hn r ltac:(rewrite Ho; simpl; auto)).
      destruct (IH l ltac:(lia)) as (Nl & Pl). destruct (IH r ltac:(lia)) as (Nr & Pr). split.
      - apply nodup_app; auto using nodup_map_cons.
        intros x X Y. apply in_map_iff in X as (y & <- & _). apply in_map_iff in Y as (z & E & _).
        discriminate E.
      - intros p. rewrite in_app_iff, !in_map_iff. split.
        + intros [(q & <- & Hq)|(q & <- & Hq)].
          * apply Pl in Hq. unfold to_rotation. rewrite (follow_cons i n 0 q l); auto. now rewrite Ho.
          * apply Pr in Hq. unfold to_rotation. rewrite (follow_cons i n 1 q r); auto. now rewrite Ho.
        + intros (a & s & E). destruct p as [|k p].
          * cbn [follow] in E. rewrite Hn in E. injection E as ->. now apply Hr in Ho || (exfalso; eapply Hr; eauto).
          * destruct k as [|[|k]].
            -- left. exists p. split; auto. apply Pl. exists a, s. rewrite <- E. symmetry.
               apply (follow_cons i n 0 p l); auto. now rewrite Ho.
            -- right. exists p. split; auto. apply Pr. exists a, s. rewrite <- E. symmetry.
               apply (follow_cons i n 1 p r); auto. now rewrite Ho.
            -- cbn [follow] in E. rewrite Hn, Ho in E. destruct k; discriminate E. }
    assert (Hemp : forall n, nth_error d i = Some n -> operands n = [] ->
              NoDup (@nil (list nat)) /\ forall p, In p [] <-> to_rotation d i p).
    { intros n Hn Ho. split; [constructor|]. intros p. split; [intros []|].
      intros X. exfalso. eapply Hnone; eauto. }
    destruct (nth_error d i) as [n|] eqn:Hn.
    2:{ split; [constructor|]. intros p. split; [intros []|]. intros (a & s & E).
        destruct p; cbn [follow] in E; rewrite Hn in E; discriminate E. }
    pose proof (Hcv i n Hn) as Hc.
    destruct n; try contradiction; try (eapply Hemp; eauto; fail);
      try (eapply Hbin; eauto; intros ? ? X; discriminate X).
    pose proof (Hac i _ Hn operand ltac:(simpl; auto)).
    destruct (IH operand ltac:(lia)) as (Na & Pa). split.
    - constructor; [|now apply nodup_map_cons]. intros X. apply in_map_iff in X as (y & E & _). discriminate E.
    - intros p. cbn [In]. rewrite in_map_iff. split.
      + intros [<-|(q & <- & Hq)].
        * exists operand, shift. cbn [follow]. now rewrite Hn.
        * apply Pa in Hq. unfold to_rotation. rewrite (follow_cons i _ 0 q operand Hn); auto.
      + intros (a & s & E). destruct p as [|[|[|k]] p]; auto.
        * right. exists p. split; auto. apply Pa. exists a, s. rewrite <- E. symmetry.
          now apply (follow_cons i _ 0 p operand Hn).
        * exfalso. rewrite (follow_cons i _ 1 p shift Hn eq_refl) in E.
          destruct p; cbn [follow] in E; rewrite Hc in E; [discriminate E|].
          destruct n; discriminate E.
        * exfalso. cbn [follow] in E. rewrite Hn in E. destruct k; discriminate E.
  Qed.

  Definition pcount (i : nat) : Z := Z.of_nat (length (paths (length d) i)).

  Lemma paths_fuel : forall f g i, (i < f)%nat -> (i < g)%nat -> paths f i = paths g i.
  Proof.
    induction f as [|f IH]; [lia|]. intros [|g] i Hf Hg; [lia|]. cbn [paths].
    destruct (nth_error d i) as [n|] eqn:Hn; auto.
    pose proof (Hac i n Hn) as Ha.
    destruct n; auto; cbn [operands] in Ha.
    1-3: pose proof (Ha left ltac:(simpl; auto)); pose proof (Ha right ltac:(simpl; auto));
         rewrite (IH g left), (IH g right) by lia; reflexivity.
    pose proof (Ha operand ltac:(simpl; auto)). rewrite (IH g operand) by lia. reflexivity.
  Qed.

  Lemma pcount_unfold i : (i < length d)%nat -> pcount i = 
    match nth_error d i with
    | Some (Add l r) | Some (Subtract l r) | Some (Multiply l r) => pcount l + pcount r
    | Some (LeftRotate a _) => pcount a + 1
    | _ => 0
    end.
  Proof.
    intros Hl. unfold pcount at 1. destruct (length d) as [|f] eqn:El; [lia|]. cbn [paths].
    destruct (nth_error d i) as [n|] eqn:Hn; auto.
    pose proof (Hac i n Hn) as Ha.
    assert (G : forall c, In c (operands n) -> Z.of_nat (length (paths f c)) = pcount c).
    { intros c Hc. unfold pcount. rewrite El. rewrite (paths_fuel f (S f)); auto.
      specialize (Ha c Hc). lia. specialize (Ha c Hc). lia. }
    destruct n; auto; cbn [operands] in *.
    1-3: rewrite app_length, !map_length, Nat2Z.inj_add, !G; simpl; auto.
    cbn [length]. rewrite map_length, Nat2Z.inj_succ, G; simpl; auto.
  Qed.

  Definition sound (c : cache) : Prop := forall i r, lookup c i = Some r -> r = pcount i.

  Lemma caching_ok : forall fuel i c, (i < fuel)%nat -> (i < length d)%nat -> sound c ->
    exists c', caching_process fuel d i c = Some (pcount i, c') /\ sound c'.
  Proof.
    induction fuel as [|fuel IH]; [lia|]. intros i c Hi Hl Hs. cbn [caching_process].
    destruct (lookup c i) as [r|] eqn:El.
    - exists c. rewrite (Hs i r El). auto.
    - assert (Hadd : forall c', sound c' -> sound ((i, pcount i) :: c')).
      { intros c' H j r. unfold lookup. cbn [find fst]. destruct (Nat.eqb_spec j i) as [->|].
        - cbn. congruence.
        - apply H. }
      destruct (nth_error d i) as [n|] eqn:Hn; [|apply nth_error_None in Hn; lia].
      pose proof (Hac i n Hn) as Ha. pose proof (Hcv i n Hn) as Hc.
      pose proof (pcount_unfold i Hl) as Hp. rewrite Hn in Hp.
      cut (exists c', ('(result, c0) <- match n with
            | ConstantScalar | ConstantTensor | Leaf _ => Some (0, c)
            | Add l r | Subtract l r | Multiply l r =>
                '(x, c) <- caching_process fuel d l c ;;
                '(y, c) <- caching_process fuel d r c ;;
                Some (x + y, c)
            | LeftRotate a _ =>
                '(x, c) <- caching_process fuel d a c ;;
                Some (x + 1, c)
            | _ => None
            end ;; Some (result, (i, result) :: c0)) = Some (pcount i, c') /\ sound c').
      { intros X. destruct n; exact X. }
      rewrite Hp.
      destruct n; try contradiction; cbn [operands] in Ha.
      1-3: exists ((i, 0) :: c); split; [reflexivity|]; rewrite <- Hp; auto.
      1-3: pose proof (Ha left ltac:(simpl; auto)); pose proof (Ha right ltac:(simpl; auto));
           destruct (IH left c ltac:(lia) ltac:(lia) Hs) as (c1 & E1 & Hs1);
           destruct (IH right c1 ltac:(lia) ltac:(lia) Hs1) as (c2 & E2 & Hs2);
           rewrite E1; cbn [bind]; rewrite E2; cbn [bind]; eexists; split; [reflexivity|];
           rewrite <- Hp; auto.
      pose proof (Ha operand ltac:(simpl; auto)).
      destruct (IH operand c ltac:(lia) ltac:(lia) Hs) as (c1 & E1 & Hs1).
      rewrite E1; cbn [bind]; eexists; split; [reflexivity|]. rewrite <- Hp; auto.
  Qed.

  Lemma caching_paths v : (v < length d)%nat ->
    exists c' L, caching_process (S (length d)) d v [] = Some (Z.of_nat (length L), c') /\
      NoDup L /\ forall p, In p L <-> to_rotation d v p.
  Proof.
    intros Hl. destruct (caching_ok (S (length d)) v [] ltac:(lia) Hl) as (c' & E & _).
    { intros i r X. discriminate X. }
    exists c', (paths (length d) v). split; [exact E|]. apply paths_ok; auto.
  Qed.

  Lemma group_ok : forall outs t, (forall v, In v outs -> (v < length d)%nat) ->
    exists L : list (nat * list nat), group_rotations d outs t = Some (t + Z.of_nat (length L)) /\ NoDup L /\
      forall k p, In (k, p) L <-> exists v, nth_error outs k = Some v /\ to_rotation d v p.
  Proof.
    induction outs as [|v outs IH]; intros t Hv.
    - exists []. cbn [group_rotations length]. split; [f_equal; lia|]. split; [constructor|].
      intros k p. split; [intros []|]. intros (v & X & _). destruct k; discriminate X.
    - destruct (caching_paths v (Hv v (or_introl eq_refl))) as (c' & P & E & NP & HP).
      destruct (IH (t + Z.of_nat (length P)) (fun x H => Hv x (or_intror H))) as (L & EL & NL & HL).
      exists (map (pair 0%nat) P ++ map (fun q => (S (fst q), snd q)) L).
      cbn [group_rotations]. rewrite E. cbn [bind]. rewrite EL. split; [|split].
      + rewrite app_length, !map_length. f_equal. lia.
      + apply nodup_app.
        * clear - NP. induction NP as [|x l Hx Hl IH]; cbn [map]; constructor; auto.
          intros X. apply in_map_iff in X as (y & Ey & Hy). injection Ey as ->. contradiction.
        * clear - NL. induction NL as [|x l Hx Hl IH]; cbn [map]; constructor; auto.
          intros X. apply in_map_iff in X as ((a, b) & Ey & Hy). destruct x as (a', b'). cbn in Ey.
          injection Ey as -> ->. contradiction.
        * intros (a, b) X Y. apply in_map_iff in X as (y & Ey & _). apply in_map_iff in Y as (z & Ez & _).
          injection Ey as <- _. discriminate Ez.
      + intros k p. rewrite in_app_iff, !in_map_iff. split.
        * intros [(q & Eq & Hq)|((a, b) & Eq & Hq)].
          -- injection Eq as <- <-. exists v. split; auto. now apply HP.
          -- cbn in Eq. injection Eq as <- <-. now apply HL in Hq.
        * intros (x & Hx & Hp). destruct k as [|k].
          -- injection Hx as <-. left. exists p. split; auto. now apply HP.
          -- right. exists (k, p). split; auto. apply HL. exists x. auto.
  Qed.
End Paths.

(** * Deciding secrecy and reachability in given graphs *)
Definition closed_at (d : dag) (P : nat -> bool) (i : nat) : bool :=
  match nth_error d i with
  | None => true
  | Some n =>
      (match n with Leaf true => P i | _ => true end) &&
      implb (existsb P (operands n)) (P i) &&
      match n with
      | ForLoop inits args body _ _ _ =>
          forallb (fun q => implb (P (fst q)) (P (snd q))) (combine inits args) &&
          match body with
          | Some b => match nth_error d b with
                      | Some (Yield es) => forallb (fun q => implb (P (fst q)) (P (snd q))) (combine es args)
                      | _ => true
                      end
          | None => true
          end
      | _ => true
      end
  end.

Lemma nth_combine {A B} (a : list A) (b : list B) k x y :
  nth_error a k = Some x -> nth_error b k = Some y -> In (x, y) (combine a b).
Proof.
  revert b k; induction a as [|u a IH]; intros [|v b] [|k] Hx Hy; try discriminate.
  - injection Hx as ->. injection Hy as ->. now left.
  - right. eapply IH; eauto.
Qed.

Lemma secret_within d P : forallb (closed_at d P) (seq 0 (length d)) = true ->
  forall i, secret d i -> P i = true.
Proof.
  intros Hc.
  assert (H : forall i n, nth_error d i = Some n -> closed_at d P i = true).
  { intros i n Hn. rewrite forallb_forall in Hc. apply Hc. apply in_seq.
    apply nth_some_lt in Hn. lia. }
  induction 1 as [i Hi|i n c Hn Hin Hs IH|a i inits args body lo up st k x Hn Ha Hx Hs IH
                 |a i inits args b lo up st k x es Hn Ha Hb Hx Hs IH].
  - specialize (H i _ Hi). unfold closed_at in H. rewrite Hi in H.
    apply andb_prop in H as (H & _). apply andb_prop in H as (H & _). exact H.
  - specialize (H i _ Hn). unfold closed_at in H. rewrite Hn in H.
    apply andb_prop in H as (H & _). apply andb_prop in H as (_ & H).
    replace (existsb P (operands n)) with true in H; [exact H|]. symmetry. apply existsb_exists. eauto.
  - specialize (H i _ Hn). unfold closed_at in H. rewrite Hn in H.
    apply andb_prop in H as (_ & H). apply andb_prop in H as (H & _).
    rewrite forallb_forall in H. specialize (H _ (nth_combine _ _ _ _ _ Hx Ha)). cbn [fst snd] in H.
    rewrite IH in H. exact H.
  - specialize (H i _ Hn). unfold closed_at in H. rewrite Hn, Hb in H.
    apply andb_prop in H as (_ & H). apply andb_prop in H as (_ & H).
    rewrite forallb_forall in H. specialize (H _ (nth_combine _ _ _ _ _ Hx Ha)). cbn [fst snd] in H.
    rewrite IH in H. exact H.
Qed.

Definition reach_closed (d : dag) (S : list nat) : bool :=
  forallb (fun i => match nth_error d i with
                    | Some n => forallb (fun c => existsb (Nat.eqb c) S) (operands n)
                    | None => true
                    end) S.

Lemma reach_within d S : reach_closed d S = true -> forall i j, reach d i j -> In i S -> In j S.
Proof.
  intros Hc i j. induction 1 as [i Hi|i n c j Hn Hin Hr IH]; intros HS; auto.
  apply IH. unfold reach_closed in Hc. rewrite forallb_forall in Hc. specialize (Hc i HS).
  rewrite Hn in Hc. rewrite forallb_forall in Hc. specialize (Hc c Hin).
  apply existsb_exists in Hc as (x & Hx & E). apply Nat.eqb_eq in E. now subst.
Qed.

Lemma not_rotating d S : reach_closed d S = true ->
  forallb (fun i => match nth_error d i with
                    | Some n => match rotates n with None => true | _ => false end
                    | None => true end) S = true ->
  forall i p, In i S -> ~ secret_rotation d i p.
Proof.
  intros Hc Hr i (j, k) HS (Hj & n & a & m & Hn & E & _).
  apply (reach_within d S Hc) in Hj; auto. rewrite forallb_forall in Hr. specialize (Hr j Hj).
  rewrite Hn, E in Hr. discriminate Hr.
Qed.

Definition acyclic_b (d : dag) : bool :=
  forallb (fun i => match nth_error d i with
                    | Some n => forallb (fun c => Nat.ltb c i) (operands n)
                    | None => true end) (seq 0 (length d)).

Lemma acyclic_ok d : acyclic_b d = true -> acyclic d.
Proof.
  intros H i n Hn c Hc. unfold acyclic_b in H. rewrite forallb_forall in H.
  specialize (H i). rewrite Hn in H. rewrite forallb_forall in H. apply Nat.ltb_lt. apply H; auto.
  apply in_seq. apply nth_some_lt in Hn. lia.
Qed.

Lemma public_ok d P root : forallb (closed_at d P) (seq 0 (length d)) = true ->
  forallb (fun n => forallb (fun s => negb (P s)) (public_positions n)) d = true ->
  positions_public d root.
Proof.
  intros Hc Hp i n s _ Hn Hs X. apply (secret_within d P Hc) in X.
  rewrite forallb_forall in Hp. specialize (Hp n (nth_error_In _ _ Hn)).
  rewrite forallb_forall in Hp. specialize (Hp s Hs). rewrite X in Hp. discriminate Hp.
Qed.
