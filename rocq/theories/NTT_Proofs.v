(** Proofs about the NTT model. *)
From Coq Require Import ZArith List Bool Arith Lia Znumtheory Zpow_facts Setoid Morphisms.
From Verif Require Import Words ModArith_Model ModArith_Proofs NumTheory_Model NumTheory_Proofs
  ModEq Sums NTT_Model.
Import ListNotations.
Open Scope Z_scope.

Notation "x ^^ n" := (Z.pow x (Z.of_nat n)) (at level 30, right associativity).
Lemma npow_add x a b : x ^^ (a + b) = x ^^ a * x ^^ b.
Proof. rewrite Nat2Z.inj_add. apply Z.pow_add_r; lia. Qed.
Lemma npow_mul x a b : x ^^ (a * b) = (x ^^ a) ^^ b.
Proof. rewrite Nat2Z.inj_mul. apply Z.pow_mul_r; lia. Qed.
Lemma npow_S x a : x ^^ (S a) = x * x ^^ a.
Proof. rewrite Nat2Z.inj_succ. apply Z.pow_succ_r; lia. Qed.
Lemma npow_1 x : x ^^ 1 = x.
Proof. apply Z.pow_1_r. Qed.
Lemma npow_2 x : x ^^ 2 = x * x.
Proof. change (Z.of_nat 2) with 2. apply Z.pow_2_r. Qed.

(** ** lists *)
Lemma upd_length {A} (l : list A) i v : length (upd l i v) = length l.
Proof. revert i; induction l; intros [|i]; simpl; auto. Qed.
Lemma upd_nth {A} (l : list A) i v j d : (i < length l)%nat ->
  nth j (upd l i v) d = if (j =? i)%nat then v else nth j l d.
Proof.
  revert i j; induction l; intros [|i] [|j] H; simpl in *; try lia; auto.
  apply IHl. lia.
Qed.
Lemma nth_error_some {A} (l : list A) i d : (i < length l)%nat -> nth_error l i = Some (nth i l d).
Proof. intros. apply nth_error_nth'. auto. Qed.
Lemma Forall_nth' {A} (P : A -> Prop) l i d : Forall P l -> (i < length l)%nat -> P (nth i l d).
Proof. intros. rewrite Forall_forall in H. apply H, nth_In; auto. Qed.
Lemma Forall_upd {A} (P : A -> Prop) l i v : Forall P l -> P v -> Forall P (upd l i v).
Proof.
  intros H Hv. revert i. induction H; intros [|i]; simpl; constructor; auto.
Qed.
Lemma NoDup_app' {A} (l l' : list A) : NoDup l -> NoDup l' ->
  (forall x, In x l -> ~ In x l') -> NoDup (l ++ l').
Proof.
  induction 1; simpl; intros Hl' Hd; auto. constructor.
  - rewrite in_app_iff. intros [?|?]; [auto|]. eapply Hd; [left; reflexivity|auto].
  - auto.
Qed.
Lemma NoDup_flat_map_key {A B} (f : A -> list B) (key : B -> A) l :
  NoDup l -> (forall x, In x l -> NoDup (f x)) ->
  (forall x y, In x l -> In y (f x) -> key y = x) -> NoDup (flat_map f l).
Proof.
  induction l as [|a l IH]; simpl; intros Hl Hf Hk; [constructor|].
  inversion_clear Hl as [|? ? Ha Hl']. apply NoDup_app'; auto.
  intros y Hy Hy'. apply in_flat_map in Hy' as (x & Hx & Hy'). apply Ha.
  rewrite <- (Hk a y), (Hk x y); auto.
Qed.

Lemma flat_map_flat_map {A B C} (h : B -> list C) (f : A -> list B) l :
  flat_map h (flat_map f l) = flat_map (fun x => flat_map h (f x)) l.
Proof. induction l; simpl; auto. rewrite flat_map_app, IHl. auto. Qed.
Lemma flat_map_map' {A B C} (h : B -> list C) (f : A -> B) l :
  flat_map h (map f l) = flat_map (fun x => h (f x)) l.
Proof. induction l; simpl; auto. rewrite IHl. auto. Qed.

Lemma nodup2 (a b : nat) : a <> b -> NoDup [a; b].
Proof. intros. constructor; simpl; [intuition|]. constructor; simpl; [tauto|constructor]. Qed.

(** ** in-place butterfly loops *)
Section Loop.
Variable q : Z.
Hypothesis Hq : 0 < q.
Definition can (x : Z) : Prop := 0 <= x < q.

Variable bf : Z -> Z -> Z -> option (Z * Z).
Variable F : Z -> Z -> Z -> Z * Z.
Hypothesis Hbf : forall u v w, can u -> can v -> can w -> bf u v w = Some (F u v w).
Hypothesis HF : forall u v w, can (fst (F u v w)) /\ can (snd (F u v w)).
Variable table : list Z.
Hypothesis Htab : Forall can table.

Definition ends (x : nat * nat * nat) : list nat := let '(i, j, k) := x in [i; j].

Lemma loop_spec ps : forall a, Forall can a ->
  (forall i j k, In (i, j, k) ps ->
     (i < length a)%nat /\ (j < length a)%nat /\ (k < length table)%nat) ->
  NoDup (flat_map ends ps) ->
  exists r, ofold (butterfly bf table) ps a = Some r /\ length r = length a /\ Forall can r /\
   (forall i j k, In (i, j, k) ps ->
      nth i r 0 = fst (F (nth i a 0) (nth j a 0) (nth k table 0)) /\
      nth j r 0 = snd (F (nth i a 0) (nth j a 0) (nth k table 0))) /\
   (forall t, ~ In t (flat_map ends ps) -> nth t r 0 = nth t a 0).
Proof.
  induction ps as [|[[i j] k] ps IH]; intros a Ha Hin Hnd.
  - exists a. simpl. repeat split; auto; tauto.
  - destruct (Hin i j k (or_introl eq_refl)) as (Hi & Hj & Hk).
    cbn [ofold butterfly]. 
    rewrite (nth_error_some a i 0), (nth_error_some a j 0), (nth_error_some table k 0) by auto.
    cbn [bind]. rewrite Hbf by (apply Forall_nth'; auto). cbn [bind].
    set (f := F (nth i a 0) (nth j a 0) (nth k table 0)).
    destruct (HF (nth i a 0) (nth j a 0) (nth k table 0)) as [H1 H2]. fold f in H1, H2.
    simpl in Hnd. inversion_clear Hnd as [|? ? Hni Hnd']. inversion_clear Hnd' as [|? ? Hnj Hnd].
    destruct (IH (upd (upd a i (fst f)) j (snd f))) as (r & Hr & Hl & Hc & Hp & Hu).
    + repeat apply Forall_upd; auto.
    + intros i' j' k' H'. rewrite !upd_length. apply Hin. right; auto.
    + auto.
    + rewrite !upd_length in Hl. exists r. split; auto. split; auto. split; auto.
      assert (Hnth : forall t, ~ In t [i; j] ->
        nth t (upd (upd a i (fst f)) j (snd f)) 0 = nth t a 0).
      { intros t Ht. rewrite upd_nth by (rewrite upd_length; auto). rewrite upd_nth by auto.
        simpl in Ht. destruct (Nat.eqb_spec t j); [subst; tauto|].
        destruct (Nat.eqb_spec t i); [subst; tauto|auto]. }
      split.
      * intros i' j' k' [[= <- <- <-]|H'].
        -- rewrite !Hu by (intros C; simpl in *; tauto).
           rewrite !upd_nth by (rewrite ?upd_length; auto).
           rewrite Nat.eqb_refl. destruct (Nat.eqb_spec i j); [subst; simpl in Hni; tauto|].
           rewrite Nat.eqb_refl. auto.
        -- assert (Hi' : In i' (flat_map ends ps)) by (apply in_flat_map; exists (i', j', k'); simpl; auto).
           assert (Hj' : In j' (flat_map ends ps)) by (apply in_flat_map; exists (i', j', k'); simpl; auto).
           destruct (Hp _ _ _ H') as [E1 E2]. rewrite E1, E2.
           rewrite !Hnth; auto; intros [<- |[<- |[]]]; simpl in Hni; tauto.
      * intros t Ht. rewrite Hu by (intros C; apply Ht; simpl; auto).
        apply Hnth. simpl in Ht. simpl. tauto.
Qed.

Definition gpass (s : nat) (tw : nat -> Z) (l : list Z) : list Z :=
  map (fun t => let j := (t mod (2 * s))%nat in
        if (j <? s)%nat then fst (F (nth t l 0) (nth (t + s) l 0) (tw j))
        else snd (F (nth (t - s) l 0) (nth t l 0) (tw (j - s)%nat)))
      (seq 0 (length l)).

Lemma gpass_length s tw l : length (gpass s tw l) = length l.
Proof. unfold gpass. rewrite map_length, seq_length. auto. Qed.
Lemma gpass_can s tw l : Forall can (gpass s tw l).
Proof.
  unfold gpass. apply Forall_forall. intros x Hx. apply in_map_iff in Hx as (t & <- & _).
  cbv zeta. destruct (_ <? _)%nat; apply HF.
Qed.

Lemma decomp s n t : (1 <= s)%nat -> (t < n)%nat -> (n mod (2 * s) = 0)%nat ->
  let j := (t mod (2 * s))%nat in let g := (t / (2 * s))%nat in
  (t = g * 2 * s + j /\ j < 2 * s /\ g < n / (2 * s) /\ g * 2 * s + 2 * s <= n)%nat.
Proof.
  intros Hs Ht Hn j g. subst j g.
  pose proof (Nat.div_mod t (2 * s) ltac:(lia)) as Ed.
  pose proof (Nat.mod_upper_bound t (2 * s) ltac:(lia)).
  pose proof (Nat.div_mod n (2 * s) ltac:(lia)) as En.
  assert (t / (2 * s) < n / (2 * s))%nat.
  { apply Nat.div_lt_upper_bound; [lia|]. lia. }
  repeat split; try lia. nia.
Qed.

(** any list of pairs that covers the array pairwise gives [gpass] *)
Lemma pass_ok ps s (idx : nat -> nat) a :
  (1 <= s)%nat -> (length a mod (2 * s) = 0)%nat -> Forall can a ->
  NoDup (flat_map ends ps) ->
  (forall i j k, In (i, j, k) ps -> (i < length a)%nat /\ (j < length a)%nat /\ (k < length table)%nat) ->
  (forall g j, (j < s)%nat -> (g < length a / (2 * s))%nat ->
     In (g * 2 * s + j, g * 2 * s + j + s, idx j)%nat ps) ->
  ofold (butterfly bf table) ps a = Some (gpass s (fun j => nth (idx j) table 0) a).
Proof.
  intros Hs Hn Ha Hnd Hb Hcov.
  destruct (loop_spec ps a Ha Hb Hnd) as (r & Hr & Hl & _ & Hp & _).
  rewrite Hr. f_equal. apply (list_eq_nth 0); [rewrite gpass_length; auto|].
  rewrite Hl. intros t Ht. unfold gpass. rewrite nth_map_seq by auto. cbv zeta.
  destruct (decomp s _ t Hs Ht Hn) as (E & Hj & Hg & _). cbv zeta in E, Hj, Hg.
  destruct (Nat.ltb_spec (t mod (2 * s)) s).
  - specialize (Hcov (t / (2 * s))%nat (t mod (2 * s))%nat ltac:(auto) Hg).
    rewrite <- E in Hcov. destruct (Hp _ _ _ Hcov) as [E1 _]. rewrite E1. auto.
  - specialize (Hcov (t / (2 * s))%nat (t mod (2 * s) - s)%nat ltac:(lia) Hg).
    replace (t / (2 * s) * 2 * s + (t mod (2 * s) - s))%nat with (t - s)%nat in Hcov by lia.
    replace (t - s + s)%nat with t in Hcov by lia.
    destruct (Hp _ _ _ Hcov) as [_ E1]. rewrite E1. auto.
Qed.

Lemma dm b r m : (r < m)%nat -> ((b * m + r) / m = b /\ (b * m + r) mod m = r)%nat.
Proof.
  intros. split.
  - symmetry. apply Nat.div_unique with r; lia.
  - symmetry. apply Nat.mod_unique with b; lia.
Qed.

Lemma dif_pass s a : (1 <= s)%nat -> (length a mod (2 * s) = 0)%nat -> Forall can a ->
  length table = length a ->
  ofold (butterfly bf table) (dif_pairs (length a) s) a =
  Some (gpass s (fun j => nth (2 * j * (length a / (2 * s)))%nat table 0) a).
Proof.
  intros Hs Hn Ha Ht. set (n := length a) in *. 
  assert (En : (n = 2 * s * (n / (2 * s)))%nat).
  { pose proof (Nat.div_mod n (2 * s) ltac:(lia)). lia. }
  set (G := (n / (2 * s))%nat) in *.
  apply (pass_ok (dif_pairs n s) s (fun j => (2 * j * G)%nat)); auto; fold n.
  - unfold dif_pairs. fold G. rewrite flat_map_flat_map.
    apply NoDup_flat_map_key with (key := fun t => ((t mod (2 * s)) mod s)%nat).
    + apply seq_NoDup.
    + intros j Hj. apply in_seq in Hj. rewrite flat_map_map'.
      apply NoDup_flat_map_key with (key := fun t => (t / (2 * s))%nat).
      * apply seq_NoDup.
      * intros g Hg. simpl. apply nodup2. lia.
      * intros g y Hg Hy. simpl in Hy.
        destruct Hy as [<- |[<- |[]]].
        -- replace (g * 2 * s + j)%nat with (g * (2 * s) + j)%nat by lia. apply dm. lia.
        -- replace (g * 2 * s + j + s)%nat with (g * (2 * s) + (j + s))%nat by lia. apply dm. lia.
    + intros j y Hj Hy. apply in_seq in Hj. rewrite flat_map_map' in Hy.
      apply in_flat_map in Hy as (g & _ & Hy). simpl in Hy. destruct Hy as [<- |[<- |[]]].
      * replace (g * 2 * s + j)%nat with (g * (2 * s) + j)%nat by lia.
        rewrite (proj2 (dm g j (2 * s) ltac:(lia))). apply Nat.mod_small. lia.
      * replace (g * 2 * s + j + s)%nat with (g * (2 * s) + (j + s))%nat by lia.
        rewrite (proj2 (dm g (j + s) (2 * s) ltac:(lia))).
        replace (j + s)%nat with (1 * s + j)%nat by lia. apply dm. lia.
  - intros i j k Hin. unfold dif_pairs in Hin. fold G in Hin.
    apply in_flat_map in Hin as (j0 & Hj0 & Hin). apply in_map_iff in Hin as (g & [= <- <- <-] & Hg).
    apply in_seq in Hj0, Hg. rewrite Ht. nia.
  - intros g j Hj Hg. unfold dif_pairs. fold G. apply in_flat_map. exists j. rewrite in_seq.
    split; [lia|]. apply in_map_iff. exists g. rewrite in_seq. split; auto. lia.
Qed.

Lemma stage_pass s r a : (1 <= s)%nat -> (length a mod (2 * s) = 0)%nat -> Forall can a ->
  length table = length a -> (r * (2 * s) <= length a)%nat ->
  ofold (butterfly bf table) (stage_pairs (length a) (2 * s) r) a =
  Some (gpass s (fun j => nth ((2 * j + 1) * r)%nat table 0) a).
Proof.
  intros Hs Hn Ha Ht Hr. set (n := length a) in *.
  assert (En : (n = 2 * s * (n / (2 * s)))%nat).
  { pose proof (Nat.div_mod n (2 * s) ltac:(lia)). lia. }
  assert (Eh : (2 * s / 2 = s)%nat) by (rewrite Nat.mul_comm; apply Nat.div_mul; lia).
  unfold stage_pairs. rewrite Eh. set (G := (n / (2 * s))%nat) in *.
  destruct (Nat.eq_dec n 0) as [E0|N0].
  { replace G with 0%nat by nia. simpl. unfold gpass. fold n. rewrite E0. simpl.
    destruct a; [auto|discriminate]. }
  apply (pass_ok _ s (fun j => ((2 * j + 1) * r)%nat)); auto; fold n.
  - rewrite flat_map_flat_map.
    apply NoDup_flat_map_key with (key := fun t => (t / (2 * s))%nat).
    + apply seq_NoDup.
    + intros g Hg. rewrite flat_map_map'.
      apply NoDup_flat_map_key with (key := fun t => ((t mod (2 * s)) mod s)%nat).
      * apply seq_NoDup.
      * intros j Hj. apply in_seq in Hj. simpl. apply nodup2. lia.
      * intros j y Hj Hy. apply in_seq in Hj. simpl in Hy. destruct Hy as [<- |[<- |[]]].
        -- replace (j + (s + (s + 0)) * g)%nat with (g * (2 * s) + j)%nat by lia.
           rewrite (proj2 (dm g j (2 * s) ltac:(lia))). apply Nat.mod_small. lia.
        -- replace (j + (s + (s + 0)) * g + s)%nat with (g * (2 * s) + (j + s))%nat by lia.
           rewrite (proj2 (dm g (j + s) (2 * s) ltac:(lia))).
           replace (j + s)%nat with (1 * s + j)%nat by lia. apply dm. lia.
    + intros g y Hg Hy. rewrite flat_map_map' in Hy.
      apply in_flat_map in Hy as (j & Hj & Hy). apply in_seq in Hj. simpl in Hy.
      destruct Hy as [<- |[<- |[]]].
      * replace (j + (s + (s + 0)) * g)%nat with (g * (2 * s) + j)%nat by lia. apply dm. lia.
      * replace (j + (s + (s + 0)) * g + s)%nat with (g * (2 * s) + (j + s))%nat by lia. apply dm. lia.
  - intros i j k Hin. apply in_flat_map in Hin as (g & Hg & Hin).
    apply in_map_iff in Hin as (j0 & [= <- <- <-] & Hj0).
    apply in_seq in Hj0, Hg. rewrite Ht.
    assert (2 * s * g + 2 * s <= n)%nat by nia.
    repeat split; try lia. destruct r; nia.
  - intros g j Hj Hg. apply in_flat_map. exists g. rewrite in_seq.
    split; [lia|]. apply in_map_iff. exists j. rewrite in_seq. split; [|lia].
    apply (f_equal2 pair); [apply (f_equal2 pair)|]; lia.
Qed.

(** blocks do not interact *)
Lemma gpass_app s tw l1 l2 : (1 <= s)%nat -> (length l1 mod (2 * s) = 0)%nat ->
  (length l2 mod (2 * s) = 0)%nat ->
  gpass s tw (l1 ++ l2) = gpass s tw l1 ++ gpass s tw l2.
Proof.
  intros Hs H1 H2. apply (list_eq_nth 0); [rewrite app_length, !gpass_length, app_length; auto|].
  rewrite gpass_length. intros t Ht. rewrite app_length in Ht. unfold gpass at 1.
  rewrite nth_map_seq by (rewrite app_length; auto). cbv zeta.
  destruct (Nat.lt_ge_cases t (length l1)) as [Hl|Hl].
  - rewrite (app_nth1 (gpass s tw l1)) by (rewrite gpass_length; auto).
    unfold gpass at 1. rewrite nth_map_seq by auto. cbv zeta.
    destruct (decomp s _ t Hs Hl H1) as (E & Hj & Hg & Hle). cbv zeta in *.
    destruct (Nat.ltb_spec (t mod (2 * s)) s).
    + rewrite !app_nth1 by lia. auto.
    + rewrite !app_nth1 by lia. auto.
  - rewrite (app_nth2 (gpass s tw l1)) by (rewrite gpass_length; auto). rewrite gpass_length.
    set (u := (t - length l1)%nat). assert (Hu : (u < length l2)%nat) by (unfold u; lia).
    unfold gpass at 1. rewrite nth_map_seq by auto. cbv zeta.
    assert (Et : (t mod (2 * s) = u mod (2 * s))%nat).
    { pose proof (Nat.div_mod (length l1) (2 * s) ltac:(lia)) as E1. rewrite H1, Nat.add_0_r in E1.
      replace t with (u + length l1 / (2 * s) * (2 * s))%nat by (unfold u; lia).
      apply Nat.mod_add. lia. }
    rewrite Et. destruct (decomp s _ u Hs Hu H2) as (E & Hj & Hg & Hle). cbv zeta in *.
    destruct (Nat.ltb_spec (u mod (2 * s)) s).
    + rewrite !app_nth2 by lia. replace (t + s - length l1)%nat with (u + s)%nat by (unfold u; lia).
      auto.
    + rewrite !app_nth2 by (unfold u in *; lia).
      replace (t - s - length l1)%nat with (u - s)%nat by (unfold u; lia). auto.
Qed.
End Loop.

(** ** the two butterflies as pure functions *)
Section Transforms.
Variable q : Z.
Hypothesis Hq : 1 < q.

Definition GS (u v w : Z) : Z * Z := ((u + v) mod q, ((u - v) mod q * w) mod q).
Definition CT (u v w : Z) : Z * Z := ((u + (v * w) mod q) mod q, (u - (v * w) mod q) mod q).

Lemma GS_can u v w : can q (fst (GS u v w)) /\ can q (snd (GS u v w)).
Proof. unfold GS, can. simpl. split; apply Z.mod_pos_bound; lia. Qed.
Lemma CT_can u v w : can q (fst (CT u v w)) /\ can q (snd (CT u v w)).
Proof. unfold CT, can. simpl. split; apply Z.mod_pos_bound; lia. Qed.
Lemma GS_cong u v w : cong q (fst (GS u v w)) (u + v) /\ cong q (snd (GS u v w)) ((u - v) * w).
Proof. unfold GS. simpl. rewrite !cong_mod. split; reflexivity. Qed.
Lemma CT_cong u v w : cong q (fst (CT u v w)) (u + v * w) /\ cong q (snd (CT u v w)) (u - v * w).
Proof. unfold CT. simpl. split; rewrite cong_mod, cong_mod; reflexivity. Qed.

Lemma gpass_lo F s tw l t : (t < length l)%nat -> (t mod (2 * s) < s)%nat ->
  nth t (gpass F s tw l) 0 = fst (F (nth t l 0) (nth (t + s) l 0) (tw (t mod (2 * s))%nat)).
Proof.
  intros Ht Hm. unfold gpass. rewrite nth_map_seq by auto. cbv zeta.
  destruct (Nat.ltb_spec (t mod (2 * s)) s); [auto|lia].
Qed.
Lemma gpass_hi F s tw l t : (t < length l)%nat -> (s <= t mod (2 * s))%nat ->
  nth t (gpass F s tw l) 0 = snd (F (nth (t - s) l 0) (nth t l 0) (tw (t mod (2 * s) - s)%nat)).
Proof.
  intros Ht Hm. unfold gpass. rewrite nth_map_seq by auto. cbv zeta.
  destruct (Nat.ltb_spec (t mod (2 * s)) s); [lia|auto].
Qed.

(** scaled congruence of arrays *)
Definition sc (c : Z) (l l' : list Z) : Prop :=
  length l = length l' /\ forall i, cong q (nth i l 0) (c * nth i l' 0).

Definition linear (F : Z -> Z -> Z -> Z * Z) : Prop := forall c u v u' v' w w',
  cong q u (c * u') -> cong q v (c * v') -> cong q w w' ->
  cong q (fst (F u v w)) (c * fst (F u' v' w')) /\ cong q (snd (F u v w)) (c * snd (F u' v' w')).
Lemma GS_linear : linear GS.
Proof.
  intros c u v u' v' w w' Hu Hv Hw. destruct (GS_cong u v w) as [-> ->]. destruct (GS_cong u' v' w') as [-> ->].
  rewrite Hu, Hv, Hw. split; exists 0; ring.
Qed.
Lemma CT_linear : linear CT.
Proof.
  intros c u v u' v' w w' Hu Hv Hw. destruct (CT_cong u v w) as [-> ->]. destruct (CT_cong u' v' w') as [-> ->].
  rewrite Hu, Hv, Hw. split; exists 0; ring.
Qed.

Lemma gpass_sc F s tw c l l' : linear F -> sc c l l' -> sc c (gpass F s tw l) (gpass F s tw l').
Proof.
  intros HF [Hl H]. split; [rewrite !gpass_length; auto|]. intros t.
  destruct (Nat.lt_ge_cases t (length l)) as [Ht|Ht].
  - destruct (Nat.lt_ge_cases (t mod (2 * s)) s).
    + rewrite !gpass_lo by (auto; lia). apply HF; auto. reflexivity.
    + rewrite !gpass_hi by (auto; lia). apply HF; auto. reflexivity.
  - rewrite !nth_overflow by (rewrite gpass_length; lia). exists 0. ring.
Qed.

Lemma mod_add_s s t : (t mod (2 * s) < s)%nat -> ((t + s) mod (2 * s) = t mod (2 * s) + s)%nat.
Proof.
  intros H. rewrite Nat.add_mod by lia. rewrite (Nat.mod_small s) by lia.
  apply Nat.mod_small. lia.
Qed.
Lemma mod_sub_s s t : (1 <= s)%nat -> (s <= t mod (2 * s))%nat ->
  ((t - s) mod (2 * s) = t mod (2 * s) - s)%nat.
Proof.
  intros Hs H. pose proof (Nat.div_mod t (2 * s) ltac:(lia)) as E.
  pose proof (Nat.mod_upper_bound t (2 * s) ltac:(lia)).
  symmetry. apply Nat.mod_unique with (t / (2 * s))%nat; lia.
Qed.

Section Inverse.
Variables (F F' : Z -> Z -> Z -> Z * Z).
Hypothesis Finv : forall u v w w', cong q (w * w') 1 ->
  cong q (fst (F' (fst (F u v w)) (snd (F u v w)) w')) (2 * u) /\
  cong q (snd (F' (fst (F u v w)) (snd (F u v w)) w')) (2 * v).
Lemma gpass_inv s tw tw' l : (1 <= s)%nat -> (length l mod (2 * s) = 0)%nat ->
  (forall j, (j < s)%nat -> cong q (tw j * tw' j) 1) ->
  sc 2 (gpass F' s tw' (gpass F s tw l)) l.
Proof.
  intros Hs Hn Htw. split; [rewrite !gpass_length; auto|]. intros t.
  destruct (Nat.lt_ge_cases t (length l)) as [Ht|Ht].
  - destruct (decomp s _ t Hs Ht Hn) as (E & Hj & Hg & Hle). cbv zeta in *.
    destruct (Nat.lt_ge_cases (t mod (2 * s)) s) as [Hlo|Hhi].
    + rewrite gpass_lo by (rewrite ?gpass_length; auto).
      rewrite gpass_lo by auto.
      assert (E2 : ((t + s) mod (2 * s) = t mod (2 * s) + s)%nat) by (apply mod_add_s; auto).
      rewrite gpass_hi by (rewrite ?E2; lia).
      rewrite E2. replace (t + s - s)%nat with t by lia.
      replace (t mod (2 * s) + s - s)%nat with (t mod (2 * s))%nat by lia.
      apply Finv. auto.
    + rewrite gpass_hi by (rewrite ?gpass_length; auto).
      rewrite (gpass_hi F s tw l t) by auto.
      assert (E2 : ((t - s) mod (2 * s) = t mod (2 * s) - s)%nat) by (apply mod_sub_s; auto).
      rewrite gpass_lo by (rewrite ?E2; lia).
      rewrite E2. replace (t - s + s)%nat with t by lia.
      apply Finv. apply Htw. lia.
  - rewrite !nth_overflow by (rewrite ?gpass_length; lia). exists 0. ring.
Qed.
End Inverse.

Lemma CT_GS_inv u v w w' : cong q (w * w') 1 ->
  cong q (fst (CT (fst (GS u v w)) (snd (GS u v w)) w')) (2 * u) /\
  cong q (snd (CT (fst (GS u v w)) (snd (GS u v w)) w')) (2 * v).
Proof.
  intros H. destruct (GS_cong u v w) as [E1 E2].
  destruct (CT_cong (fst (GS u v w)) (snd (GS u v w)) w') as [-> ->]. rewrite E1, E2.
  replace ((u - v) * w * w') with ((u - v) * (w * w')) by ring. rewrite H.
  split; exists 0; ring.
Qed.
Lemma GS_CT_inv u v w w' : cong q (w * w') 1 ->
  cong q (fst (GS (fst (CT u v w)) (snd (CT u v w)) w')) (2 * u) /\
  cong q (snd (GS (fst (CT u v w)) (snd (CT u v w)) w')) (2 * v).
Proof.
  intros H. destruct (CT_cong u v w) as [E1 E2].
  destruct (GS_cong (fst (CT u v w)) (snd (CT u v w)) w') as [-> ->]. rewrite E1, E2.
  split; [exists 0; ring|].
  replace ((u + v * w - (u - v * w)) * w') with (2 * v * (w * w')) by ring. rewrite H.
  exists 0; ring.
Qed.

(** transforms of blocks of length 2^k *)
Fixpoint down (F : Z -> Z -> Z -> Z * Z) (T : nat -> nat -> Z) (k : nat) (l : list Z) : list Z :=
  match k with O => l | S k' => down F T k' (gpass F (2 ^ k') (T (2 ^ k')%nat) l) end.
Fixpoint up (F : Z -> Z -> Z -> Z * Z) (T : nat -> nat -> Z) (k : nat) (l : list Z) : list Z :=
  match k with O => l | S k' => gpass F (2 ^ k') (T (2 ^ k')%nat) (up F T k' l) end.

Lemma down_length F T k l : length (down F T k l) = length l.
Proof. revert l; induction k; simpl; intros; auto. rewrite IHk, gpass_length; auto. Qed.
Lemma up_length F T k l : length (up F T k l) = length l.
Proof. revert l; induction k; simpl; intros; auto. rewrite gpass_length; auto. Qed.

Lemma pow2_pos_nat k : (1 <= 2 ^ k)%nat.
Proof. pose proof (Nat.pow_nonzero 2 k). lia. Qed.
Lemma mod_half n k : (n mod 2 ^ S k = 0)%nat -> (n mod 2 ^ k = 0)%nat.
Proof.
  intros H. pose proof (pow2_pos_nat k). pose proof (pow2_pos_nat (S k)).
  apply Nat.mod_divide in H; [|lia]. destruct H as [c ->]. simpl. 
  replace (c * (2 ^ k + (2 ^ k + 0)))%nat with (2 * c * 2 ^ k)%nat by lia. apply Nat.mod_mul. lia.
Qed.

Lemma down_app F T k l1 l2 : (length l1 mod 2 ^ k = 0)%nat -> (length l2 mod 2 ^ k = 0)%nat ->
  down F T k (l1 ++ l2) = down F T k l1 ++ down F T k l2.
Proof.
  revert l1 l2. induction k; intros l1 l2 H1 H2; cbn [down]; auto.
  pose proof (pow2_pos_nat k).
  rewrite gpass_app; [|lia|auto|auto]. apply IHk; rewrite gpass_length; apply mod_half; auto.
Qed.
Lemma up_app F T k l1 l2 : (length l1 mod 2 ^ k = 0)%nat -> (length l2 mod 2 ^ k = 0)%nat ->
  up F T k (l1 ++ l2) = up F T k l1 ++ up F T k l2.
Proof.
  revert l1 l2. induction k; intros l1 l2 H1 H2; cbn [up]; auto.
  pose proof (pow2_pos_nat k).
  rewrite IHk by (apply mod_half; auto). apply gpass_app; rewrite ?up_length; auto.
Qed.

Lemma down_sc F T c k l l' : linear F -> sc c l l' -> sc c (down F T k l) (down F T k l').
Proof. intros HF. revert l l'. induction k; simpl; intros; auto. apply IHk, gpass_sc; auto. Qed.
Lemma sc_trans c d l1 l2 l3 : sc c l1 l2 -> sc d l2 l3 -> sc (c * d) l1 l3.
Proof.
  intros [A1 A2] [B1 B2]. split; [congruence|]. intros i. rewrite A2, B2. exists 0. ring.
Qed.

Lemma up_down_inv T T' k l : (length l mod 2 ^ k = 0)%nat ->
  (forall i j, (i < k)%nat -> (j < 2 ^ i)%nat -> cong q (T (2 ^ i)%nat j * T' (2 ^ i)%nat j) 1) ->
  sc (2 ^^ k) (up CT T' k (down GS T k l)) l.
Proof.
  revert l. induction k; intros l Hn HT; cbn [up down].
  - split; auto. intros i. exists 0. change (2 ^^ 0) with 1. ring.
  - pose proof (pow2_pos_nat k).
    assert (A : sc (2 ^^ k) (up CT T' k (down GS T k (gpass GS (2 ^ k) (T (2 ^ k)%nat) l)))
                  (gpass GS (2 ^ k) (T (2 ^ k)%nat) l)).
    { apply IHk; [rewrite gpass_length; apply mod_half; auto|]. intros; apply HT; auto. }
    rewrite npow_S, Z.mul_comm. eapply sc_trans.
    + apply gpass_sc; [apply CT_linear|exact A].
    + apply gpass_inv; [apply CT_GS_inv|lia|auto|]. intros; apply HT; auto.
Qed.
Lemma down_up_inv T T' k l : (length l mod 2 ^ k = 0)%nat ->
  (forall i j, (i < k)%nat -> (j < 2 ^ i)%nat -> cong q (T (2 ^ i)%nat j * T' (2 ^ i)%nat j) 1) ->
  sc (2 ^^ k) (down GS T' k (up CT T k l)) l.
Proof.
  revert l. induction k; intros l Hn HT; cbn [up down].
  - split; auto. intros i. exists 0. change (2 ^^ 0) with 1. ring.
  - pose proof (pow2_pos_nat k). rewrite npow_S. eapply sc_trans.
    + apply down_sc; [apply GS_linear|].
      apply gpass_inv; [apply GS_CT_inv|lia|rewrite up_length; auto|]. intros; apply HT; auto.
    + apply IHk; [apply mod_half; auto|]. intros; apply HT; auto.
Qed.
End Transforms.

(** ** what the transforms compute *)
Lemma bitrev_lt k i : (bitrev k i < 2 ^ k)%nat.
Proof.
  revert i. induction k; intros i; [simpl; lia|]. cbn [bitrev]. rewrite Nat.pow_succ_r'.
  specialize (IHk (i / 2)%nat).
  assert (i mod 2 <= 1)%nat by (pose proof (Nat.mod_upper_bound i 2); lia). nia.
Qed.
Lemma bitrev_even k i : bitrev (S k) (2 * i) = bitrev k i.
Proof.
  cbn [bitrev]. rewrite (Nat.mul_comm 2 i), Nat.mod_mul, Nat.div_mul by lia. lia.
Qed.
Lemma bitrev_odd k i : bitrev (S k) (2 * i + 1) = (2 ^ k + bitrev k i)%nat.
Proof.
  cbn [bitrev]. rewrite (Nat.mul_comm 2 i).
  rewrite (proj1 (dm i 1 2 ltac:(lia))), (proj2 (dm i 1 2 ltac:(lia))). lia.
Qed.
(** the same recursion from the top bit *)
Lemma bitrev_low k i : (i < 2 ^ k)%nat -> bitrev (S k) i = (2 * bitrev k i)%nat.
Proof.
  revert i. induction k; intros i Hi.
  - simpl in Hi. replace i with 0%nat by lia. reflexivity.
  - cbn [bitrev]. cbn [bitrev] in IHk.
    assert (i / 2 < 2 ^ k)%nat by (apply Nat.div_lt_upper_bound; rewrite ?Nat.pow_succ_r' in Hi; lia).
    rewrite IHk by auto. rewrite Nat.pow_succ_r'. lia.
Qed.
Lemma bitrev_high k i : (i < 2 ^ k)%nat -> bitrev (S k) (2 ^ k + i) = (2 * bitrev k i + 1)%nat.
Proof.
  revert i. induction k; intros i Hi.
  - simpl in Hi. replace i with 0%nat by lia. reflexivity.
  - assert (i / 2 < 2 ^ k)%nat by (apply Nat.div_lt_upper_bound; rewrite ?Nat.pow_succ_r' in Hi; lia).
    assert (E : (2 ^ S k + i = i + 2 ^ k * 2)%nat) by (simpl; lia).
    change (bitrev (S (S k)) (2 ^ S k + i))
      with (((2 ^ S k + i) mod 2 * 2 ^ S k + bitrev (S k) ((2 ^ S k + i) / 2))%nat).
    rewrite E, Nat.mod_add, Nat.div_add by lia. rewrite (Nat.add_comm (i / 2)).
    rewrite IHk by auto. cbn [bitrev]. rewrite Nat.pow_succ_r'. lia.
Qed.
Lemma bitrev_invol k i : (i < 2 ^ k)%nat -> bitrev k (bitrev k i) = i.
Proof.
  revert i. induction k; intros i Hi; [simpl in *; lia|].
  pose proof (Nat.div_mod i 2 ltac:(lia)) as E. pose proof (Nat.mod_upper_bound i 2 ltac:(lia)).
  assert (Hh : (i / 2 < 2 ^ k)%nat) by (apply Nat.div_lt_upper_bound; rewrite ?Nat.pow_succ_r' in Hi; lia).
  pose proof (bitrev_lt k (i / 2)).
  destruct (Nat.eq_dec (i mod 2) 0) as [E0|E0].
  - rewrite E, E0, Nat.add_0_r, bitrev_even, bitrev_low, IHk by auto. lia.
  - replace i with (2 * (i / 2) + 1)%nat at 1 by lia. rewrite bitrev_odd, bitrev_high, IHk by auto. lia.
Qed.

Section Eval.
Variable q : Z.
Hypothesis Hq : 1 < q.

Definition lo_half (F : Z -> Z -> Z -> Z * Z) m tw (l : list Z) :=
  map (fun j => fst (F (nth j l 0) (nth (m + j) l 0) (tw j))) (seq 0 m).
Definition hi_half (F : Z -> Z -> Z -> Z * Z) m tw (l : list Z) :=
  map (fun j => snd (F (nth j l 0) (nth (m + j) l 0) (tw j))) (seq 0 m).
Lemma gpass_halves F m tw l : (1 <= m)%nat -> length l = (2 * m)%nat ->
  gpass F m tw l = lo_half F m tw l ++ hi_half F m tw l.
Proof.
  intros Hm Hl. apply (list_eq_nth 0).
  - rewrite gpass_length, app_length. unfold lo_half, hi_half. rewrite !map_length, !seq_length. lia.
  - rewrite gpass_length. intros t Ht. destruct (Nat.lt_ge_cases t m).
    + assert (E : (t mod (2 * m) = t)%nat) by (apply Nat.mod_small; lia).
      rewrite gpass_lo by (rewrite ?E; auto). rewrite E.
      rewrite app_nth1 by (unfold lo_half; rewrite map_length, seq_length; auto).
      unfold lo_half. rewrite nth_map_seq by auto. rewrite (Nat.add_comm t). auto.
    + assert (E : (t mod (2 * m) = t)%nat) by (apply Nat.mod_small; lia).
      rewrite gpass_hi by (rewrite ?E; auto). rewrite E.
      rewrite app_nth2 by (unfold lo_half; rewrite map_length, seq_length; auto).
      unfold lo_half at 1. rewrite map_length, seq_length.
      unfold hi_half. rewrite nth_map_seq by lia. replace (m + (t - m))%nat with t by lia. auto.
Qed.
Lemma lo_half_length F m tw l : length (lo_half F m tw l) = m.
Proof. unfold lo_half. rewrite map_length, seq_length. auto. Qed.
Lemma hi_half_length F m tw l : length (hi_half F m tw l) = m.
Proof. unfold hi_half. rewrite map_length, seq_length. auto. Qed.
Lemma lo_half_nth F m tw l j : (j < m)%nat ->
  nth j (lo_half F m tw l) 0 = fst (F (nth j l 0) (nth (m + j) l 0) (tw j)).
Proof. intros. unfold lo_half. rewrite nth_map_seq; auto. Qed.
Lemma hi_half_nth F m tw l j : (j < m)%nat ->
  nth j (hi_half F m tw l) 0 = snd (F (nth j l 0) (nth (m + j) l 0) (tw j)).
Proof. intros. unfold hi_half. rewrite nth_map_seq; auto. Qed.

Variable K : nat.

Section Down.
Variables (T : nat -> nat -> Z) (R : nat -> Z).
Hypothesis R1 : (1 <= K)%nat -> cong q (R 1%nat) (-1).
Hypothesis RS : forall k, (k < K)%nat -> cong q (R (S k) * R (S k)) (R k).
Hypothesis HT : forall k j, (k < K)%nat -> (j < 2 ^ k)%nat -> cong q (T (2 ^ k)%nat j) (R (S k) ^^ j).

Lemma R_half k : (k < K)%nat -> cong q (R (S k) ^^ (2 ^ k)) (-1).
Proof.
  induction k; intros Hk.
  - change (2 ^ 0)%nat with 1%nat. rewrite npow_1. apply R1. lia.
  - replace (2 ^ S k)%nat with (2 * 2 ^ k)%nat by (simpl; lia).
    rewrite npow_mul, npow_2. rewrite RS by auto. apply IHk. lia.
Qed.

Lemma down_eval k l i : (k <= K)%nat -> length l = (2 ^ k)%nat -> (i < 2 ^ k)%nat ->
  cong q (nth (bitrev k i) (down (GS q) T k l) 0)
         (sumn (2 ^ k) (fun j => nth j l 0 * R k ^^ (i * j))).
Proof.
  revert l i. induction k; intros l i Hk Hl Hi.
  - simpl in Hi. replace i with 0%nat by lia. simpl. exists 0. ring.
  - cbn [down]. pose proof (pow2_pos_nat k). set (m := (2 ^ k)%nat) in *.
    assert (E2 : (2 ^ S k = 2 * m)%nat) by reflexivity. rewrite E2 in *.
    rewrite gpass_halves by auto.
    rewrite down_app by (rewrite ?lo_half_length, ?hi_half_length; apply Nat.mod_same; lia).
    pose proof (Nat.div_mod i 2 ltac:(lia)) as E. pose proof (Nat.mod_upper_bound i 2 ltac:(lia)).
    set (i' := (i / 2)%nat) in *. assert (Hi' : (i' < m)%nat) by lia.
    pose proof (bitrev_lt k i'). fold m in H1.
    assert (Hfull : cong q ((R (S k) * R (S k)) ^^ m) 1).
    { replace ((R (S k) * R (S k)) ^^ m) with (R (S k) ^^ m * R (S k) ^^ m)
        by (symmetry; apply Z.pow_mul_l). unfold m. rewrite R_half by lia. reflexivity. }
    replace (2 * m)%nat with (m + m)%nat by lia. rewrite sumn_split.
    destruct (Nat.eq_dec (i mod 2) 0) as [E0|E0].
    + rewrite E, E0, Nat.add_0_r, bitrev_even.
      rewrite app_nth1 by (rewrite down_length, lo_half_length; auto).
      rewrite (IHk _ i') by (auto; try lia; apply lo_half_length).
      rewrite <- sumn_add. apply sumn_cong. intros j Hj.
      rewrite lo_half_nth by auto. rewrite (proj1 (GS_cong q _ _ _)).
      rewrite <- (RS k) by lia.
      assert (A : (R (S k) * R (S k)) ^^ (i' * j) = R (S k) ^^ (2 * i' * j)).
      { replace (2 * i' * j)%nat with (2 * (i' * j))%nat by lia.
        rewrite (npow_mul (R (S k)) 2), npow_2. auto. }
      assert (B : cong q (R (S k) ^^ (2 * i' * (m + j))) (R (S k) ^^ (2 * i' * j))).
      { replace (2 * i' * (m + j))%nat with (2 * m * i' + 2 * i' * j)%nat by lia.
        rewrite npow_add. replace (2 * m * i')%nat with (2 * (m * i'))%nat by lia.
        rewrite (npow_mul (R (S k)) 2), npow_2, (npow_mul _ m), Hfull.
        rewrite Z.pow_1_l by lia. exists 0. ring. }
      rewrite A, B. exists 0. ring.
    + replace i with (2 * i' + 1)%nat by lia. rewrite bitrev_odd. fold m.
      rewrite app_nth2 by (rewrite down_length, lo_half_length; lia).
      rewrite down_length, lo_half_length. replace (m + bitrev k i' - m)%nat with (bitrev k i') by lia.
      rewrite (IHk _ i') by (auto; try lia; apply hi_half_length).
      rewrite <- sumn_add. apply sumn_cong. intros j Hj.
      rewrite hi_half_nth by auto. rewrite (proj2 (GS_cong q _ _ _)).
      pose proof (HT k j ltac:(lia) ltac:(fold m; auto)) as HTj. fold m in HTj. rewrite HTj. rewrite <- (RS k) by lia.
      assert (A : R (S k) ^^ j * (R (S k) * R (S k)) ^^ (i' * j) = R (S k) ^^ ((2 * i' + 1) * j)).
      { replace ((2 * i' + 1) * j)%nat with (j + 2 * (i' * j))%nat by lia.
        rewrite npow_add, (npow_mul (R (S k)) 2), npow_2. auto. }
      assert (B : cong q (R (S k) ^^ ((2 * i' + 1) * (m + j))) (- R (S k) ^^ ((2 * i' + 1) * j))).
      { replace ((2 * i' + 1) * (m + j))%nat with (2 * (m * i') + (m + (2 * i' + 1) * j))%nat by lia.
        rewrite npow_add, npow_add. rewrite (npow_mul (R (S k)) 2), npow_2, (npow_mul _ m), Hfull.
        rewrite Z.pow_1_l by lia. unfold m at 1. rewrite R_half by lia. exists 0. ring. }
      rewrite <- Z.mul_assoc, A, B. exists 0. ring.
Qed.
End Down.

Section Up.
Variables (T : nat -> nat -> Z) (V : nat -> Z).
Hypothesis V0 : cong q (V 0%nat) (-1).
Hypothesis VS : forall k, (k < K)%nat -> cong q (V (S k) * V (S k)) (V k).
Hypothesis HT : forall k j, (k < K)%nat -> (j < 2 ^ k)%nat ->
  cong q (T (2 ^ k)%nat j) (V (S k) ^^ (2 * j + 1)).

Lemma V_full k : (k <= K)%nat -> cong q (V k ^^ (2 ^ k)) (-1).
Proof.
  induction k; intros Hk.
  - change (2 ^ 0)%nat with 1%nat. rewrite npow_1. auto.
  - replace (2 ^ S k)%nat with (2 * 2 ^ k)%nat by (simpl; lia).
    rewrite npow_mul, npow_2. rewrite VS by auto. apply IHk. lia.
Qed.

Definition brl (k : nat) (p : nat -> Z) : list Z := map (fun t => p (bitrev k t)) (seq 0 (2 ^ k)).
Lemma brl_length k p : length (brl k p) = (2 ^ k)%nat.
Proof. unfold brl. rewrite map_length, seq_length. auto. Qed.
Lemma brl_S k p : brl (S k) p = brl k (fun j => p (2 * j)%nat) ++ brl k (fun j => p (2 * j + 1)%nat).
Proof.
  unfold brl. replace (2 ^ S k)%nat with (2 ^ k + 2 ^ k)%nat by (simpl; lia).
  rewrite seq_app, map_app. f_equal.
  - apply map_ext_in. intros t Ht. apply in_seq in Ht. rewrite bitrev_low by lia. auto.
  - rewrite Nat.add_0_l. rewrite <- (Nat.add_0_r (2 ^ k)) at 1.
    rewrite <- (map_map (fun t => (2 ^ k + t)%nat) (fun t => p (bitrev (S k) t)) (seq 0 (2 ^ k))) at 1 || idtac.
    apply (list_eq_nth 0); [rewrite !map_length, !seq_length; auto|].
    rewrite map_length, seq_length. intros t Ht.
    rewrite nth_map_seq by auto.
    rewrite nth_indep with (d' := p (bitrev (S k) 0)) by (rewrite map_length, seq_length; auto).
    rewrite (map_nth (fun t => p (bitrev (S k) t))). rewrite seq_nth by auto.
    rewrite Nat.add_0_r. rewrite bitrev_high by auto. auto.
Qed.

Lemma up_eval k p i : (k <= K)%nat -> (i < 2 ^ k)%nat ->
  cong q (nth i (up (CT q) T k (brl k p)) 0) (sumn (2 ^ k) (fun j => p j * V k ^^ ((2 * i + 1) * j))).
Proof.
  revert p i. induction k; intros p i Hk Hi.
  - simpl in Hi. replace i with 0%nat by lia. simpl. exists 0. ring.
  - cbn [up]. pose proof (pow2_pos_nat k). 
    rewrite brl_S, up_app by (rewrite brl_length; apply Nat.mod_same; lia).
    set (A := up (CT q) T k (brl k (fun j => p (2 * j)%nat))).
    set (B := up (CT q) T k (brl k (fun j => p (2 * j + 1)%nat))).
    assert (LA : length A = (2 ^ k)%nat) by (unfold A; rewrite up_length, brl_length; auto).
    assert (LB : length B = (2 ^ k)%nat) by (unfold B; rewrite up_length, brl_length; auto).
    set (m := (2 ^ k)%nat) in *.
    assert (E2 : (2 ^ S k = 2 * m)%nat) by reflexivity. rewrite E2 in *.
    rewrite gpass_halves by (rewrite ?app_length; lia).
    assert (Hp : forall i', (i' < m)%nat ->
      cong q (nth i' (A ++ B) 0) (sumn m (fun j => p (2 * j)%nat * V (S k) ^^ ((2 * i' + 1) * (2 * j)))) /\
      cong q (nth (m + i') (A ++ B) 0 * V (S k) ^^ (2 * i' + 1))
             (sumn m (fun j => p (2 * j + 1)%nat * V (S k) ^^ ((2 * i' + 1) * (2 * j + 1))))).
    { intros i' Hi'. split.
      - rewrite app_nth1 by lia. unfold A. rewrite IHk by (auto; lia). fold m. apply sumn_cong.
        intros j Hj. rewrite <- (VS k) by lia.
        replace ((2 * i' + 1) * (2 * j))%nat with (2 * ((2 * i' + 1) * j))%nat by lia.
        rewrite (npow_mul (V (S k)) 2 ((2 * i' + 1) * j)), npow_2. reflexivity.
      - rewrite app_nth2 by lia. rewrite LA. replace (m + i' - m)%nat with i' by lia.
        unfold B. rewrite IHk by (auto; lia). fold m. rewrite <- sumn_scal_r. apply sumn_cong.
        intros j Hj. rewrite <- (VS k) by lia.
        replace ((2 * i' + 1) * (2 * j + 1))%nat with (2 * ((2 * i' + 1) * j) + (2 * i' + 1))%nat by lia.
        rewrite (npow_add _ (2 * ((2 * i' + 1) * j))), (npow_mul (V (S k)) 2 ((2 * i' + 1) * j)), npow_2. exists 0. ring. }
    rewrite sumn_even_odd. 
    destruct (Nat.lt_ge_cases i m) as [Hlo|Hhi].
    + rewrite app_nth1 by (rewrite lo_half_length; auto). rewrite lo_half_nth by auto.
      rewrite (proj1 (CT_cong q _ _ _)). pose proof (HT k i ltac:(lia) ltac:(fold m; auto)) as HTj. fold m in HTj. rewrite HTj.
      destruct (Hp i Hlo) as [-> ->]. reflexivity.
    + rewrite app_nth2 by (rewrite lo_half_length; auto). rewrite lo_half_length.
      set (i' := (i - m)%nat). assert (Hi' : (i' < m)%nat) by (unfold i'; lia).
      rewrite hi_half_nth by auto.
      rewrite (proj2 (CT_cong q _ _ _)). pose proof (HT k i' ltac:(lia) ltac:(fold m; auto)) as HTj. fold m in HTj. rewrite HTj.
      destruct (Hp i' Hi') as [-> ->].
      assert (HV : cong q (V (S k) ^^ (2 * m)) (-1)).
      { rewrite <- E2. apply V_full. auto. }
      unfold Z.sub. rewrite <- sumn_opp.
      apply cong_add; apply sumn_cong; intros j Hj.
      * replace ((2 * i + 1) * (2 * j))%nat with (2 * m * (2 * j) + (2 * i' + 1) * (2 * j))%nat
          by (unfold i'; nia).
        rewrite npow_add, npow_mul with (a := (2 * m)%nat), HV.
        replace ((-1) ^^ (2 * j)) with 1; [exists 0; ring|].
        rewrite npow_mul, npow_2. symmetry. apply Z.pow_1_l. lia.
      * replace ((2 * i + 1) * (2 * j + 1))%nat with (2 * m * (2 * j + 1) + (2 * i' + 1) * (2 * j + 1))%nat
          by (unfold i'; nia).
        rewrite npow_add, npow_mul with (a := (2 * m)%nat), HV.
        replace ((-1) ^^ (2 * j + 1)) with (-1); [exists 0; ring|].
        rewrite npow_add, npow_mul, npow_2, npow_1. rewrite Z.pow_1_l by lia. ring.
Qed.
End Up.
End Eval.

(** ** connection with the model *)
Lemma omap_spec {A B} (f : A -> option B) (g : A -> B) l :
  (forall x, In x l -> f x = Some (g x)) -> omap f l = Some (map g l).
Proof.
  induction l; simpl; intros H; auto. rewrite H by auto. cbn [bind]. rewrite IHl by auto. auto.
Qed.
Lemma pow2b_pow k : pow2b (2 ^ k) = true.
Proof.
  unfold pow2b. replace (2 ^ k - 1)%nat with (Nat.ones k).
  - rewrite Nat.land_ones, Nat.mod_same by (apply Nat.pow_nonzero; lia). auto.
  - rewrite Nat.ones_equiv. lia.
Qed.

Lemma mulmod64_ok q a b : 0 < q < 2 ^ 64 -> 0 <= a < 2 ^ 64 -> 0 <= b < 2 ^ 64 ->
  mulmod64 a b q = Some ((a * b) mod q).
Proof.
  intros Hq Ha Hb. unfold mulmod64, muli. rewrite wrap_small.
  - rewrite remui_pos by lia. cbn [bind]. rewrite wrap_small; auto.
    pose proof (Z.mod_pos_bound (a * b) q). lia.
  - change (2 ^ 128) with (2 ^ 64 * 2 ^ 64). nia.
Qed.
Lemma addmod64_ok q u v : 0 < q < 2 ^ 64 -> 0 <= u < q -> 0 <= v < q ->
  addmod64 u v q = Some ((u + v) mod q).
Proof.
  intros Hq Hu Hv. unfold addmod64. replace (u <? q) with true by lia. replace (v <? q) with true by lia.
  cbn [andb negb]. unfold subi, addi. f_equal. rewrite (wrap_small 64 (q - v)) by lia.
  destruct (Z.leb_spec (q - v) u).
  - rewrite wrap_small by lia. apply Z.mod_unique with 1; lia.
  - rewrite wrap_small by lia. symmetry. apply Z.mod_small. lia.
Qed.
Lemma submod64_ok q u v : 0 < q < 2 ^ 64 -> 0 <= u < q -> 0 <= v < q ->
  submod64 u v q = Some ((u - v) mod q).
Proof.
  intros Hq Hu Hv. unfold submod64. replace (u <? q) with true by lia. replace (v <? q) with true by lia.
  cbn [andb negb]. unfold subi. f_equal. destruct (Z.ltb_spec u v).
  - rewrite (wrap_small 64 (v - u)) by lia. rewrite wrap_small by lia.
    apply Z.mod_unique with (-1); lia.
  - rewrite wrap_small by lia. symmetry. apply Z.mod_small. lia.
Qed.

Lemma bfly_ntt_ok q u v w : 0 < q < 2 ^ 64 -> can q u -> can q v -> can q w ->
  bfly_ntt q u v w = Some (GS q u v w).
Proof.
  unfold can. intros Hq Hu Hv Hw. unfold bfly_ntt, GS. rewrite addmod64_ok, submod64_ok by lia. cbn [bind].
  pose proof (Z.mod_pos_bound (u - v) q ltac:(lia)). rewrite mulmod64_ok by lia. auto.
Qed.
Lemma bfly_intt_ok q u v w : 0 < q < 2 ^ 64 -> can q u -> can q v -> can q w ->
  bfly_intt q u v w = Some (CT q u v w).
Proof.
  unfold can. intros Hq Hu Hv Hw. unfold bfly_intt, CT. rewrite mulmod64_ok by lia. cbn [bind].
  pose proof (Z.mod_pos_bound (v * w) q ltac:(lia)). rewrite addmod64_ok, submod64_ok by lia. auto.
Qed.
Lemma bfly_ct_ok w q u v r : 1 <= w -> 0 < q < 2 ^ (w - 1) -> can q u -> can q v -> can q r ->
  bfly_ct w q u v r = Some (CT q u v r).
Proof.
  unfold can. intros Hw Hq Hu Hv Hr. unfold bfly_ct, CT. rewrite lower_mul_ok by lia. cbn [bind].
  pose proof (Z.mod_pos_bound (v * r) q ltac:(lia)). rewrite lower_add_ok, lower_sub_ok by lia. auto.
Qed.
Lemma bfly_gs_ok w q u v r : 1 <= w -> 0 < q < 2 ^ (w - 1) -> can q u -> can q v -> can q r ->
  bfly_gs w q u v r = Some (GS q u v r).
Proof.
  unfold can. intros Hw Hq Hu Hv Hr. unfold bfly_gs, GS. rewrite lower_add_ok, lower_sub_ok by lia.
  cbn [bind]. pose proof (Z.mod_pos_bound (u - v) q ltac:(lia)). rewrite lower_mul_ok by lia. auto.
Qed.

Lemma root_table_ok q mm n x root : 1 < q ->
  (forall a b, can q a -> can q b -> mm a b = Some ((a * b) mod q)) ->
  can q x -> can q root ->
  root_table mm n x root = Some (map (fun i => (x * root ^^ i) mod q) (seq 0 n)).
Proof.
  intros Hq Hmm. revert x. induction n; intros x Hx Hr; cbn [root_table]; auto.
  rewrite Hmm by auto. cbn [bind]. rewrite IHn; auto; [|apply Z.mod_pos_bound; lia]. cbn [bind].
  cbn [seq map]. f_equal. f_equal.
  - change (root ^^ 0) with 1. rewrite Z.mul_1_r. symmetry. apply Z.mod_small; auto.
  - rewrite <- seq_shift, map_map. apply map_ext. intros i. apply cong_eq. rewrite cong_mod, npow_S.
    exists 0. ring.
Qed.

Definition ptab (q root : Z) (n : nat) : list Z := map (fun i => (root ^^ i) mod q) (seq 0 n).
Lemma ptab_length q root n : length (ptab q root n) = n.
Proof. unfold ptab. rewrite map_length, seq_length; auto. Qed.
Lemma ptab_nth q root n i : (i < n)%nat -> nth i (ptab q root n) 0 = (root ^^ i) mod q.
Proof. intros. unfold ptab. rewrite nth_map_seq; auto. Qed.
Lemma ptab_can q root n : 1 < q -> Forall (can q) (ptab q root n).
Proof.
  intros. apply Forall_forall. intros x Hx. apply in_map_iff in Hx as (i & <- & _).
  apply Z.mod_pos_bound. lia.
Qed.
Lemma root_table_ptab q mm n root : 1 < q ->
  (forall a b, can q a -> can q b -> mm a b = Some ((a * b) mod q)) -> can q root ->
  root_table mm n 1 root = Some (ptab q root n).
Proof.
  intros. rewrite (root_table_ok q) by (auto; unfold can; lia). unfold ptab. f_equal.
  apply map_ext. intros. f_equal. ring.
Qed.

Lemma down_can q F T k l : (forall u v w, can q (fst (F u v w)) /\ can q (snd (F u v w))) ->
  Forall (can q) l -> Forall (can q) (down F T k l).
Proof.
  intros HF. revert l. induction k; simpl; intros l Hl; auto. apply IHk, gpass_can; auto.
Qed.
Lemma up_can q F T k l : (forall u v w, can q (fst (F u v w)) /\ can q (snd (F u v w))) ->
  Forall (can q) l -> Forall (can q) (up F T k l).
Proof. intros HF Hl. destruct k; simpl; auto. apply gpass_can; auto. Qed.

Section Passes.
Variable q : Z.
Hypothesis Hq : 0 < q.
Variable bf : Z -> Z -> Z -> option (Z * Z).
Variable F : Z -> Z -> Z -> Z * Z.
Hypothesis Hbf : forall u v w, can q u -> can q v -> can q w -> bf u v w = Some (F u v w).
Hypothesis HF : forall u v w, can q (fst (F u v w)) /\ can q (snd (F u v w)).
Variable table : list Z.
Hypothesis Htab : Forall (can q) table.
Let n := length table.

Definition Tdif (s j : nat) : Z := nth (2 * j * (n / (2 * s)))%nat table 0.
Definition Tstage (s j : nat) : Z := nth ((2 * j + 1) * (n / (2 * s)))%nat table 0.

Lemma ofold_down k fuel a : (k < fuel)%nat -> Forall (can q) a -> length a = n ->
  (n mod 2 ^ S k = 0)%nat ->
  ofold (fun a s => ofold (butterfly bf table) (dif_pairs n s) a) (spans_down fuel (2 ^ k)) a
  = Some (down F Tdif (S k) a).
Proof.
  revert fuel a. induction k; intros [|fuel] a Hf Ha Hl Hn; try lia;
    cbn [spans_down].
  - cbn [Nat.pow Nat.leb]. destruct fuel; cbn [spans_down].
    + cbn [ofold]. rewrite <- Hl. rewrite (dif_pass q bf F Hbf HF table Htab 1) by (auto; rewrite Hl; auto).
      rewrite Hl. reflexivity.
    + cbn [Nat.div Nat.divmod fst Nat.leb ofold].
      rewrite <- Hl. rewrite (dif_pass q bf F Hbf HF table Htab 1) by (auto; rewrite Hl; auto).
      rewrite Hl. reflexivity.
  - pose proof (pow2_pos_nat (S k)). destruct (Nat.leb_spec 1 (2 ^ S k)); [|lia].
    cbn [ofold]. rewrite <- Hl at 1.
    rewrite (dif_pass q bf F Hbf HF table Htab (2 ^ S k)) by (auto; rewrite Hl; auto).
    cbn [bind]. rewrite Hl. fold (Tdif (2 ^ S k)).
    replace (2 ^ S k / 2)%nat with (2 ^ k)%nat
      by (rewrite Nat.pow_succ_r', Nat.mul_comm, Nat.div_mul by lia; auto).
    rewrite IHk; [reflexivity|lia|apply gpass_can; auto|rewrite gpass_length; auto|].
    apply mod_half; auto.
Qed.

Lemma ofold_up d i fuel l : (d < fuel)%nat -> Forall (can q) l -> length l = n ->
  n = (2 ^ (i + d))%nat ->
  ofold (fun a s => ofold (butterfly bf table) (dif_pairs n s) a) (spans_up fuel (2 ^ i) n)
    (up F Tdif i l) = Some (up F Tdif (i + d) l).
Proof.
  revert i fuel. induction d; intros i [|fuel] Hf Ha Hl Hn; try lia; cbn [spans_up].
  - rewrite Hn, Nat.add_0_r, Nat.ltb_irrefl. reflexivity.
  - pose proof (pow2_pos_nat i). pose proof (pow2_pos_nat d).
    assert (E : (n = 2 ^ d * (2 * 2 ^ i))%nat).
    { rewrite Hn, Nat.pow_add_r, Nat.pow_succ_r'. lia. }
    assert (Hlt : (2 ^ i < n)%nat) by nia.
    destruct (Nat.ltb_spec (2 ^ i) n); [|lia]. cbn [ofold].
    assert (Lu : length (up F Tdif i l) = n) by (rewrite up_length; auto).
    rewrite <- Lu at 1.
    rewrite (dif_pass q bf F Hbf HF table Htab (2 ^ i)); auto.
    + cbn [bind]. rewrite Lu. fold (Tdif (2 ^ i)).
      change (gpass F (2 ^ i) (Tdif (2 ^ i)) (up F Tdif i l)) with (up F Tdif (S i) l).
      change (2 * 2 ^ i)%nat with (2 ^ S i)%nat.
      rewrite IHd; auto; try lia; [f_equal; f_equal; lia|rewrite Hn; f_equal; lia].
    + rewrite Lu, E. apply Nat.mod_mul. lia.
    + apply up_can; auto.
Qed.

Lemma stage_gpass s a : (1 <= s)%nat -> (length a mod (2 * s) = 0)%nat -> Forall (can q) a ->
  length a = n ->
  ofold (butterfly bf table) (stage_pairs n (2 * s) (n / (2 * s))) a = Some (gpass F s (Tstage s) a).
Proof.
  intros Hs Hn Ha Hl. rewrite <- Hl at 1.
  rewrite (stage_pass q bf F Hbf HF table Htab s (n / (2 * s))); auto.
  rewrite Hl. rewrite Nat.mul_comm. apply Nat.mul_div_le. lia.
Qed.
End Passes.

Section Stages.
Variables (w q : Z).
Hypothesis Hw : 1 <= w.
Hypothesis Hq : 1 < q < 2 ^ (w - 1).
Variable table : list Z.
Hypothesis Htab : Forall (can q) table.
Let n := length table.

Lemma stages_up d i a k : (i + d = k)%nat -> n = (2 ^ k)%nat -> Forall (can q) a -> length a = n ->
  stages false w q table n d (2 ^ S i) (n / 2 ^ S i) (up (CT q) (Tstage table) i a)
  = Some (up (CT q) (Tstage table) k a).
Proof.
  revert i. induction d; intros i Hi Hn Ha Hl; cbn [stages].
  - replace k with i by lia. auto.
  - pose proof (pow2_pos_nat i). pose proof (pow2_pos_nat d).
    assert (E : (n = 2 ^ d * (2 * 2 ^ i))%nat).
    { rewrite Hn, <- Hi, Nat.pow_add_r, Nat.pow_succ_r'. lia. }
    rewrite Nat.pow_succ_r'.
    rewrite (stage_gpass q (bfly_ct w q) (CT q)); auto.
    + cbn [bind]. change (gpass (CT q) (2 ^ i) (Tstage table (2 ^ i)) (up (CT q) (Tstage table) i a))
        with (up (CT q) (Tstage table) (S i) a).
      replace (2 * 2 ^ i * 2)%nat with (2 ^ S (S i))%nat by (rewrite !Nat.pow_succ_r'; lia).
      replace (n / (2 * 2 ^ i) / 2)%nat with (n / 2 ^ S (S i))%nat.
      * apply IHd; auto. lia.
      * rewrite Nat.div_div by lia. f_equal. rewrite !Nat.pow_succ_r'. lia.
    + intros. apply bfly_ct_ok; auto; lia.
    + apply CT_can; lia.
    + rewrite up_length, Hl, E. apply Nat.mod_mul. lia.
    + apply up_can; auto. apply CT_can; lia.
    + rewrite up_length; auto.
Qed.

Lemma stages_down i a k : (i <= k)%nat -> n = (2 ^ k)%nat -> Forall (can q) a -> length a = n ->
  stages true w q table n i (2 ^ i) (n / 2 ^ i) a = Some (down (GS q) (Tstage table) i a).
Proof.
  revert a. induction i; intros a Hi Hn Ha Hl; cbn [stages down]; auto.
  pose proof (pow2_pos_nat i).
  assert (E : (n = 2 ^ (k - S i) * (2 * 2 ^ i))%nat).
  { rewrite Hn. rewrite <- Nat.pow_succ_r', <- Nat.pow_add_r. f_equal. lia. }
  rewrite Nat.pow_succ_r'.
  rewrite (stage_gpass q (bfly_gs w q) (GS q)); auto.
  - cbn [bind]. replace (2 * 2 ^ i / 2)%nat with (2 ^ i)%nat
      by (rewrite Nat.mul_comm, Nat.div_mul by lia; auto).
    replace (n / (2 * 2 ^ i) * 2)%nat with (n / 2 ^ i)%nat.
    + apply IHi; auto; try lia.
      * apply gpass_can. apply GS_can; lia.
      * rewrite gpass_length; auto.
    + rewrite E. rewrite Nat.div_mul by lia.
      replace (2 ^ (k - S i) * (2 * 2 ^ i))%nat with (2 ^ (k - S i) * 2 * 2 ^ i)%nat by lia.
      rewrite Nat.div_mul by lia. auto.
  - intros. apply bfly_gs_ok; auto; lia.
  - apply GS_can; lia.
  - rewrite Hl, E. apply Nat.mod_mul. lia.
Qed.
End Stages.

(** ** nttInPlace / inttInPlace *)
Lemma nth_combine_map {A B C} (f : A * B -> C) l l' i a b d : length l = length l' ->
  (i < length l)%nat -> nth i (map f (combine l l')) d = f (nth i l a, nth i l' b).
Proof.
  intros H Hi. rewrite nth_indep with (d' := f (a, b))
    by (rewrite map_length, combine_length, <- H, Nat.min_id; auto).
  rewrite map_nth, combine_nth; auto.
Qed.
Lemma div_pow k i : (i <= k)%nat -> (2 ^ k / 2 ^ i = 2 ^ (k - i))%nat.
Proof.
  intros H. pose proof (pow2_pos_nat i).
  replace (2 ^ k)%nat with (2 ^ (k - i) * 2 ^ i)%nat by (rewrite <- Nat.pow_add_r; f_equal; lia).
  apply Nat.div_mul. lia.
Qed.

Section InPlace.
Variable q : Z.
Hypothesis Hq : 1 < q < 2 ^ 64.
Variable k : nat.
Let n := (2 ^ k)%nat.

Definition premult (root : Z) (a : list Z) : list Z :=
  map (fun cw => (fst cw * snd cw) mod q) (combine a (ptab q root n)).

Lemma ntt_model root a : (1 <= k)%nat -> length a = n -> Forall (can q) a -> can q root ->
  ntt_in_place q root a = Some (down (GS q) (Tdif (ptab q root n)) k (premult root a)).
Proof.
  intros Hk Hl Ha Hr. unfold ntt_in_place. rewrite Hl.
  assert (1 < n)%nat.
  { unfold n. replace k with (S (k - 1)) by lia. rewrite Nat.pow_succ_r'.
    pose proof (pow2_pos_nat (k - 1)). lia. }
  destruct (Nat.leb_spec n 1); [lia|]. unfold n. rewrite pow2b_pow. cbn [negb]. fold n.
  assert (M : forall x y, can q x -> can q y -> mulmod64 x y q = Some ((x * y) mod q)).
  { unfold can. intros. apply mulmod64_ok; lia. }
  rewrite (root_table_ptab q) by (auto; lia). cbn [bind].
  rewrite (omap_spec _ (fun cw => (fst cw * snd cw) mod q)).
  - cbn [bind]. fold (premult root a).
    assert (Lp : length (premult root a) = n).
    { unfold premult. rewrite map_length, combine_length, ptab_length, Hl, Nat.min_id. auto. }
    pose (k' := (k - 1)%nat). assert (Ek : k = S k') by (unfold k'; lia).
    assert (En : n = (2 * 2 ^ k')%nat) by (unfold n; rewrite Ek, Nat.pow_succ_r'; auto).
    replace (n / 2)%nat with (2 ^ k')%nat by (rewrite En, Nat.mul_comm, Nat.div_mul by lia; auto).
    pose proof (ofold_down q (bfly_ntt q) (GS q)) as HD.
    specialize HD with (table := ptab q root n) (k := k') (fuel := n) (a := premult root a).
    rewrite ptab_length in HD. rewrite Ek. apply HD; auto.
    + intros. apply bfly_ntt_ok; auto; lia.
    + intros. apply GS_can; lia.
    + apply ptab_can; lia.
    + assert (S k' <= 2 ^ k')%nat by (apply Nat.pow_gt_lin_r; lia). lia.
    + apply Forall_forall. intros x Hx. apply in_map_iff in Hx as (y & <- & _).
      apply Z.mod_pos_bound; lia.
    + unfold n. rewrite Ek. apply Nat.mod_same. apply Nat.pow_nonzero. lia.
  - intros [c w] Hin. apply M.
    + apply in_combine_l in Hin. rewrite Forall_forall in Ha. auto.
    + apply in_combine_r in Hin. pose proof (ptab_can q root n ltac:(lia)) as Hc.
      rewrite Forall_forall in Hc. auto.
Qed.

Lemma intt_model root a : (1 <= k)%nat -> length a = n -> Forall (can q) a -> can q root ->
  Z.gcd root q = 1 -> Z.of_nat n < q ->
  exists rinv ninv, 0 <= rinv < q /\ cong q (root * rinv) 1 /\ 0 <= ninv < q /\
    (Z.odd q = true -> cong q (Z.of_nat n * ninv) 1) /\
    intt_in_place q root a = Some (map (fun cw => (fst cw * ((snd cw * ninv) mod q)) mod q)
      (combine (up (CT q) (Tdif (ptab q rinv n)) k a) (ptab q rinv n))).
Proof.
  intros Hk Hl Ha Hr Hg Hnq. unfold intt_in_place. rewrite Hl.
  assert (1 < n)%nat.
  { unfold n. replace k with (S (k - 1)) by lia. rewrite Nat.pow_succ_r'.
    pose proof (pow2_pos_nat (k - 1)). lia. }
  destruct (Nat.leb_spec n 1); [lia|]. unfold n at 2. rewrite pow2b_pow. cbn [negb].
  assert (M : forall x y, can q x -> can q y -> mulmod64 x y q = Some ((x * y) mod q)).
  { unfold can. intros. apply mulmod64_ok; lia. }
  destruct (multiplicative_inverse_ok 64 q root ltac:(lia) ltac:(lia) Hr) as (rinv & Hri & Hrv & _).
  destruct (Hrv Hg) as [Hrb Hrm]. clear Hrv.
  destruct (multiplicative_inverse_ok 64 q (Z.of_nat n) ltac:(lia) ltac:(lia) ltac:(lia))
    as (ninv & Hni & Hnv & Hn0).
  assert (Hnb : 0 <= ninv < q).
  { destruct (Z.eq_dec (Z.gcd (Z.of_nat n) q) 1) as [E|E]; [destruct (Hnv E); auto|rewrite (Hn0 E); lia]. }
  exists rinv, ninv. split; auto. split; [apply eq_cong; auto|]. split; auto. split.
  { intros Ho. apply eq_cong. apply Hnv. apply Zgcd_1_rel_prime. unfold n.
    rewrite Nat2Z.inj_pow. apply rel_prime_sym, rel_prime_Zpower_r; [lia|].
    apply Zgcd_1_rel_prime. apply Zodd_bool_iff in Ho. destruct (Zodd_ex q Ho) as [m ->].
    rewrite Z.gcd_comm. rewrite <- Z.gcd_mod by lia.
    replace (2 * m + 1) with (1 + m * 2) by lia. rewrite Z_mod_plus_full. reflexivity. }
  rewrite Hri. cbn [bind]. rewrite (root_table_ptab q) by (auto; lia). cbn [bind].
  pose proof (ofold_up q (bfly_intt q) (CT q)) as HU.
  specialize HU with (table := ptab q rinv n) (d := k) (i := 0%nat) (fuel := n) (l := a).
  rewrite ptab_length in HU. cbn [up Nat.pow Nat.add] in HU. rewrite HU; auto.
  - cbn [bind]. rewrite Hni. cbn [bind].
    apply omap_spec. intros [c w] Hin. cbn [fst snd].
    assert (Cw : can q w).
    { apply in_combine_r in Hin. pose proof (ptab_can q rinv n ltac:(lia)) as Hc.
      rewrite Forall_forall in Hc. auto. }
    assert (Cc : can q c).
    { apply in_combine_l in Hin.
      assert (Hc : Forall (can q) (up (CT q) (Tdif (ptab q rinv n)) k a)).
      { apply up_can; auto. intros. apply CT_can; lia. }
      rewrite Forall_forall in Hc. auto. }
    rewrite M by auto. cbn [bind]. apply M; auto. apply Z.mod_pos_bound; lia.
  - intros. apply bfly_intt_ok; auto; lia.
  - intros. apply CT_can; lia.
  - apply ptab_can; lia.
  - unfold n. apply Nat.pow_gt_lin_r. lia.
Qed.

Lemma premult_nth root a i : length a = n -> (i < n)%nat ->
  cong q (nth i (premult root a) 0) (nth i a 0 * root ^^ i).
Proof.
  intros Hl Hi. unfold premult. rewrite (nth_combine_map _ _ _ _ 0 0) by (rewrite ?ptab_length; lia).
  cbn [fst snd]. rewrite ptab_nth by auto. rewrite cong_mod, cong_mod. reflexivity.
Qed.

Lemma Tdif_pow root i j : (i < k)%nat -> (j < 2 ^ i)%nat ->
  Tdif (ptab q root n) (2 ^ i) j = ((root ^^ (2 ^ (k - i))) ^^ j) mod q.
Proof.
  intros Hi Hj. unfold Tdif. rewrite ptab_length. unfold n.
  change (2 * 2 ^ i)%nat with (2 ^ S i)%nat. rewrite div_pow by lia.
  assert (E : (2 * j * 2 ^ (k - S i) = 2 ^ (k - i) * j)%nat).
  { replace (k - i)%nat with (S (k - S i)) by lia. rewrite Nat.pow_succ_r'. lia. }
  rewrite E. rewrite ptab_nth.
  - rewrite npow_mul. auto.
  - replace k with (k - i + i)%nat at 2 by lia. rewrite Nat.pow_add_r.
    pose proof (pow2_pos_nat (k - i)). nia.
Qed.

(** the compile-time transform evaluates at the odd powers, in bit-reversed order *)
Lemma ntt_eval root a : length a = n -> Forall (can q) a -> can q root -> cong q (root ^^ n) (-1) ->
  exists r, ntt_in_place q root a = Some r /\ length r = n /\ Forall (can q) r /\
  forall i, (i < n)%nat ->
    nth (bitrev k i) r 0 = (sumn n (fun j => nth j a 0 * root ^^ ((2 * i + 1) * j))) mod q.
Proof.
  intros Hl Ha Hr Hroot.
  destruct (Nat.eq_dec k 0) as [K0|K0].
  - assert (n = 1)%nat by (unfold n; rewrite K0; auto). exists a. unfold ntt_in_place.
    rewrite Hl, H. split; auto. split; auto. split; auto.
    intros i Hi. replace i with 0%nat by lia. rewrite K0. cbn [bitrev sumn].
    rewrite Nat.mul_0_r. change (root ^^ 0) with 1. rewrite Z.add_0_l, Z.mul_1_r.
    symmetry. apply Z.mod_small. apply Forall_nth'; auto. lia.
  - rewrite ntt_model by (auto; lia). eexists. split; [reflexivity|].
    assert (Lp : length (premult root a) = n).
    { unfold premult. rewrite map_length, combine_length, ptab_length, Hl, Nat.min_id. auto. }
    split; [rewrite down_length; auto|].
    assert (C : Forall (can q) (down (GS q) (Tdif (ptab q root n)) k (premult root a))).
    { apply down_can; [intros; apply GS_can; lia|].
      apply Forall_forall. intros x Hx. apply in_map_iff in Hx as (y & <- & _).
      apply Z.mod_pos_bound; lia. }
    split; auto. intros i Hi.
    pose proof (bitrev_lt k i) as Hb.
    assert (Cn := Forall_nth' (can q) _ (bitrev k i) 0 C ltac:(rewrite down_length, Lp; auto)).
    rewrite <- (Z.mod_small _ q Cn). apply cong_eq.
    rewrite (down_eval q k _ (fun i => root ^^ (2 ^ (S k - i)))); auto.
    + fold n. replace (S k - k)%nat with 1%nat by lia.
      apply sumn_cong. intros j Hj. rewrite premult_nth by auto.
      assert (E : ((2 * i + 1) * j = j + (2 ^ 1 * (i * j)))%nat) by (simpl; lia).
      rewrite E, npow_add, (npow_mul root (2 ^ 1)). exists 0. ring.
    + intros _. replace (S k - 1)%nat with k by lia. auto.
    + intros i' Hi'. replace (S k - S i')%nat with (k - i')%nat by lia.
      replace (S k - i')%nat with (S (k - i')) by lia.
      rewrite Nat.pow_succ_r', Nat.mul_comm, npow_mul, npow_2. reflexivity.
    + intros i' j Hi' Hj. rewrite Tdif_pow by auto. replace (S k - S i')%nat with (k - i')%nat by lia.
      apply cong_mod.
Qed.

(** round trip: the root only has to be invertible *)
Lemma ntt_round_trip root a : length a = n -> Forall (can q) a -> can q root ->
  Z.gcd root q = 1 -> Z.odd q = true -> Z.of_nat n < q ->
  exists r, ntt_in_place q root a = Some r /\ length r = n /\ Forall (can q) r /\
    intt_in_place q root r = Some a.
Proof.
  intros Hl Ha Hr Hg Ho Hnq.
  destruct (Nat.eq_dec k 0) as [K0|K0].
  - assert (n = 1)%nat by (unfold n; rewrite K0; auto). exists a.
    unfold ntt_in_place, intt_in_place. rewrite Hl, H. auto.
  - rewrite ntt_model by (auto; lia). eexists. split; [reflexivity|].
    assert (Lp : length (premult root a) = n).
    { unfold premult. rewrite map_length, combine_length, ptab_length, Hl, Nat.min_id. auto. }
    set (r := down (GS q) (Tdif (ptab q root n)) k (premult root a)).
    assert (Lr : length r = n) by (unfold r; rewrite down_length; auto).
    assert (C : Forall (can q) r).
    { apply down_can; [intros; apply GS_can; lia|].
      apply Forall_forall. intros x Hx. apply in_map_iff in Hx as (y & <- & _).
      apply Z.mod_pos_bound; lia. }
    split; auto. split; auto.
    destruct (intt_model root r ltac:(lia) Lr C Hr Hg Hnq)
      as (rinv & ninv & Hrb & Hri & Hnb & Hni & ->). specialize (Hni Ho).
    assert (Hpow : forall i, cong q (root ^^ i * rinv ^^ i) 1).
    { intros i. rewrite <- Z.pow_mul_l, Hri, Z.pow_1_l by lia. reflexivity. }
    assert (S2 : sc q (2 ^^ k) (up (CT q) (Tdif (ptab q rinv n)) k r) (premult root a)).
    { apply up_down_inv.
      - rewrite Lp. apply Nat.mod_same. apply Nat.pow_nonzero; lia.
      - intros i j Hi Hj. rewrite !Tdif_pow by auto. rewrite cong_mod, (cong_mod q (_ ^ _)).
        rewrite <- !npow_mul. apply Hpow. }
    destruct S2 as [SL SN]. f_equal. apply (list_eq_nth 0).
    { rewrite map_length, combine_length, ptab_length, SL, Lp, Nat.min_id. auto. }
    rewrite map_length, combine_length, ptab_length, SL, Lp, Nat.min_id. intros i Hi.
    rewrite (nth_combine_map _ _ _ _ 0 0) by (rewrite ?ptab_length; lia). cbn [fst snd].
    rewrite ptab_nth by auto.
    apply cong_small; [|apply (Forall_nth' (can q)); auto; lia].
    rewrite cong_mod, cong_mod, SN, premult_nth by auto.
    assert (En : 2 ^^ k = Z.of_nat n) by (unfold n; rewrite Nat2Z.inj_pow; auto). rewrite En.
    replace (Z.of_nat n * (nth i a 0 * root ^^ i) * (rinv ^^ i * ninv))
      with (nth i a 0 * (root ^^ i * rinv ^^ i) * (Z.of_nat n * ninv)) by ring.
    rewrite Hpow, Hni. exists 0. ring.
Qed.
End InPlace.
