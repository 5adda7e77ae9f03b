(** Proofs about the replacement of reduction trees. *)
From Coq Require Import ZArith List Bool Lia Permutation Sorting.Sorted.
From Verif Require Import Rotate_Spec Rotate_Proofs Collapse_Model Collapse_Proofs Reduce_Model.
Import ListNotations.
Open Scope Z_scope.

(** ** Sets *)
Lemma ins_in z y l : In y (ins z l) <-> y = z \/ In y l.
Proof.
  induction l as [|a l IH]; cbn [ins].
  - cbn. intuition.
  - destruct (Z.ltb_spec z a); [cbn; intuition|]. destruct (Z.eqb_spec z a) as [->|]; [cbn; intuition|]. cbn [In]. rewrite IH. intuition.
Qed.
Lemma ins_sorted z l : StronglySorted Z.lt l -> StronglySorted Z.lt (ins z l).
Proof.
  induction l as [|a l IH]; intros H; cbn [ins]; [repeat constructor|]. inversion H as [|? ? Hl Ha]; subst.
  destruct (Z.ltb_spec z a) as [L|L].
  - constructor; auto. constructor; auto. eapply Forall_impl; [|exact Ha]. cbn. lia.
  - destruct (Z.eqb_spec z a) as [->|Hne]; auto. constructor; auto. apply Forall_forall. intros y Hy. apply ins_in in Hy. rewrite Forall_forall in Ha. destruct Hy as [->|Hy]; [lia|auto].
Qed.
Lemma ins_length z l : (length (ins z l) <= S (length l))%nat.
Proof. induction l as [|a l IH]; cbn [ins]; [cbn; lia|]. destruct (z <? a); [cbn; lia|]. destruct (z =? a); cbn; lia. Qed.
Lemma ins_perm z l : length (ins z l) = S (length l) -> Permutation (ins z l) (z :: l).
Proof.
  induction l as [|a l IH]; cbn [ins]; intros H; auto. destruct (z <? a); auto. destruct (z =? a); [cbn in H; lia|].
  rewrite IH by (cbn in H; lia). apply perm_swap.
Qed.
Lemma ins_fresh z l : ~ In z l -> Permutation (ins z l) (z :: l).
Proof.
  induction l as [|a l IH]; cbn [ins]; intros H; auto. destruct (z <? a); auto. destruct (Z.eqb_spec z a) as [->|]; [destruct H; left; auto|].
  rewrite IH by (intros ?; apply H; right; auto). apply perm_swap.
Qed.
Definition add_all (l s : list Z) : list Z := fold_left (fun s z => ins z s) l s.
Lemma add_all_sorted l : forall s, StronglySorted Z.lt s -> StronglySorted Z.lt (add_all l s).
Proof. induction l as [|z l IH]; intros s H; cbn; auto. apply IH. apply ins_sorted. auto. Qed.
Lemma add_all_in l : forall s y, In y (add_all l s) <-> In y l \/ In y s.
Proof. induction l as [|z l IH]; intros s y; cbn; [intuition|]. unfold add_all in IH. rewrite IH, ins_in. intuition. Qed.
Lemma add_all_length l : forall s, (length (add_all l s) <= length l + length s)%nat.
Proof. induction l as [|z l IH]; intros s; cbn; auto. specialize (IH (ins z s)). unfold add_all in IH. pose proof (ins_length z s). lia. Qed.
Lemma add_all_perm l : forall s, length (add_all l s) = (length l + length s)%nat -> Permutation (add_all l s) (l ++ s).
Proof.
  induction l as [|z l IH]; intros s H; cbn in *; auto. pose proof (add_all_length l (ins z s)) as B. unfold add_all in *. pose proof (ins_length z s).
  rewrite IH by lia. rewrite (ins_perm z s) by lia. symmetry. apply Permutation_middle.
Qed.
Lemma add_all_fresh l : forall s, NoDup l -> (forall z, In z l -> ~ In z s) -> Permutation (add_all l s) (l ++ s).
Proof.
  induction l as [|z l IH]; intros s Nd H; cbn; auto. inversion Nd as [|? ? Nz Nd']; subst. unfold add_all in IH. rewrite IH; auto.
  - rewrite (ins_fresh z s) by (apply H; left; auto). symmetry. apply Permutation_middle.
  - intros y Hy. rewrite ins_in. intros [->|Hs]; [contradiction|]. apply (H y); [right|]; auto.
Qed.
Lemma set_of_sorted l : StronglySorted Z.lt (set_of l).
Proof. apply add_all_sorted. constructor. Qed.
Lemma set_of_in l y : In y (set_of l) <-> In y l.
Proof. unfold set_of. rewrite (add_all_in l []). cbn. intuition. Qed.
Lemma set_of_perm l : length (set_of l) = length l -> Permutation (set_of l) l.
Proof. intros H. unfold set_of. rewrite (add_all_perm l []); [rewrite app_nil_r; auto|]. cbn. rewrite Nat.add_0_r. exact H. Qed.
Lemma set_of_nodup l : NoDup l -> Permutation (set_of l) l.
Proof. intros H. unfold set_of. rewrite (add_all_fresh l []); auto. rewrite app_nil_r. auto. Qed.
Lemma sorted_nodup l : StronglySorted Z.lt l -> NoDup l.
Proof. induction 1 as [|a l Hl IH Ha]; constructor; auto. intros I. rewrite Forall_forall in Ha. specialize (Ha a I). lia. Qed.
Lemma sorted_bounds l y : StronglySorted Z.lt l -> In y l -> hd 0 l <= y <= last l 0.
Proof.
  intros H. revert y. induction H as [|a l Hl IH Ha]; intros y Hy; [destruct Hy|]. cbn [hd]. rewrite Forall_forall in Ha. destruct l as [|b l].
  - cbn in *. lia.
  - change (last (a :: b :: l) 0) with (last (b :: l) 0). destruct Hy as [<-|Hy].
    + specialize (IH b (or_introl eq_refl)). specialize (Ha b (or_introl eq_refl)). cbn [hd] in IH. lia.
    + specialize (IH y Hy). specialize (Ha y Hy). lia.
Qed.
Lemma complete_perm r : isComplete r = true -> StronglySorted Z.lt (r_idx r) -> Permutation (r_idx r) (map Z.of_nat (seq 0 (Z.to_nat (r_len r)))).
Proof.
  unfold isComplete. intros H S. apply andb_prop in H. destruct H as [H H3]. apply andb_prop in H. destruct H as [H1 H2]. apply Z.eqb_eq in H1, H2, H3.
  assert (Nd : NoDup (map Z.of_nat (seq 0 (Z.to_nat (r_len r))))) by (apply FinFun.Injective_map_NoDup; [intros x y; lia|apply seq_NoDup]).
  apply NoDup_Permutation; auto; [apply sorted_nodup; auto|]. intros z. split.
  - intros Hz. pose proof (sorted_bounds _ _ S Hz). apply in_map_iff. exists (Z.to_nat z). split; [lia|]. apply in_seq. lia.
  - intros Hz. apply in_map_iff in Hz. destruct Hz as (j & <- & Hj). apply in_seq in Hj. apply (covers (Z.to_nat (r_len r))); [apply sorted_nodup; auto| |lia|lia].
    intros y Hy. pose proof (sorted_bounds _ _ S Hy). lia.
Qed.

Lemma forall2_impl {A B} (P Q : A -> B -> Prop) l m : (forall a b, P a b -> Q a b) -> Forall2 P l m -> Forall2 Q l m.
Proof. intros H. induction 1; constructor; auto. Qed.

(** ** Folds *)
Section Folds.
Variable E : Type.
Variable f : E -> E -> E.
Definition red (d : E) (l : list E) : E := match l with [] => d | a :: l' => fold_left f l' a end.
Lemma red_app d l m : l <> [] -> red d (l ++ m) = fold_left f m (red d l).
Proof. destruct l as [|a l]; intros H; [contradiction|]. cbn. apply fold_left_app. Qed.
Hypothesis comm : forall x y, f x y = f y x.
Hypothesis assoc : forall x y z, f x (f y z) = f (f x y) z.
Lemma fold_pull l : forall a b, fold_left f l (f a b) = f a (fold_left f l b).
Proof. induction l as [|x l IH]; intros a b; cbn; auto. rewrite <- assoc. apply IH. Qed.
Lemma red_join d l m : l <> [] -> m <> [] -> red d (l ++ m) = f (red d l) (red d m).
Proof. intros Hl Hm. rewrite red_app by auto. destruct m as [|b m]; [contradiction|]. cbn. apply fold_pull. Qed.
Lemma red_perm d l m : Permutation l m -> red d l = red d m.
Proof.
  induction 1 as [|x l m H IH|x y l|l m k H1 IH1 H2 IH2]; auto; [| |congruence].
  - destruct l as [|a l].
    + apply Permutation_nil in H. subst. reflexivity.
    + assert (m <> []) by (intros ->; symmetry in H; apply Permutation_nil in H; discriminate).
      change (x :: a :: l) with ([x] ++ (a :: l)). change (x :: m) with ([x] ++ m). rewrite !red_join by (auto; discriminate). rewrite IH. reflexivity.
  - cbn. rewrite comm. reflexivity.
Qed.
End Folds.

(** ** The analysis *)
Section Meaning.
Variable E : Type.
Variable sem : arith -> E -> E -> E.
Variable args : nat -> val E.
Variable other : nat -> list (val E) -> option (val E).
Variable idx : nat -> Z.
Variable atyp otyp : nat -> option Z.
Notation vget := (vget E args).
Notation rexec := (rexec E sem args other idx).
Notation rrun := (rrun E sem args other idx).
Notation typ := (typ atyp).
Notation rooted := (rooted atyp).
Notation visit := (visit atyp otyp).
Notation analyse := (analyse atyp otyp).

Notation has_type := (has_type E).
Hypothesis args_ok : forall x, has_type (args x) (atyp x).
Hypothesis other_ok : forall x vals v, other x vals = Some v -> has_type v (otyp x).
Variable good : arith -> Prop.
Hypothesis good_comm : forall o, good o -> forall x y, sem o x y = sem o y x.
Hypothesis good_assoc : forall o, good o -> forall x y z, sem o x (sem o y z) = sem o (sem o x y) z.

Definition slot (d : E) (T : list E) (i : Z) : E := nth (Z.to_nat (i mod Z.of_nat (length T))) T d.
Definition holds (vals : list (val E)) (T : list E) (r : reduction) (v : val E) : Prop :=
  match v with
  | VT w => r_saved r = [] /\ length w = length T /\
      forall o d j, r_op r = None \/ r_op r = Some o -> (j < length T)%nat ->
        nth_error w j = Some (red E (sem o) d (map (fun i => slot d T (Z.of_nat j + i)) (r_idx r)))
  | VS e => exists sv, Forall2 (fun s x => vget vals s = Some (VS x)) (r_saved r) sv /\
      forall o d, r_op r = None \/ r_op r = Some o -> e = red E (sem o) d (map (slot d T) (r_idx r) ++ sv)
  end.
Definition means (vals : list (val E)) (v : val E) (r : reduction) : Prop :=
  exists T, vget vals (r_tensor r) = Some (VT T) /\ Z.of_nat (length T) = r_len r /\ 0 < r_len r /\
    StronglySorted Z.lt (r_idx r) /\ r_idx r <> [] /\
    match r_op r with None => length (r_idx r) = 1%nat /\ r_saved r = [] | Some o => good o end /\ holds vals T r v.

Lemma vget_ext vals vals' t v : vget vals t = Some v -> vget (vals ++ vals') t = Some v.
Proof. destruct t; cbn; auto. intros H. rewrite nth_error_app1; auto. apply nth_error_Some. congruence. Qed.
Lemma means_ext vals vals' v r : means vals v r -> means (vals ++ vals') v r.
Proof.
  intros (T & H1 & H2 & H3 & H4 & H5 & H6 & H7). exists T. split; [apply vget_ext; auto|]. repeat (split; [assumption|]).
  destruct v as [w|e]; auto. destruct H7 as (sv & F & G). exists sv. split; auto. apply (forall2_impl _ _ _ _ (fun s x => vget_ext vals vals' s (VS x)) F).
Qed.

Lemma slot_mod d T i : slot d T (i mod Z.of_nat (length T)) = slot d T i.
Proof. unfold slot. rewrite Zmod_mod. reflexivity. Qed.
Lemma slot_congr d T i j : i mod Z.of_nat (length T) = j mod Z.of_nat (length T) -> slot d T i = slot d T j.
Proof. unfold slot. intros ->. reflexivity. Qed.
Lemma rem_congr a n : 0 < n -> Z.rem a n mod n = a mod n.
Proof. intros H. pose proof (Z.quot_rem' a n). replace a with (Z.rem a n + Z.quot a n * n) at 2 by lia. rewrite Z_mod_plus_full. reflexivity. Qed.
Lemma red1_perm o d (l m : list E) : (length l = 1%nat \/ good o) -> Permutation l m -> red E (sem o) d l = red E (sem o) d m.
Proof.
  intros [H|H] P; [|apply red_perm; auto]. destruct l as [|a [|]]; try discriminate. apply Permutation_length_1_inv in P. subst. reflexivity.
Qed.

Lemma init_means vals t T : vget vals t = Some (VT T) -> 0 < Z.of_nat (length T) -> means vals (VT T) (initializeFromValue t (Z.of_nat (length T))).
Proof.
  intros Ht Hn. exists T. split; auto. split; [reflexivity|]. split; [exact Hn|]. split; [repeat constructor|]. split; [discriminate|]. split; [cbn; auto|].
  split; auto. split; auto. intros o d j _ Hj. cbn. unfold slot. rewrite Z.add_0_r, Z.mod_small by lia. rewrite Nat2Z.id. apply nth_error_nth'. auto.
Qed.

(** the indices of a rotated reduction, when none are merged *)
Lemma rotate_perm s r : length (r_idx (rotate s r)) = length (r_idx r) -> Permutation (r_idx (rotate s r)) (map (fun i => Z.rem (i + s) (r_len r)) (r_idx r)).
Proof. intros H. apply set_of_perm. cbn in H. rewrite H, map_length. reflexivity. Qed.
Lemma rotate_red s r T o d k : length (r_idx (rotate s r)) = length (r_idx r) -> Z.of_nat (length T) = r_len r -> 0 < r_len r ->
  length (r_idx r) = 1%nat \/ good o ->
  red E (sem o) d (map (fun i => slot d T (k + i)) (r_idx (rotate s r))) = red E (sem o) d (map (fun i => slot d T (k + s + i)) (r_idx r)).
Proof.
  intros Hl Hn Hp Hg. rewrite (red1_perm o d _ (map (fun i => slot d T (k + i)) (map (fun i => Z.rem (i + s) (r_len r)) (r_idx r)))).
  - rewrite map_map. f_equal. apply map_ext. intros i. apply slot_congr. rewrite Hn. rewrite <- Zplus_mod_idemp_r, rem_congr, Zplus_mod_idemp_r by auto. f_equal. lia.
  - rewrite map_length, Hl. exact Hg.
  - apply Permutation_map. apply rotate_perm. auto.
Qed.
Lemma rotate_nonempty s r : length (r_idx (rotate s r)) = length (r_idx r) -> r_idx r <> [] -> r_idx (rotate s r) <> [].
Proof. intros Hl Hn He. rewrite He in Hl. destruct (r_idx r); [contradiction|discriminate]. Qed.
Lemma rotate_means vals s r w : length (r_idx (rotate s r)) = length (r_idx r) -> means vals (VT w) r -> means vals (VT (rot E s w)) (rotate s r).
Proof.
  intros Hl (T & H1 & H2 & H3 & H4 & H5 & H6 & Hs & Hw & H7). exists T. split; auto. split; auto. split; auto. split; [apply set_of_sorted|].
  split; [apply rotate_nonempty; auto|]. split; [cbn [r_op r_saved rotate]; destruct (r_op r); [auto|rewrite Hl; tauto]|].
  split; auto. split; [rewrite rot_length; auto|]. intros o d j Ho Hj. rewrite nth_error_rot by lia.
  pose proof (Z.mod_pos_bound (Z.of_nat j + s) (Z.of_nat (length w)) ltac:(lia)) as B.
  rewrite (H7 o d) by (auto; lia). f_equal. rewrite rotate_red; auto.
  - f_equal. apply map_ext. intros i. apply slot_congr. rewrite Z2Nat.id by lia. rewrite Hw. apply Zplus_mod_idemp_l.
  - cbn [r_op rotate] in Ho. destruct Ho as [Ho|Ho]; rewrite Ho in H6; tauto.
Qed.
Lemma extract_means vals s r w e : length (r_idx (rotate s r)) = length (r_idx r) -> at_index E w s = Some e -> means vals (VT w) r -> means vals (VS e) (rotate s r).
Proof.
  intros Hl He (T & H1 & H2 & H3 & H4 & H5 & H6 & Hs & Hw & H7). apply at_index_ok in He. destruct He as [B He].
  exists T. split; auto. split; auto. split; auto. split; [apply set_of_sorted|].
  split; [apply rotate_nonempty; auto|]. split; [cbn [r_op r_saved rotate]; destruct (r_op r); [auto|rewrite Hl; tauto]|].
  exists []. split; [constructor|]. intros o d Ho. rewrite app_nil_r. rewrite (H7 o d) in He by (auto; lia). injection He as <-.
  symmetry. rewrite (map_ext _ (fun i => slot d T (0 + i))) by (intros; f_equal; lia). rewrite rotate_red; auto.
  - f_equal. apply map_ext. intros i. f_equal. lia.
  - cbn [r_op rotate] in Ho. destruct Ho as [Ho|Ho]; rewrite Ho in H6; tauto.
Qed.

Lemma arith_eqb_ok a b : arith_eqb a b = true -> a = b.
Proof. destruct a, b; cbn; congruence. Qed.
Lemma canJoin_ok l r o : canJoin l r o = true -> r_tensor l = r_tensor r /\ (r_op l = None \/ r_op l = Some o) /\ (r_op r = None \/ r_op r = Some o) /\
  forall i, In i (r_idx l) -> ~ In i (r_idx r).
Proof.
  unfold canJoin. intros H. apply andb_prop in H. destruct H as [H H3]. apply andb_prop in H. destruct H as [H1 H2]. split; [apply tref_eqb_ok; auto|].
  split; [destruct (r_op l), (r_op r); auto; try apply andb_prop in H2; try (right; f_equal; apply arith_eqb_ok; tauto)|].
  split.
  { destruct (r_op l) as [a|], (r_op r) as [b|]; auto; [apply andb_prop in H2; destruct H2 as [A B]; apply arith_eqb_ok in A, B; subst; auto|right; f_equal; apply arith_eqb_ok; auto]. }
  cbv zeta in H3. rewrite forallb_forall in H3. intros i Hl Hr.
  assert (X : forall (m k : reduction), In i (r_idx m) -> In i (r_idx k) -> (forall x, In x (r_idx m) -> negb (existsb (Z.eqb x) (r_idx k)) = true) -> False).
  { intros m k Hm Hk HX. specialize (HX i Hm). rewrite negb_true_iff in HX. assert (existsb (Z.eqb i) (r_idx k) = true) by (apply existsb_exists; exists i; split; auto; apply Z.eqb_refl). congruence. }
  destruct (Nat.ltb_spec (length (r_idx l)) (length (r_idx r))); destruct (Nat.leb_spec (length (r_idx r)) (length (r_idx l))); try lia; eauto.
Qed.
Lemma join_perm l r : StronglySorted Z.lt (r_idx l) -> StronglySorted Z.lt (r_idx r) -> (forall i, In i (r_idx l) -> ~ In i (r_idx r)) ->
  Permutation (set_of (r_idx l ++ r_idx r)) (r_idx l ++ r_idx r).
Proof.
  intros Sl Sr D. apply set_of_nodup. apply sorted_nodup in Sl, Sr. revert D Sl. induction (r_idx l) as [|a m IH]; cbn; intros D Sl; auto.
  inversion Sl as [|? ? Na Nm]; subst. constructor.
  - rewrite in_app_iff. intros [?|?]; [contradiction|]. eapply D; eauto.
  - apply IH; auto.
Qed.
Lemma perm_nonempty {A} (l m : list A) : Permutation l m -> m <> [] -> l <> [].
Proof. intros P H ->. apply Permutation_nil in P. contradiction. Qed.
Lemma map_nonempty {A B} (f : A -> B) l : l <> [] -> map f l <> [].
Proof. destruct l; [contradiction|discriminate]. Qed.
Lemma app_nonempty {A} (l m : list A) : l <> [] -> l ++ m <> [].
Proof. destruct l; [contradiction|discriminate]. Qed.
Lemma join_means vals o l r a b v : good o -> canJoin l r o = true -> means vals a l -> means vals b r -> bin E sem o a b = Some v -> means vals v (join l r o).
Proof.
  intros Hg Hj (T & L1 & L2 & L3 & L4 & L5 & L6 & L7) (T' & R1 & R2 & R3 & R4 & R5 & R6 & R7) Hb.
  destruct (canJoin_ok _ _ _ Hj) as (Ht & Ol & Or & D). rewrite <- Ht in R1. assert (T' = T) by congruence. subst T'.
  pose proof (join_perm l r L4 R4 D) as P. exists T. split; auto. split; auto. split; auto. split; [apply set_of_sorted|].
  split; [eapply perm_nonempty; [exact P|apply app_nonempty; auto]|]. split; [exact Hg|].
  destruct a as [w|x], b as [w'|y]; cbn [bin] in Hb; try discriminate.
  - destruct (Nat.eqb_spec (length w) (length w')) as [El|]; [|discriminate]. injection Hb as <-. destruct L7 as (Sl & Wl & Fl), R7 as (Sr & Wr & Fr).
    split; [cbn [r_saved join]; rewrite Sl, Sr; reflexivity|]. split; [rewrite map2_length; auto|].
    intros o' d j [|[= <-]] Hj'; [discriminate|]. rewrite (nth_error_map2 (sem o) w w' j _ _ (Fl o d j Ol Hj') (Fr o d j Or Hj')). f_equal.
    cbn [r_idx join]. rewrite (red1_perm o d _ _ (or_intror Hg) (Permutation_map _ P)). rewrite map_app. symmetry. apply red_join; auto; apply map_nonempty; auto.
  - injection Hb as <-. destruct L7 as (sl & Fl & Gl), R7 as (sr & Fr & Gr). exists (sl ++ sr). split; [apply Forall2_app; auto|].
    intros o' d [|[= <-]]; [discriminate|]. rewrite (Gl o d Ol), (Gr o d Or). rewrite <- red_join by (auto; apply app_nonempty; apply map_nonempty; auto).
    apply red1_perm; [auto|]. cbn [r_idx join]. rewrite P, map_app. rewrite <- !app_assoc. apply Permutation_app_head. rewrite !app_assoc. apply Permutation_app_tail. apply Permutation_app_comm.
Qed.
Lemma save_means vals o l s x y e : good o -> same_op (r_op l) o = true -> vget vals s = Some (VS y) -> means vals (VS x) l -> e = sem o x y -> means vals (VS e) (save l s o).
Proof.
  intros Hg Ho Hs (T & L1 & L2 & L3 & L4 & L5 & L6 & sl & Fl & Gl) ->.
  assert (P : Permutation (set_of (r_idx l)) (r_idx l)) by (apply set_of_nodup, sorted_nodup; auto).
  exists T. split; auto. split; auto. split; auto. split; [apply set_of_sorted|]. split; [eapply perm_nonempty; eauto|]. split; [exact Hg|].
  exists (sl ++ [y]). split; [apply Forall2_app; auto|]. intros o' d [|[= <-]]; [discriminate|].
  assert (Ol : r_op l = None \/ r_op l = Some o) by (destruct (r_op l); auto; right; f_equal; apply arith_eqb_ok; auto).
  rewrite (Gl o d Ol). rewrite app_assoc. cbn [r_idx save].
  rewrite (red_app E (sem o) d (map (slot d T) (set_of (r_idx l)) ++ sl) [y]) by (apply app_nonempty, map_nonempty; eapply perm_nonempty; eauto). cbn [fold_left]. f_equal.
  apply red1_perm; auto. apply Permutation_app_tail, Permutation_map. symmetry. auto.
Qed.

(** ** Tables *)
Notation table := (list (option Z * list reduction)).
Definition Inv (vals : list (val E)) (tab : table) : Prop :=
  length vals = length tab /\ forall t v, vget vals t = Some v -> has_type v (typ tab t) /\ forall r, In r (rooted tab t) -> means vals v r.
Lemma typ_ext tab tab' vals t v : length vals = length tab -> vget vals t = Some v -> typ (tab ++ tab') t = typ tab t /\ rooted (tab ++ tab') t = rooted tab t.
Proof.
  intros L H. destruct t as [x|k]; auto. cbn in *. assert (k < length vals)%nat by (apply nth_error_Some; congruence). rewrite nth_error_app1 by lia. auto.
Qed.
Lemma analyse_ext p : forall tab, exists ext, analyse tab p = tab ++ ext /\ length ext = length p.
Proof.
  induction p as [|op p IH]; intros tab; cbn [Reduce_Model.analyse]; [exists []; rewrite app_nil_r; auto|].
  destruct (IH (tab ++ [visit tab op])) as (ext & -> & L). exists (visit tab op :: ext). rewrite <- app_assoc. cbn. auto.
Qed.
Definition op_good (op : rop) : Prop := match op with Bin o _ _ => reducible o = true -> good o | _ => True end.
Definition op_merge (tab : table) (op : rop) : Prop :=
  match op with Rot t (Cst s) | Ext t (Cst s) => forall r, In r (rooted tab t) -> length (r_idx (rotate s r)) = length (r_idx r) | _ => True end.

Lemma bin_means vals tab o a b x y v : Inv vals tab -> (reducible o = true -> good o) -> vget vals a = Some x -> vget vals b = Some y -> bin E sem o x y = Some v ->
  forall r, In r (visit_bin atyp tab o a b) -> r_op r = Some o /\ means vals v r.
Proof.
  intros [_ I] Hg Ha Hb Hv r Hr. unfold visit_bin in Hr. destruct (reducible o) eqn:Ro; [|destruct Hr]. specialize (Hg eq_refl).
  destruct (I a x Ha) as [Ta Ma]. destruct (I b y Hb) as [Tb Mb].
  set (joined := flat_map _ _) in Hr.
  assert (J : In r joined -> r_op r = Some o /\ means vals v r).
  { intros Hj. apply in_flat_map in Hj. destruct Hj as (l & Hl & Hj). apply in_map_iff in Hj. destruct Hj as (r' & <- & Hr'). apply filter_In in Hr'. destruct Hr' as [Hr' Hc].
    split; auto. eapply join_means; eauto. }
  destruct joined as [|j js] eqn:Ej; [|apply J; exact Hr]. apply in_app_iff in Hr. destruct Hr as [Hr|Hr].
  - apply in_map_iff in Hr. destruct Hr as (l & <- & Hl). apply filter_In in Hl. destruct Hl as [Hl Hc]. split; auto.
    unfold canSave in Hc. apply andb_prop in Hc. destruct Hc as [Ho Hc]. unfold is_tensor in Hc. destruct (typ tab b); [discriminate|]. destruct y as [|y]; [destruct Tb|].
    destruct x as [|x]; [discriminate|]. injection Hv as <-. eapply save_means; eauto.
  - apply in_map_iff in Hr. destruct Hr as (l & <- & Hl). apply filter_In in Hl. destruct Hl as [Hl Hc]. split; auto.
    unfold canSave in Hc. apply andb_prop in Hc. destruct Hc as [Ho Hc]. unfold is_tensor in Hc. destruct (typ tab a); [discriminate|]. destruct x as [|x]; [destruct Ta|].
    destruct y as [|y]; [discriminate|]. injection Hv as <-. eapply save_means; eauto.
Qed.
Lemma op_typed vals tab op v : Inv vals tab -> rexec vals op = Some v -> (match op with Reduce _ _ _ _ => False | _ => True end) -> has_type v (type_of_op atyp otyp tab op).
Proof.
  intros [_ I] H Hop. destruct op as [t s|t i|o a b|x|]; cbn [Reduce_Model.rexec type_of_op] in *; [| | | |contradiction].
  - destruct (vget vals t) as [[l|]|] eqn:Et; try discriminate. injection H as <-. destruct (I _ _ Et) as [Ty _]. unfold Reduce_Model.has_type in *. destruct (typ tab t); auto. rewrite rot_length. auto.
  - destruct (vget vals t) as [[l|]|]; try discriminate. destruct (at_index E l _); [|discriminate]. injection H as <-. exact I0 || exact Logic.I.
  - destruct (vget vals a) as [x|] eqn:Ea; [|discriminate]. destruct (vget vals b) as [y|] eqn:Eb; [|discriminate]. destruct (I _ _ Ea) as [Ty _]. unfold bin in H.
    destruct x as [l|x], y as [m|y]; try discriminate.
    + destruct (Nat.eqb_spec (length l) (length m)); [|discriminate]. injection H as <-. unfold Reduce_Model.has_type in *. destruct (typ tab a); auto. rewrite map2_length; auto.
    + injection H as <-. unfold Reduce_Model.has_type in *. destruct (typ tab a); auto.
  - eapply other_ok; eauto.
Qed.
Lemma visit_inv vals tab op v : Inv vals tab -> op_good op -> op_merge tab op -> rexec vals op = Some v -> (match op with Reduce _ _ _ _ => False | _ => True end) ->
  Inv (vals ++ [v]) (tab ++ [visit tab op]).
Proof.
  intros I Hg Hm H Hop. assert (Ty := op_typed _ _ _ _ I H Hop). destruct I as [L I]. split; [rewrite !app_length; cbn; lia|]. intros t u Ht.
  destruct t as [x|k].
  - cbn in Ht. injection Ht as <-. destruct (I (Arg x) (args x) eq_refl) as [A B]. split; [exact A|]. intros r Hr. apply means_ext. apply B. exact Hr.
  - cbn [Reduce_Model.vget] in Ht. destruct (Nat.lt_trichotomy k (length vals)) as [Hk|[->|Hk]].
    + rewrite nth_error_app1 in Ht by auto. destruct (typ_ext tab [visit tab op] vals (Res k) u L Ht) as [-> ->]. destruct (I (Res k) u Ht) as [A B]. split; auto. intros r Hr. apply means_ext. auto.
    + rewrite nth_error_app2, Nat.sub_diag in Ht by lia. injection Ht as <-. cbn [Reduce_Model.typ Reduce_Model.rooted]. rewrite L, nth_error_app2, Nat.sub_diag by lia. cbn [nth_error].
      unfold Reduce_Model.visit. cbn [fst snd]. split; [exact Ty|]. intros r Hr. apply in_app_iff in Hr. destruct Hr as [Hr|Hr].
      * destruct (type_of_op atyp otyp tab op) as [n|]; [|destruct Hr]. destruct Hr as [<-|[]]. destruct v as [l|]; [|destruct Ty]. destruct Ty as [<- Pn].
        apply init_means; auto. cbn. rewrite <- L, nth_error_app2, Nat.sub_diag by lia. reflexivity.
      * apply means_ext. destruct op as [t s|t i|o a b|x|]; [| | | |contradiction].
        -- destruct s as [s|]; [|destruct Hr]. cbn [Reduce_Model.rexec iget] in H. destruct (vget vals t) as [[l|]|] eqn:Et; try discriminate. injection H as <-.
           apply in_map_iff in Hr. destruct Hr as (r' & <- & Hr'). apply rotate_means; [apply Hm; auto|]. apply (I t _ Et). auto.
        -- destruct i as [s|]; [|destruct Hr]. cbn [Reduce_Model.rexec iget] in H. destruct (vget vals t) as [[l|]|] eqn:Et; try discriminate. destruct (at_index E l s) as [e|] eqn:Ee; [|discriminate]. injection H as <-.
           apply in_map_iff in Hr. destruct Hr as (r' & <- & Hr'). eapply extract_means; [apply Hm; auto|eauto|]. apply (I t _ Et). auto.
        -- cbn [Reduce_Model.rexec] in H. destruct (vget vals a) as [x|] eqn:Ea; [|discriminate]. destruct (vget vals b) as [y|] eqn:Eb; [|discriminate].
           apply (bin_means vals tab o a b x y v (conj L I) Hg Ea Eb H r Hr).
        -- destruct Hr.
    + rewrite (proj2 (nth_error_None _ k)) in Ht; [discriminate|]. rewrite app_length. cbn. lia.
Qed.

(** ** The replacement *)
Lemma reduce_all_length o l : length (reduce_all E sem o l) = length l.
Proof. destruct l; auto. unfold reduce_all. rewrite map_length, seq_length. reflexivity. Qed.
Lemma rot_slots d j l : l <> [] -> rot E j l = map (fun i => slot d l (j + i)) (map Z.of_nat (seq 0 (length l))).
Proof.
  intros Hl. destruct l as [|e l0] eqn:El; [contradiction|]. rewrite <- El. rewrite map_map. unfold rot. rewrite El. rewrite <- El. apply map_ext. intros i. unfold slot.
  replace (j + Z.of_nat i) with (Z.of_nat i + j) by lia. apply nth_indep.
  assert (0 < Z.of_nat (length l)) by (rewrite El; cbn; lia). pose proof (Z.mod_pos_bound (Z.of_nat i + j) (Z.of_nat (length l)) ltac:(auto)). lia.
Qed.
Lemma reduce_all_nth o d l j : (j < length l)%nat ->
  nth_error (reduce_all E sem o l) j = Some (red E (sem o) d (map (fun i => slot d l (Z.of_nat j + i)) (map Z.of_nat (seq 0 (length l))))).
Proof.
  intros Hj. assert (Hl : l <> []) by (intros ->; cbn in Hj; lia). rewrite <- rot_slots by auto. destruct l as [|e l0] eqn:El; [contradiction|]. unfold reduce_all. rewrite <- El in *.
  rewrite nth_error_map. rewrite (nth_error_nth' (seq 0 (length l)) 0%nat) by (rewrite seq_length; auto). cbn [option_map]. rewrite seq_nth by auto. cbn [Nat.add]. f_equal. unfold red.
  assert (L := rot_length E (Z.of_nat j) l). destruct (rot E (Z.of_nat j) l) eqn:Er; auto. cbn in L. rewrite El in L. discriminate.
Qed.
Lemma bins_scalar o vals saved sv : Forall2 (fun s x => vget vals s = Some (VS x)) saved sv -> forall e, bins E sem args o (VS e) vals saved = Some (VS (fold_left (sem o) sv e)).
Proof. induction 1 as [|s x saved sv Hs F IH]; intros e; cbn [bins]; auto. rewrite Hs. cbn [bin]. apply IH. Qed.
Lemma replace_exec vals tab op v : Inv vals tab -> op_good op -> rexec vals op = Some v -> (match op with Reduce _ _ _ _ => False | _ => True end) ->
  rexec vals (replace op (visit tab op)) = Some v.
Proof.
  intros I Hg H Hop. destruct op as [t s|t i|o a b|x|]; auto. unfold replace. destruct (reducible o) eqn:Ro; auto.
  destruct (find candidate (snd (visit tab (Bin o a b)))) as [r|] eqn:Ef; auto. apply find_some in Ef. destruct Ef as [Hin Hc].
  unfold candidate in Hc. apply andb_prop in Hc. destruct Hc as [Hc Hl]. apply Z.ltb_lt in Hl.
  assert (Hr : In r (visit_bin atyp tab o a b)).
  { unfold Reduce_Model.visit in Hin. cbn [snd] in Hin. apply in_app_iff in Hin. destruct Hin as [Hin|]; auto. exfalso.
    destruct (type_of_op _ _ _ _) as [n|]; [|destruct Hin]. destruct Hin as [<-|[]]. unfold isComplete in Hc. apply andb_prop in Hc. destruct Hc as [_ Hc]. apply Z.eqb_eq in Hc. cbn [r_idx r_len initializeFromValue] in Hc, Hl. change (length (set_of [0])) with 1%nat in Hc. lia. }
  assert (Ty := op_typed _ _ _ _ I H Hop). cbn [Reduce_Model.rexec] in H. destruct (vget vals a) as [x|] eqn:Ea; [|discriminate]. destruct (vget vals b) as [y|] eqn:Eb; [|discriminate].
  destruct (bin_means vals tab o a b x y v I Hg Ea Eb H r Hr) as (Hop' & T & M1 & M2 & M3 & M4 & M5 & M6 & M7). rewrite Hop' in M6.
  pose proof (complete_perm r Hc M4) as P. rewrite <- M2, Nat2Z.id in P.
  cbn [Reduce_Model.rexec]. rewrite M1. cbv zeta. change (fst (visit tab (Bin o a b))) with (type_of_op atyp otyp tab (Bin o a b)).
  destruct (type_of_op atyp otyp tab (Bin o a b)) as [n|]; destruct v as [w|e]; try (destruct Ty; fail).
  - destruct M7 as (Hs & Lw & F). rewrite Hs. cbn [bins]. do 2 f_equal. apply nth_error_ext. intros j. destruct (le_lt_dec (length T) j) as [Hj|Hj].
    + rewrite (proj2 (nth_error_None _ j)) by (rewrite reduce_all_length; auto). symmetry. apply nth_error_None. lia.
    + destruct T as [|d T0] eqn:Ed; [cbn in Hj; lia|]. rewrite <- Ed in *. rewrite (reduce_all_nth o d) by auto. rewrite (F o d j (or_intror Hop') Hj). f_equal.
      apply red1_perm; auto. apply Permutation_map. symmetry. auto.
  - destruct M7 as (sv & Fs & G). destruct T as [|d T0] eqn:Ed; [cbn in M2; lia|]. rewrite <- Ed in *.
    assert (Lt : (0 < length T)%nat) by lia. unfold at_index. cbn [Z.ltb Z.compare]. change (Z.to_nat 0) with 0%nat. rewrite (reduce_all_nth o d) by auto.
    rewrite (bins_scalar o vals _ _ Fs). do 2 f_equal. rewrite (G o d (or_intror Hop')). rewrite <- red_app by (apply map_nonempty, map_nonempty; intros X; apply (f_equal (@length nat)) in X; rewrite seq_length in X; cbn in X; lia).
    apply red1_perm; auto. apply Permutation_app_tail. rewrite (map_ext (fun i => slot d T (Z.of_nat 0 + i)) (slot d T)) by (intros; f_equal; lia). apply Permutation_map. symmetry. auto.
Qed.

Lemma pass_ok p : forall vals tab vals', Inv vals tab -> no_reduce p -> (forall op, In op p -> op_good op) -> (forall op, In op p -> op_merge (analyse tab p) op) ->
  rrun vals p = Some vals' -> rrun vals (map2 replace p (skipn (length tab) (analyse tab p))) = Some vals'.
Proof.
  induction p as [|op p IH]; intros vals tab vals' I Hn Hg Hm H; [exact H|]. cbn [Reduce_Model.analyse Reduce_Model.rrun] in *.
  destruct (rexec vals op) as [v|] eqn:Ev; [|discriminate].
  assert (Hop : match op with Reduce _ _ _ _ => False | _ => True end) by (destruct op as [| | | |o t e s]; auto; apply (Hn o t e s); left; reflexivity).
  destruct (analyse_ext p (tab ++ [visit tab op])) as (ext & Ea & _).
  assert (Hm1 : op_merge tab op).
  { specialize (Hm op (or_introl eq_refl)). rewrite Ea, <- app_assoc in Hm. destruct I as [L I].
    destruct op as [t [s|]|t [s|]| | |]; cbn [op_merge] in *; auto; intros r Hr; apply Hm; cbn [Reduce_Model.rexec] in Ev; destruct (vget vals t) as [u|] eqn:Et; try discriminate;
      rewrite (proj2 (typ_ext tab _ vals t u L Et)); auto. }
  assert (I' := visit_inv vals tab op v I (Hg op (or_introl eq_refl)) Hm1 Ev Hop).
  replace (skipn (length tab) (analyse (tab ++ [visit tab op]) p)) with (visit tab op :: skipn (length (tab ++ [visit tab op])) (analyse (tab ++ [visit tab op]) p)).
  - cbn [map2 Reduce_Model.rrun]. rewrite (replace_exec vals tab op v I (Hg op (or_introl eq_refl)) Ev Hop).
    apply IH; auto; intros; [intros o t e s X; apply (Hn o t e s); right; exact X|apply Hg; right; auto|apply Hm; right; auto].
  - rewrite Ea, skipn_app, skipn_all, Nat.sub_diag. cbn [app skipn]. rewrite <- app_assoc, skipn_app, skipn_all, Nat.sub_diag. reflexivity.
Qed.
Lemma inv_nil : Inv [] [].
Proof.
  split; auto. intros t v Ht. destruct t as [x|k]; [|destruct k; discriminate]. cbn in Ht. injection Ht as <-. split; [apply args_ok|]. cbn. intros r Hr.
  pose proof (args_ok x) as A. destruct (atyp x) as [n|]; [|destruct Hr]. destruct Hr as [<-|[]]. destruct (args x) as [l|] eqn:Ex; [|destruct A]. destruct A as [<- Pn].
  apply init_means; auto. cbn. rewrite Ex. reflexivity.
Qed.
End Meaning.

(** ** Rotations to the left merge no indices *)
Section NoMerge.
Variable atyp otyp : nat -> option Z.
Hypothesis apos : forall x n, atyp x = Some n -> 0 < n.
Hypothesis opos : forall x n, otyp x = Some n -> 0 < n.
Notation rooted := (rooted atyp).
Notation typ := (typ atyp).
Notation analyse := (analyse atyp otyp).
Definition low (r : reduction) : Prop := 0 < r_len r /\ StronglySorted Z.lt (r_idx r) /\ forall i, In i (r_idx r) -> 0 <= i < r_len r.
Definition table_ok (tab : list (option Z * list reduction)) : Prop :=
  (forall t n, typ tab t = Some n -> 0 < n) /\ forall t r, In r (rooted tab t) -> low r.
Lemma low_init t n : 0 < n -> low (initializeFromValue t n).
Proof. intros H. split; auto. split; [repeat constructor|]. cbn. lia. Qed.
Lemma rem_mod s r i : 0 <= s -> low r -> In i (r_idx r) -> Z.rem (i + s) (r_len r) = (i + s) mod r_len r.
Proof. intros Hs (P & _ & B) Hi. apply B in Hi. apply Z.rem_mod_nonneg; lia. Qed.
Lemma low_rotate s r : 0 <= s -> low r -> low (rotate s r) /\ length (r_idx (rotate s r)) = length (r_idx r).
Proof.
  intros Hs Hr. assert (Hr' := Hr). destruct Hr' as (P & S & B). split.
  - split; auto. split; [apply set_of_sorted|]. intros i Hi. cbn [r_idx rotate] in Hi. apply (proj1 (set_of_in _ _)) in Hi. apply in_map_iff in Hi. destruct Hi as (j & <- & Hj).
    cbn [r_len rotate]. rewrite rem_mod by auto. apply Z.mod_pos_bound. auto.
  - cbn [r_idx rotate]. enough (Nd : NoDup (map (fun i => Z.rem (i + s) (r_len r)) (r_idx r))) by (rewrite (Permutation_length (set_of_nodup _ Nd)); apply map_length).
    apply sorted_nodup in S. assert (Inj : forall i j, In i (r_idx r) -> In j (r_idx r) -> Z.rem (i + s) (r_len r) = Z.rem (j + s) (r_len r) -> i = j).
    { intros i j Hi Hj. rewrite !rem_mod by auto. intros H. apply B in Hi, Hj.
      assert (D : (i - j) mod r_len r = 0).
      { replace (i - j) with ((i + s) - (j + s)) by lia. rewrite Zminus_mod, H, Z.sub_diag. reflexivity. }
      apply Z.mod_divide in D; [|lia]. destruct D as [q D]. assert (q = 0) by nia. lia. }
    clear P B Hr. revert S Inj. generalize (r_len r). intros m S Inj. induction (r_idx r) as [|a l IH]; cbn; [constructor|]. inversion S as [|? ? Na Nl]; subst. constructor.
    + intros Hin. apply in_map_iff in Hin. destruct Hin as (b & Hb & Hbl). assert (b = a) by (apply Inj; cbn; auto). subst. contradiction.
    + apply IH; auto. intros i j Hi Hj. apply Inj; right; auto.
Qed.
Lemma set_of_app_low l r : low l -> low r -> r_len r = r_len l -> forall i, In i (set_of (r_idx l ++ r_idx r)) -> 0 <= i < r_len l.
Proof. intros (_ & _ & Bl) (_ & _ & Br) E0 i Hi. apply (proj1 (set_of_in _ _)) in Hi. apply in_app_iff in Hi. destruct Hi as [Hi|Hi]; [auto|]. apply Br in Hi. lia. Qed.
(** the length belongs to the tensor *)
Definition lens (tab : list (option Z * list reduction)) : Prop := forall t r, In r (rooted tab t) -> typ tab (r_tensor r) = Some (r_len r).
Definition inside (tab : list (option Z * list reduction)) (t : tref) : Prop := match t with Arg _ => True | Res k => (k < length tab)%nat end.
Lemma typ_some tab t n : typ tab t = Some n -> inside tab t.
Proof. destruct t; cbn; auto. destruct (nth_error tab k) eqn:E0; [|discriminate]. intros _. apply nth_error_Some. congruence. Qed.
Lemma typ_app tab tab' t : inside tab t -> typ (tab ++ tab') t = typ tab t.
Proof. destruct t; cbn; auto. intros H. rewrite nth_error_app1; auto. Qed.
Lemma rooted_app tab tab' t : inside tab t -> rooted (tab ++ tab') t = rooted tab t.
Proof. destruct t; cbn; auto. intros H. rewrite nth_error_app1; auto. Qed.
Definition op_left (op : rop) : Prop := match op with Rot _ (Cst s) | Ext _ (Cst s) => 0 <= s | _ => True end.
Lemma visit_low tab op : table_ok tab -> lens tab -> op_left op ->
  (forall n, type_of_op atyp otyp tab op = Some n -> 0 < n) /\
  forall r, In r (snd (visit atyp otyp tab op)) -> low r /\ (r_tensor r = Res (length tab) /\ type_of_op atyp otyp tab op = Some (r_len r) \/ typ tab (r_tensor r) = Some (r_len r)).
Proof.
  intros [Tp Tr] Hl Ho.
  assert (Ty : forall n, type_of_op atyp otyp tab op = Some n -> 0 < n).
  { intros n. destruct op as [t s|t i|o a b|x|o t [|] s]; cbn; try discriminate; eauto. }
  split; auto. intros r Hr. unfold visit in Hr. cbn [snd] in Hr. apply in_app_iff in Hr. destruct Hr as [Hr|Hr].
  - destruct (type_of_op atyp otyp tab op) as [n|]; [|destruct Hr]. destruct Hr as [<-|[]]. split; [apply low_init; auto|]. left. auto.
  - destruct op as [t [s|]|t [s|]|o a b|x|o t e s]; try (destruct Hr; fail).
    + apply in_map_iff in Hr. destruct Hr as (r' & <- & Hr'). cbn in Ho. split; [apply low_rotate; eauto|]. right. cbn. eauto.
    + apply in_map_iff in Hr. destruct Hr as (r' & <- & Hr'). cbn in Ho. split; [apply low_rotate; eauto|]. right. cbn. eauto.
    + unfold visit_bin in Hr. destruct (reducible o); [|destruct Hr]. set (joined := flat_map _ _) in Hr.
      assert (J : In r joined -> low r /\ typ tab (r_tensor r) = Some (r_len r)).
      { intros Hj. apply in_flat_map in Hj. destruct Hj as (l & Hl' & Hj). apply in_map_iff in Hj. destruct Hj as (r' & <- & Hr'). apply filter_In in Hr'. destruct Hr' as [Hr' Hc].
        apply canJoin_ok in Hc. destruct Hc as [Ht _]. assert (El : r_len r' = r_len l) by (pose proof (Hl _ _ Hr'); pose proof (Hl _ _ Hl'); congruence).
        split; [|exact (Hl _ _ Hl')]. split; [exact (proj1 (Tr _ _ Hl'))|]. split; [apply set_of_sorted|]. apply (set_of_app_low l r'); eauto. }
      assert (Sv : forall l t, low l -> low (save l t o)).
      { intros l t (P & S0 & B). split; auto. split; [apply set_of_sorted|]. intros i Hi. cbn in *. apply (proj1 (set_of_in _ _)) in Hi. auto. }
      destruct joined as [|j js] eqn:Ej; [|destruct (J Hr); auto]. apply in_app_iff in Hr.
      destruct Hr as [Hr|Hr]; apply in_map_iff in Hr; destruct Hr as (l & <- & Hl'); apply filter_In in Hl'; destruct Hl' as [Hl' _]; (split; [apply Sv; eauto|right; cbn; eauto]).
Qed.
Lemma table_step tab op : table_ok tab -> lens tab -> op_left op -> table_ok (tab ++ [visit atyp otyp tab op]) /\ lens (tab ++ [visit atyp otyp tab op]).
Proof.
  intros Ht Hl Ho. destruct (visit_low tab op Ht Hl Ho) as [Ty Tl]. destruct Ht as [Tp Tr].
  set (tab' := tab ++ [visit atyp otyp tab op]).
  assert (New : typ tab' (Res (length tab)) = type_of_op atyp otyp tab op /\ rooted tab' (Res (length tab)) = snd (visit atyp otyp tab op)).
  { unfold tab'. cbn. rewrite nth_error_app2, Nat.sub_diag by lia. cbn. auto. }
  assert (Cases : forall t, inside tab t \/ t = Res (length tab) \/ (typ tab' t = None /\ rooted tab' t = [])).
  { intros [x|k]; [left; exact I|]. destruct (Nat.lt_trichotomy k (length tab)) as [|[->|]]; [left; auto|auto|]. right. right. unfold tab'. cbn. rewrite (proj2 (nth_error_None _ k)); auto. rewrite app_length. cbn. lia. }
  assert (Old : forall t, inside tab t -> typ tab' t = typ tab t /\ rooted tab' t = rooted tab t) by (intros; split; [apply typ_app|apply rooted_app]; auto).
  split; [split|].
  - intros t n H. destruct (Cases t) as [C|[->|[C _]]]; [rewrite (proj1 (Old t C)) in H; eauto|rewrite (proj1 New) in H; auto|congruence].
  - intros t r H. destruct (Cases t) as [C|[->|[_ C]]]; [rewrite (proj2 (Old t C)) in H; eauto|rewrite (proj2 New) in H; apply Tl; auto|rewrite C in H; destruct H].
  - intros t r H. destruct (Cases t) as [C|[->|[_ C]]]; [| |rewrite C in H; destruct H].
    + rewrite (proj2 (Old t C)) in H. pose proof (Hl _ _ H) as X. rewrite (proj1 (Old _ (typ_some _ _ _ X))). exact X.
    + rewrite (proj2 New) in H. destruct (Tl r H) as [_ [[-> X]|X]]; [rewrite (proj1 New); auto|]. rewrite (proj1 (Old _ (typ_some _ _ _ X))). exact X.
Qed.
Lemma table_run p : forall tab, table_ok tab -> lens tab -> (forall op, In op p -> op_left op) -> table_ok (analyse tab p).
Proof.
  induction p as [|op p IH]; intros tab Ht Hl Ho; auto. cbn [Reduce_Model.analyse]. destruct (table_step tab op Ht Hl (Ho op (or_introl eq_refl))) as [A B]. apply IH; auto. intros; apply Ho; right; auto.
Qed.
Lemma left_no_merge p : (forall t s, In (Rot t (Cst s)) p \/ In (Ext t (Cst s)) p -> 0 <= s) -> no_merge atyp otyp p.
Proof.
  intros H t s r Hin Hr. assert (T0 : table_ok (analyse [] p)).
  { apply table_run.
    - split; [intros [x|k] n; cbn; [apply apos|destruct k; discriminate]|]. intros [x|k] r0; cbn; [|destruct k; intros []].
      destruct (atyp x) as [n|] eqn:Ex; [|intros []]. intros [<-|[]]. apply low_init. eapply apos; eauto.
    - intros [x|k] r0; cbn; [|destruct k; intros []]. destruct (atyp x) as [n|] eqn:Ex; [|intros []]. intros [<-|[]]. cbn. auto.
    - intros op Hop. destruct op as [t0 [s0|]|t0 [s0|]| | |]; cbn; auto; eapply H; eauto. }
  destruct T0 as [_ Tr]. apply low_rotate; eauto.
Qed.
End NoMerge.

(** ** A chain of additions of rotated copies is found *)
Section Chain.
Variable atyp otyp : nat -> option Z.
Variable n : Z.
Variable o : arith.
Hypothesis Hn : atyp 0%nat = Some n.
Hypothesis Ho : reducible o = true.
Notation link := (link o).
Notation chain := (chain o).
Definition zseq (m : nat) : list Z := map Z.of_nat (seq 0 m).
Definition entry (i : nat) : list (option Z * list reduction) :=
  [ (Some n, [initializeFromValue (Res (2 * i)) n; {| r_tensor := Arg 0; r_len := n; r_op := None; r_idx := [Z.of_nat i + 1]; r_saved := [] |}]);
    (Some n, [initializeFromValue (Res (2 * i + 1)) n; {| r_tensor := Arg 0; r_len := n; r_op := Some o; r_idx := zseq (i + 2); r_saved := [] |}]) ].
Definition entries (m : nat) := flat_map entry (seq 0 m).
Lemma entries_S m : entries (S m) = entries m ++ entry m.
Proof. unfold entries. rewrite seq_S, flat_map_app. cbn [flat_map Nat.add]. rewrite app_nil_r. reflexivity. Qed.
Lemma chain_S m : chain (S m) = chain m ++ link m.
Proof. unfold Reduce_Model.chain. rewrite seq_S, flat_map_app. cbn [flat_map Nat.add]. rewrite app_nil_r. reflexivity. Qed.
Lemma entries_length m : length (entries m) = (2 * m)%nat.
Proof. induction m; auto. rewrite entries_S, app_length, IHm. cbn. lia. Qed.
Lemma zseq_S m : zseq (S m) = zseq m ++ [Z.of_nat m].
Proof. unfold zseq. rewrite seq_S, map_app. reflexivity. Qed.
Lemma ins_last z l : (forall y, In y l -> y < z) -> ins z l = l ++ [z].
Proof.
  induction l as [|a l IH]; intros H; cbn [ins app]; auto. assert (a < z) by (apply H; left; auto).
  destruct (Z.ltb_spec z a); [lia|]. destruct (Z.eqb_spec z a); [lia|]. rewrite IH; auto. intros; apply H; right; auto.
Qed.
Lemma set_of_snoc l z : set_of (l ++ [z]) = ins z (set_of l).
Proof. unfold set_of. rewrite fold_left_app. reflexivity. Qed.
Lemma zseq_in m z : In z (zseq m) -> 0 <= z < Z.of_nat m.
Proof. unfold zseq. rewrite in_map_iff. intros (j & <- & H). apply in_seq in H. lia. Qed.
Lemma set_of_zseq m : set_of (zseq m) = zseq m.
Proof. induction m as [|m IH]; auto. rewrite zseq_S, set_of_snoc, IH. apply ins_last. intros y Hy. apply zseq_in in Hy. lia. Qed.
Lemma arith_eqb_refl a : arith_eqb a a = true.
Proof. destruct a; reflexivity. Qed.
Lemma analyse_app p q tab : analyse atyp otyp tab (p ++ q) = analyse atyp otyp (analyse atyp otyp tab p) q.
Proof. revert tab. induction p as [|x p IH]; intros tab; cbn [analyse app]; auto. Qed.
Lemma rooted_prev m : rooted atyp (entries m) (prev m) =
  match m with O => [initializeFromValue (Arg 0) n] | S k => [initializeFromValue (Res (2 * k + 1)) n; {| r_tensor := Arg 0; r_len := n; r_op := Some o; r_idx := zseq (k + 2); r_saved := [] |}] end.
Proof.
  destruct m as [|k]; cbn [prev rooted]; [rewrite Hn; reflexivity|]. rewrite entries_S, nth_error_app2 by (rewrite entries_length; lia). rewrite entries_length.
  replace (2 * k + 1 - 2 * k)%nat with 1%nat by lia. reflexivity.
Qed.
Lemma typ_prev m : typ atyp (entries m) (prev m) = Some n.
Proof.
  destruct m as [|k]; cbn [prev typ]; [auto|]. rewrite entries_S, nth_error_app2 by (rewrite entries_length; lia). rewrite entries_length.
  replace (2 * k + 1 - 2 * k)%nat with 1%nat by lia. reflexivity.
Qed.
Lemma canJoin_other l r : r_tensor l <> r_tensor r -> canJoin l r o = false.
Proof. intros H. destruct (canJoin l r o) eqn:E; auto. apply canJoin_ok in E. tauto. Qed.
Lemma canJoin_last m op : (op = None \/ op = Some o) -> (1 <= m)%nat ->
  canJoin {| r_tensor := Arg 0; r_len := n; r_op := op; r_idx := zseq m; r_saved := [] |} {| r_tensor := Arg 0; r_len := n; r_op := None; r_idx := [Z.of_nat m]; r_saved := [] |} o = true.
Proof.
  intros Hop Hm. unfold canJoin. cbn [r_tensor r_op r_idx]. rewrite tref_eqb_refl. cbn [andb].
  replace (match op with Some a => arith_eqb a o | None => true end) with true by (destruct Hop; subst; rewrite ?arith_eqb_refl; auto). cbn [andb]. cbv zeta.
  assert (L : length (zseq m) = m) by (unfold zseq; rewrite map_length, seq_length; reflexivity). rewrite L. cbn [length].
  destruct (Nat.ltb_spec m 1); [lia|]. destruct (Nat.leb_spec 1 m); [|lia]. cbn [r_idx forallb]. rewrite andb_true_r. apply negb_true_iff.
  apply not_true_is_false. intros X. apply existsb_exists in X. destruct X as (y & Hy & E). apply Z.eqb_eq in E. apply zseq_in in Hy. lia.
Qed.
Lemma entry_step m : Z.of_nat m + 1 < n -> analyse atyp otyp (entries m) (link m) = entries (S m).
Proof.
  intros Hm. cbn [Reduce_Model.link analyse].
  assert (V1 : visit atyp otyp (entries m) (Rot (Arg 0) (Cst (Z.of_nat m + 1))) = nth 0 (entry m) (None, [])).
  { unfold visit. cbn [type_of_op typ rooted nth entry]. rewrite Hn. cbn [map app rotate r_idx initializeFromValue r_tensor r_len r_op]. rewrite entries_length. do 2 f_equal. unfold rotate. cbn [r_idx r_len initializeFromValue r_tensor r_op].
    change (set_of (map (fun i => Z.rem (i + (Z.of_nat m + 1)) n) (set_of [0]))) with [Z.rem (0 + (Z.of_nat m + 1)) n]. rewrite Z.rem_small by lia. reflexivity. }
  rewrite V1. cbn [nth entry].
  set (tab := entries m ++ [_]).
  assert (R1 : rooted atyp tab (prev m) = rooted atyp (entries m) (prev m)).
  { apply rooted_app. destruct m; cbn [inside prev]; [exact I|]. rewrite entries_length. lia. }
  assert (T1 : typ atyp tab (prev m) = Some n).
  { unfold tab. rewrite typ_app; [apply typ_prev|]. destruct m; cbn [inside prev]; [exact I|]. rewrite entries_length. lia. }
  assert (R2 : rooted atyp tab (Res (2 * m)) = [initializeFromValue (Res (2 * m)) n; {| r_tensor := Arg 0; r_len := n; r_op := None; r_idx := [Z.of_nat m + 1]; r_saved := [] |}]).
  { unfold tab. cbn [rooted]. rewrite nth_error_app2 by (rewrite entries_length; lia). rewrite entries_length, Nat.sub_diag. reflexivity. }
  assert (V2 : visit atyp otyp tab (Bin o (prev m) (Res (2 * m))) = nth 1 (entry m) (None, [])).
  { unfold visit. cbn [type_of_op]. rewrite T1. unfold visit_bin. rewrite Ho. rewrite R1, R2, rooted_prev. cbn [nth entry].
    replace (length tab) with (2 * m + 1)%nat by (unfold tab; rewrite app_length, entries_length; cbn; lia).
    destruct m as [|k].
    - cbn [flat_map filter]. rewrite (canJoin_other (initializeFromValue (Arg 0) n) (initializeFromValue (Res (2 * 0)) n)) by (cbn; discriminate).
      change (initializeFromValue (Arg 0) n) with {| r_tensor := Arg 0; r_len := n; r_op := None; r_idx := zseq 1; r_saved := [] |}. change (Z.of_nat 0 + 1) with (Z.of_nat 1).
      rewrite canJoin_last by auto. cbn [map app]. unfold join. cbn [r_tensor r_len r_op r_idx r_saved app]. reflexivity.
    - cbn [flat_map filter]. rewrite (canJoin_other _ (initializeFromValue (Res (2 * S k)) n)) by (cbn [r_tensor initializeFromValue]; injection 1; lia).
      rewrite (canJoin_other (initializeFromValue (Res (2 * k + 1)) n)) by (cbn; discriminate). cbn [map app].
      rewrite (canJoin_other _ (initializeFromValue (Res (2 * S k)) n)) by (cbn [r_tensor initializeFromValue]; discriminate).
      replace (Z.of_nat (S k) + 1) with (Z.of_nat (k + 2)) by lia. rewrite canJoin_last by (auto; lia). cbn [map app]. unfold join. cbn [r_tensor r_len r_op r_idx r_saved app].
      rewrite set_of_snoc, set_of_zseq, ins_last by (intros y Hy; apply zseq_in in Hy; lia). rewrite <- zseq_S. do 4 f_equal. }
  rewrite V2. unfold tab. rewrite <- app_assoc, entries_S. reflexivity.
Qed.
Lemma chain_table m : Z.of_nat m < n -> analyse atyp otyp [] (chain m) = entries m.
Proof. induction m as [|m IH]; intros H; auto. rewrite chain_S, analyse_app, IH by lia. apply entry_step. lia. Qed.
Lemma map2_app {A B C} (f : A -> B -> C) l l' m m' : length l = length m -> map2 f (l ++ l') (m ++ m') = map2 f l m ++ map2 f l' m'.
Proof. revert m. induction l as [|a l IH]; intros [|b m] H; try discriminate; auto. cbn. f_equal. apply IH. auto. Qed.
Lemma chain_length m : length (chain m) = (2 * m)%nat.
Proof. induction m; auto. rewrite chain_S, app_length, IHm. cbn. lia. Qed.
Lemma chain_found m : n = Z.of_nat m + 2 ->
  rotate_and_reduce atyp otyp (chain (S m)) = chain m ++ [Rot (Arg 0) (Cst (Z.of_nat m + 1)); Reduce o (Arg 0) false []].
Proof.
  intros En. unfold rotate_and_reduce. rewrite chain_table by lia. 
  assert (K : forall k, (k <= m)%nat -> map2 replace (chain k) (entries k) = chain k).
  { induction k as [|k IH]; intros Hk; auto. rewrite chain_S, entries_S, map2_app by (rewrite chain_length, entries_length; auto). rewrite IH by lia. f_equal.
    cbn [Reduce_Model.link entry map2 replace]. rewrite Ho. cbn [snd find]. unfold candidate, isComplete. cbn [r_idx r_len initializeFromValue].
    change (length (set_of [0])) with 1%nat. destruct (Z.eqb_spec (Z.of_nat 1) n); [lia|]. rewrite !andb_false_r. cbn [andb].
    replace (length (zseq (k + 2))) with (k + 2)%nat by (unfold zseq; rewrite map_length, seq_length; auto). destruct (Z.eqb_spec (Z.of_nat (k + 2)) n); [lia|]. rewrite !andb_false_r. reflexivity. }
  rewrite chain_S, entries_S, map2_app by (rewrite chain_length, entries_length; auto). rewrite K by auto. f_equal.
  cbn [Reduce_Model.link entry map2 replace]. rewrite Ho. cbn [snd fst find]. unfold candidate, isComplete. cbn [r_idx r_len initializeFromValue].
  change (length (set_of [0])) with 1%nat. destruct (Z.eqb_spec (Z.of_nat 1) n); [lia|]. rewrite !andb_false_r. cbn [andb].
  replace (length (zseq (m + 2))) with (m + 2)%nat by (unfold zseq; rewrite map_length, seq_length; auto). destruct (Z.eqb_spec (Z.of_nat (m + 2)) n); [|lia].
  replace (m + 2)%nat with (S (S m)) by lia. rewrite (zseq_S (S m)), last_last. change (zseq (S m)) with (0 :: map Z.of_nat (seq 1 m)). cbn [app hd].
  destruct (Z.eqb_spec (Z.of_nat (S m)) (n - 1)); [|lia]. destruct (Z.ltb_spec 1 n); [|lia]. reflexivity.
Qed.
End Chain.
