From Coq Require Import List Bool ZArith Arith Lia.
From Verif Require Import Bits_Spec TensorScalars_Spec TensorScalars_Model.
Import ListNotations.

(** Induction over both kinds of expressions. *)
Section Ind.
  Variables (P : sexpr -> Prop) (Q : texpr -> Prop).
  Hypothesis HVar : forall n, P (SVar n).
  Hypothesis HPart : forall n i, P (SPart n i).
  Hypothesis HConst : forall z, P (SConst z).
  Hypothesis HBin : forall f a b, P a -> P b -> P (SBin f a b).
  Hypothesis HExtract : forall t idx, Q t -> P (SExtract t idx).
  Hypothesis HTVar : forall n s, Q (TVar n s).
  Hypothesis HElements : forall s l, Forall P l -> Q (TElements s l).
  Hypothesis HTConst : forall s l, Q (TConst s l).
  Hypothesis HInsert : forall s t idx, P s -> Q t -> Q (TInsert s t idx).
  Hypothesis HOther : forall f s t, Q t -> Q (TOther f s t).
  Fixpoint sexpr_rec' (s : sexpr) : P s :=
    match s with
    | SVar n => HVar n
    | SPart n i => HPart n i
    | SConst z => HConst z
    | SBin f a b => HBin f a b (sexpr_rec' a) (sexpr_rec' b)
    | SExtract t idx => HExtract t idx (texpr_rec' t)
    end
  with texpr_rec' (t : texpr) : Q t :=
    match t with
    | TVar n s => HTVar n s
    | TElements s l => HElements s l ((fix go l : Forall P l := match l with [] => Forall_nil P | x :: l => Forall_cons x (sexpr_rec' x) (go l) end) l)
    | TConst s l => HTConst s l
    | TInsert s t idx => HInsert s t idx (sexpr_rec' s) (texpr_rec' t)
    | TOther f s t => HOther f s t (texpr_rec' t)
    end.
End Ind.

(** *** Positions *)
Lemma elements_cons d s : elements (d :: s) = d * elements s.
Proof. reflexivity. Qed.
Lemma elements_app s d : elements (s ++ [d]) = elements s * d.
Proof. induction s as [|x s IH]; cbn [app]; rewrite ?elements_cons; [cbn; lia|]. rewrite IH. lia. Qed.
Lemma position_lt shape idx p : position shape idx = Some p -> p < elements shape.
Proof.
  revert idx p. induction shape as [|d shape IH]; intros [|i idx] p H; cbn [position] in H; try discriminate H.
  - injection H as <-. cbn. lia.
  - destruct (Nat.ltb_spec i d); [|discriminate H]. destruct (position shape idx) as [q|] eqn:E; [|discriminate H]. injection H as <-.
    apply IH in E. rewrite elements_cons. fold (elements shape). nia.
Qed.
Lemma column_lt shape idx p : position shape idx = Some p -> column_position shape idx < elements shape.
Proof.
  revert idx p. induction shape as [|d shape IH]; intros [|i idx] p H; cbn [position] in H; try discriminate H.
  - cbn. lia.
  - destruct (Nat.ltb_spec i d); [|discriminate H]. destruct (position shape idx) as [q|] eqn:E; [|discriminate H].
    apply IH in E. rewrite elements_cons. cbn [column_position]. nia.
Qed.
Lemma position_inj shape i j p : position shape i = Some p -> position shape j = Some p -> i = j.
Proof.
  revert i j p. induction shape as [|d shape IH]; intros [|i idx] [|j jdx] p Hi Hj; cbn [position] in *; try discriminate; auto.
  destruct (Nat.ltb_spec i d); [|discriminate Hi]. destruct (Nat.ltb_spec j d); [|discriminate Hj].
  destruct (position shape idx) as [a|] eqn:Ei; [|discriminate Hi]. destruct (position shape jdx) as [b|] eqn:Ej; [|discriminate Hj].
  cbn [option_map] in *. injection Hi as Hi. injection Hj as Hj. fold (elements shape) in *.
  pose proof (position_lt _ _ _ Ei). pose proof (position_lt _ _ _ Ej). assert (i = j) by nia. subst j.
  assert (a = b) by lia. subst b. f_equal. eapply IH; eauto.
Qed.
Lemma column_inj shape i j p q : position shape i = Some p -> position shape j = Some q ->
  column_position shape i = column_position shape j -> i = j.
Proof.
  revert i j p q. induction shape as [|d shape IH]; intros [|i idx] [|j jdx] p q Hi Hj H; cbn [position] in *; try discriminate; auto.
  destruct (Nat.ltb_spec i d); [|discriminate Hi]. destruct (Nat.ltb_spec j d); [|discriminate Hj].
  destruct (position shape idx) as [a|] eqn:Ei; [|discriminate Hi]. destruct (position shape jdx) as [b|] eqn:Ej; [|discriminate Hj].
  cbn [column_position] in H. set (x := column_position shape idx) in *. set (y := column_position shape jdx) in *.
  assert (x = y) by (destruct (Nat.lt_trichotomy x y) as [?|[?|?]]; auto; exfalso; nia).
  assert (i = j) by nia. subst j. f_equal. eapply IH; eauto.
Qed.
Lemma column_onto shape k : k < elements shape -> exists idx p, position shape idx = Some p /\ column_position shape idx = k.
Proof.
  revert k. induction shape as [|d shape IH]; intros k Hk.
  - exists [], 0. cbn in *. split; auto. lia.
  - rewrite elements_cons in Hk. destruct (IH (k / d)) as [idx [p [Hp Hc]]]; [apply Nat.div_lt_upper_bound; lia|].
    exists (k mod d :: idx). eexists. cbn [position column_position]. assert (d <> 0) by lia.
    destruct (Nat.ltb_spec (k mod d) d) as [_|Hge]; [|pose proof (Nat.mod_upper_bound k d); lia]. rewrite Hp. split; [reflexivity|].
    rewrite Hc. pose proof (Nat.div_mod k d). lia.
Qed.

Lemma offset_loop_spec shape : forall idx m o, offset_loop shape idx m o = o + m * column_position shape idx.
Proof.
  induction shape as [|d shape IH]; intros [|i idx] m o; cbn [offset_loop column_position]; try lia. rewrite IH. lia.
Qed.
Lemma offset_spec shape idx : offset shape idx = column_position shape idx.
Proof. unfold offset. rewrite offset_loop_spec. lia. Qed.

Lemma thin_ones shape : filter (fun d => negb (d =? 1)) shape = [] -> elements shape = 1 /\
  forall idx p, position shape idx = Some p -> p = 0 /\ column_position shape idx = 0.
Proof.
  induction shape as [|d shape IH]; intro H; cbn [filter] in H.
  - split; auto. intros [|] p Hp; [injection Hp as <-; auto|discriminate Hp].
  - destruct (Nat.eqb_spec d 1) as [->|]; [|discriminate H]. destruct (IH H) as [IH1 IH2]. rewrite elements_cons, IH1. split; [lia|].
    intros [|i idx] p Hp; cbn [position] in Hp; [discriminate Hp|]. destruct (Nat.ltb_spec i 1); [|discriminate Hp].
    destruct (position shape idx) as [q|] eqn:E; [|discriminate Hp]. injection Hp as <-. destruct (IH2 _ _ E) as [-> Hc].
    cbn [column_position]. rewrite Hc. nia.
Qed.
Lemma thin_same shape idx p : thin shape = true -> position shape idx = Some p -> column_position shape idx = p.
Proof.
  unfold thin. revert idx p. induction shape as [|d shape IH]; intros [|i idx] p Ht Hp; cbn [position filter] in *; try discriminate Hp.
  - injection Hp as <-. reflexivity.
  - destruct (Nat.ltb_spec i d); [|discriminate Hp]. destruct (position shape idx) as [q|] eqn:E; [|discriminate Hp]. injection Hp as <-.
    fold (elements shape). cbn [column_position]. destruct (Nat.eqb_spec d 1) as [->|]; cbn [negb] in Ht.
    + rewrite (IH _ _ Ht E). nia.
    + cbn [length] in Ht. apply Nat.leb_le in Ht.
      assert (Hf : filter (fun d => negb (d =? 1)) shape = []) by (destruct (filter (fun d0 : nat => negb (d0 =? 1)) shape); [reflexivity|cbn in Ht; lia]).
      destruct (thin_ones _ Hf) as [H1 H2]. destruct (H2 _ _ E) as [-> ->]. rewrite H1. lia.
Qed.
Lemma thin_column_major shape l : thin shape = true -> length l = elements shape -> column_major shape l l.
Proof. intros Ht Hl. split; auto. intros idx p Hp. rewrite (thin_same _ _ _ Ht Hp). reflexivity. Qed.
Lemma nth_error_same {A} (l1 l2 : list A) : (forall i, nth_error l1 i = nth_error l2 i) -> l1 = l2.
Proof.
  revert l2. induction l1 as [|x l1 IH]; intros [|y l2] H; auto; try (specialize (H 0); discriminate H).
  pose proof (H 0) as H0. injection H0 as ->. f_equal. apply IH. intro i. apply (H (S i)).
Qed.
Lemma thin_column_eq shape d l : thin shape = true -> length d = elements shape -> column_major shape d l -> l = d.
Proof.
  intros Ht Hd [Hl H]. apply nth_error_same. intro i. destruct (Nat.lt_ge_cases i (elements shape)) as [Hi|Hi].
  - destruct (column_onto _ _ Hi) as [idx [p [Hp Hc]]]. specialize (H _ _ Hp). pose proof (thin_same _ _ _ Ht Hp). congruence.
  - rewrite !(proj2 (nth_error_None _ _)) by lia. reflexivity.
Qed.

(** *** The order of the extracted scalars *)
Lemma nth_flat_map_blocks {A} (f : nat -> list A) n : forall d s k x, (forall i, length (f i) = n) ->
  nth_error (flat_map f (seq s d)) k = Some x -> exists i r, i < d /\ r < n /\ k = i * n + r /\ nth_error (f (s + i)) r = Some x.
Proof.
  induction d as [|d IH]; intros s k x Hn H; cbn [seq flat_map] in H; [destruct k; discriminate H|].
  destruct (Nat.lt_ge_cases k n) as [Hk|Hk].
  - rewrite nth_error_app1 in H by (rewrite Hn; auto). exists 0, k. rewrite Nat.add_0_r. repeat split; auto; lia.
  - rewrite nth_error_app2 in H by (rewrite Hn; auto). rewrite Hn in H. destruct (IH _ _ _ Hn H) as [i [r [Hi [Hr [E Hx]]]]].
    exists (S i), r. replace (s + S i) with (S s + i) by lia. repeat split; auto; lia.
Qed.
Lemma flat_map_blocks_length {A} (f : nat -> list A) n d s : (forall i, length (f i) = n) -> length (flat_map f (seq s d)) = d * n.
Proof. intro H. revert s. induction d as [|d IH]; intro s; cbn [seq flat_map]; auto. rewrite app_length, IH, H. lia. Qed.

Definition enumerates (shape : list nat) (l : list (list nat)) : Prop :=
  length l = elements shape /\
  forall k idx, nth_error l k = Some idx -> (exists p, position shape idx = Some p) /\ column_position shape idx = k.
Lemma valid_snoc P idx d i p : position P idx = Some p -> i < d -> exists q, position (P ++ [d]) (idx ++ [i]) = Some q.
Proof.
  revert idx p. induction P as [|x P IH]; intros [|y idx] p Hp Hi; cbn [position app] in *; try discriminate Hp.
  - destruct (Nat.ltb_spec i d); [|lia]. eexists. reflexivity.
  - destruct (y <? x); [|discriminate Hp]. destruct (position P idx) as [q|] eqn:E; [|discriminate Hp].
    destruct (IH _ _ E Hi) as [q' ->]. eexists. reflexivity.
Qed.
Lemma column_snoc P idx d i p : position P idx = Some p ->
  column_position (P ++ [d]) (idx ++ [i]) = column_position P idx + elements P * i.
Proof.
  revert idx p. induction P as [|x P IH]; intros [|y idx] p Hp; cbn [position app] in *; try discriminate Hp.
  - cbn. lia.
  - destruct (y <? x); [|discriminate Hp]. destruct (position P idx) as [q|] eqn:E; [|discriminate Hp].
    cbn [column_position]. rewrite (IH _ _ E), elements_cons. lia.
Qed.
Lemma add_dimension_spec P d l : (P = [] /\ l = [] \/ l <> [] /\ enumerates P l) -> enumerates (P ++ [d]) (add_dimension d l).
Proof.
  intros [[-> ->]|[Hne [Hl H]]]; unfold add_dimension.
  - split.
    + rewrite (flat_map_blocks_length _ 1) by reflexivity. cbn. lia.
    + intros k idx Hk. apply (nth_flat_map_blocks _ 1) in Hk; [|reflexivity]. destruct Hk as [i [r [Hi [Hr [-> Hx]]]]].
      assert (r = 0) by lia. subst r. cbn in Hx. injection Hx as <-. cbn [app position column_position].
      destruct (Nat.ltb_spec i d); [|lia]. split; [eexists; reflexivity|lia].
  - assert (E : forall i, length ((match l with [] => [[i]] | _ => [] end) ++ map (fun res => res ++ [i]) l) = elements P).
    { intro i. destruct l; [contradiction|]. cbn [app]. rewrite map_length. auto. }
    split.
    + rewrite (flat_map_blocks_length _ _ _ _ E), elements_app. lia.
    + intros k idx Hk. apply (nth_flat_map_blocks _ _ _ _ _ _ E) in Hk. destruct Hk as [i [r [Hi [Hr [-> Hx]]]]]. rewrite Nat.add_0_l in Hx.
      assert (Hx' : nth_error (map (fun res => res ++ [i]) l) r = Some idx) by (destruct l; [contradiction|exact Hx]).
      rewrite nth_error_map in Hx'. destruct (nth_error l r) as [res|] eqn:Er; [|discriminate Hx']. injection Hx' as <-.
      destruct (H _ _ Er) as [[p Hp] Hc]. split; [eapply valid_snoc; eauto|]. rewrite (column_snoc _ _ _ _ _ Hp), Hc. lia.
Qed.
Lemma all_indices_from_spec shape : forall P l, (forall d, In d shape -> 0 < d) -> (forall d, In d P -> 0 < d) ->
  (P = [] /\ l = [] /\ shape <> [] \/ l <> [] /\ enumerates P l) -> enumerates (P ++ shape) (all_indices_from shape l).
Proof.
  induction shape as [|d shape IH]; intros P l Hs HP H; cbn [all_indices_from].
  - rewrite app_nil_r. destruct H as [[_ [_ H]]|[_ H]]; [contradiction|auto].
  - replace (P ++ d :: shape) with ((P ++ [d]) ++ shape) by (rewrite <- app_assoc; reflexivity).
    assert (E : enumerates (P ++ [d]) (add_dimension d l)) by (apply add_dimension_spec; intuition).
    assert (HP' : forall x, In x (P ++ [d]) -> 0 < x) by (intros x Hx; apply in_app_iff in Hx as [Hx|[<-|[]]]; auto; apply Hs; left; auto).
    apply IH; auto; [intros x Hx; apply Hs; right; auto|]. right. split; auto.
    intro E0. destruct E as [E _]. rewrite E0 in E. cbn [length] in E.
    assert (0 < elements (P ++ [d])); [|lia]. clear -HP'. induction (P ++ [d]) as [|x s IH]; [cbn; lia|].
    rewrite elements_cons. assert (0 < x) by (apply HP'; left; auto). assert (0 < elements s) by (apply IH; intros; apply HP'; right; auto). nia.
Qed.
Lemma all_indices_spec shape : shape <> [] -> (forall d, In d shape -> 0 < d) -> enumerates shape (all_indices shape).
Proof. intros Hne Hpos. apply (all_indices_from_spec shape [] []); auto. intros d []. Qed.

(** *** Lists of scalars *)
Lemma all_some_nth {A B} (f : A -> option B) l r : all_some (map f l) = Some r ->
  length l = length r /\ forall i, nth_error r i = match nth_error l i with Some x => f x | None => None end.
Proof.
  revert r. induction l as [|x l IH]; intros r H; cbn [map all_some] in H.
  - injection H as <-. split; auto. intros [|]; reflexivity.
  - destruct (f x) as [y|] eqn:E; [|discriminate H]. destruct (all_some (map f l)) as [r'|]; [|discriminate H]. injection H as <-.
    destruct (IH _ eq_refl) as [H1 H2]. split; [cbn; lia|]. intros [|i]; cbn [nth_error]; auto.
Qed.
Lemma all_some_intro {A B} (f : A -> option B) l r : length l = length r -> (forall i x, nth_error l i = Some x -> f x = nth_error r i) ->
  all_some (map f l) = Some r.
Proof.
  revert r. induction l as [|x l IH]; intros [|y r] Hl H; try discriminate Hl; [reflexivity|]. cbn [map all_some].
  pose proof (H 0 x eq_refl) as H0. cbn [nth_error] in H0. rewrite H0, (IH r); [reflexivity|injection Hl; auto|]. intros i z Hz. apply (H (S i) z Hz).
Qed.
Lemma replace_length {A} i (x : A) l : length (replace i x l) = length l.
Proof. revert i. induction l as [|y l IH]; intros [|i]; cbn [replace length]; auto. Qed.
Lemma nth_replace {A} i (x : A) l j : nth_error (replace i x l) j = if (i =? j) && (j <? length l) then Some x else nth_error l j.
Proof.
  revert i j. induction l as [|y l IH]; intros [|i] [|j]; cbn [replace nth_error length]; auto; try (rewrite andb_false_r; reflexivity).
  rewrite IH. reflexivity.
Qed.

Lemma checked_some shape l d : checked shape l = Some d -> d = l /\ length d = elements shape.
Proof. unfold checked. destruct (Nat.eqb_spec (length l) (elements shape)); [|discriminate]. intro H. injection H as <-. auto. Qed.
Lemma checked_ok shape l : length l = elements shape -> checked shape l = Some l.
Proof. intro H. unfold checked. rewrite H, Nat.eqb_refl. reflexivity. Qed.
Lemma eval_t_length e t d : eval_t e t = Some d -> length d = elements (shape_of t).
Proof.
  revert d. induction t; intros d H; cbn [eval_t shape_of] in *.
  - apply checked_some in H. apply H.
  - destruct (all_some _); [|discriminate H]. apply checked_some in H. apply H.
  - apply checked_some in H. apply H.
  - destruct (eval_s e s); [|discriminate H]. destruct (eval_t e t); [|discriminate H]. destruct (position (shape_of t) idx); [|discriminate H].
    injection H as <-. rewrite replace_length. auto.
  - destruct (eval_t e t); [|discriminate H]. apply checked_some in H. apply H.
Qed.

(** The equations of the conversion. *)
Lemma convert_bin max f a b : convert_s max (SBin f a b) = match convert_s max a, convert_s max b with Some a, Some b => Some (SBin f a b) | _, _ => None end.
Proof. reflexivity. Qed.
Lemma convert_extract max t idx : convert_s max (SExtract t idx) =
  match convert_t max t with
  | Some (Parts l) => nth_error l (offset (shape_of t) idx) | Some (Whole t') => Some (SExtract t' idx) | None => None end.
Proof. reflexivity. Qed.
Lemma convert_var max n shape : convert_t max (TVar n shape) =
  Some (if converts max shape then Parts (map (SPart n) (seq 0 (elements shape))) else Whole (TVar n shape)).
Proof. reflexivity. Qed.
Lemma convert_elements max shape l : convert_t max (TElements shape l) =
  match all_some (map (convert_s max) l) with Some l => Some (if converts max shape then Parts l else Whole (TElements shape l)) | None => None end.
Proof. reflexivity. Qed.
Lemma convert_const max shape l : convert_t max (TConst shape l) = Some (if converts max shape then Parts (map SConst l) else Whole (TConst shape l)).
Proof. reflexivity. Qed.
Lemma convert_insert max s t idx : convert_t max (TInsert s t idx) =
  match convert_s max s, convert_t max t with
  | Some s, Some (Parts l) => if offset (shape_of t) idx <? length l then Some (Parts (replace (offset (shape_of t) idx) s l)) else None
  | Some s, Some (Whole t) => Some (Whole (TInsert s t idx))
  | _, _ => None
  end.
Proof. reflexivity. Qed.
Lemma convert_other max f shape t : convert_t max (TOther f shape t) =
  match convert_t max t with
  | Some c => if converts max shape then option_map Parts (extracts (TOther f shape (as_tensor (shape_of t) c)))
              else Some (Whole (TOther f shape (as_tensor (shape_of t) c)))
  | None => None
  end.
Proof. reflexivity. Qed.

Section Main.
  Variables (max : nat) (shapes : nat -> list nat) (e : env).
  Hypothesis Hargs : forall n, small max (shapes n) = true -> column_major (shapes n) (tensors e n) (parts e n).

  Definition good (shape : list nat) (d : list Z) (c : converted) : Prop :=
    match c with
    | Parts l => small max shape = true /\ exists d', all_some (map (eval_s e) l) = Some d' /\ column_major shape d d'
    | Whole t' => small max shape = false /\ shape_of t' = shape /\ eval_t e t' = Some d
    end.

  Lemma as_tensor_eval shape d c : length d = elements shape -> (small max shape = true -> thin shape = true) -> good shape d c ->
    eval_t e (as_tensor shape c) = Some d /\ shape_of (as_tensor shape c) = shape.
  Proof.
    intros Hd Ht. destruct c as [l|t']; cbn [good as_tensor].
    - intros [Hs [d' [Hl Hc]]]. cbn [eval_t shape_of]. rewrite Hl. pose proof (thin_column_eq _ _ _ (Ht Hs) Hd Hc). subst d'. rewrite checked_ok by auto. auto.
    - intros [_ [H1 H2]]. auto.
  Qed.

  Lemma convert_ok :
    (forall s, supported_s max shapes s -> forall v, eval_s e s = Some v -> exists s', convert_s max s = Some s' /\ eval_s e s' = Some v) /\
    (forall t, supported_t max shapes t -> forall d, eval_t e t = Some d -> exists c, convert_t max t = Some c /\ good (shape_of t) d c).
  Proof.
    pose (P := fun s => supported_s max shapes s -> forall v, eval_s e s = Some v -> exists s', convert_s max s = Some s' /\ eval_s e s' = Some v).
    pose (Q := fun t => supported_t max shapes t -> forall d, eval_t e t = Some d -> exists c, convert_t max t = Some c /\ good (shape_of t) d c).
    assert (H : forall (R : Prop), ((forall n, P (SVar n)) -> (forall n i, P (SPart n i)) -> (forall z, P (SConst z)) ->
      (forall f a b, P a -> P b -> P (SBin f a b)) -> (forall t idx, Q t -> P (SExtract t idx)) -> (forall n s, Q (TVar n s)) ->
      (forall s l, Forall P l -> Q (TElements s l)) -> (forall s l, Q (TConst s l)) -> (forall s t idx, P s -> Q t -> Q (TInsert s t idx)) ->
      (forall f s t, Q t -> Q (TOther f s t)) -> R) -> R).
    { intros R HR. apply HR; unfold P, Q; clear R HR P Q.
      - intros n _ v H. exists (SVar n). auto.
      - intros n i [].
      - intros z _ v H. exists (SConst z). auto.
      - intros f a b IHa IHb [Ha Hb] v H. rewrite convert_bin. cbn [eval_s eval_t] in *. destruct (eval_s e a) as [x|]; [|discriminate H].
        destruct (eval_s e b) as [y|]; [|discriminate H]. destruct (IHa Ha _ eq_refl) as [a' [-> Ea]]. destruct (IHb Hb _ eq_refl) as [b' [-> Eb]].
        eexists. split; [reflexivity|]. cbn [eval_s eval_t]. rewrite Ea, Eb. exact H.
      - intros t idx IH Ht v H. rewrite convert_extract. cbn [eval_s eval_t supported_s supported_t] in *. destruct (eval_t e t) as [d|] eqn:E; [|discriminate H].
        destruct (position (shape_of t) idx) as [p|] eqn:Ep; [|discriminate H]. destruct (IH Ht _ eq_refl) as [c [-> G]]. destruct c as [l|t']; cbn [good] in G.
        + destruct G as [_ [d' [Hl [Hd' Hc]]]]. apply all_some_nth in Hl as [Hlen Hl]. specialize (Hc _ _ Ep). rewrite H, Hl in Hc.
          rewrite offset_spec. destruct (nth_error l (column_position (shape_of t) idx)) as [s'|]; [|discriminate Hc]. exists s'. auto.
        + destruct G as [_ [G1 G2]]. exists (SExtract t' idx). split; auto. cbn [eval_s eval_t]. rewrite G2, G1, Ep. exact H.
      - intros n s Hs d H. rewrite convert_var. cbn [eval_s eval_t supported_t shape_of] in *. subst s. eexists. split; [reflexivity|]. apply checked_some in H as [-> Hd].
        unfold converts. destruct (elements (shapes n) <=? max) eqn:E; cbn [good].
        + split; [exact E|]. destruct (Hargs n E) as [Hp Hc]. exists (parts e n). split; [|split; auto].
          apply all_some_intro; [rewrite map_length, seq_length; auto|]. intros i x Hx. rewrite nth_error_map in Hx.
          destruct (nth_error (seq 0 (elements (shapes n))) i) as [j|] eqn:Ej; [|discriminate Hx]. injection Hx as <-. cbn [eval_s eval_t].
          assert (Hi : i < elements (shapes n)) by (rewrite <- (seq_length (elements (shapes n)) 0); apply nth_error_Some; rewrite Ej; discriminate).
          apply nth_error_nth with (d := 0) in Ej. rewrite seq_nth in Ej by auto. subst j. reflexivity.
        + split; [exact E|]. split; auto. cbn [eval_s eval_t]. apply checked_ok. auto.
      - intros shape l IH [Hthin Hsup] d H. rewrite convert_elements. cbn [eval_s eval_t shape_of] in *. destruct (all_some (map (eval_s e) l)) as [r|] eqn:E; [|discriminate H].
        apply checked_some in H as [-> Hlen].
        assert (Hall : exists l', all_some (map (convert_s max) l) = Some l' /\ all_some (map (eval_s e) l') = Some r).
        { clear Hlen. revert r E. induction IH as [|s l Hs IH IHl]; intros r E.
          - exists []. auto.
          - cbn [map all_some fold_right] in *. destruct Hsup as [Hs' Hsup]. destruct (eval_s e s) as [v|]; [|discriminate E].
            destruct (all_some (map (eval_s e) l)) as [r'|]; [|discriminate E]. injection E as <-. destruct (IHl Hsup _ eq_refl) as [l' [E1 E2]].
            destruct (Hs Hs' _ eq_refl) as [s' [-> Es]]. exists (s' :: l'). rewrite E1. split; auto. cbn [map all_some]. rewrite Es, E2. reflexivity. }
        destruct Hall as [l' [-> El]]. eexists. split; [reflexivity|]. unfold converts. destruct (elements shape <=? max) eqn:Em; cbn [good].
        + split; auto. exists r. split; auto. apply thin_column_major; auto.
        + split; auto. split; auto. cbn [eval_s eval_t]. rewrite El. apply checked_ok. auto.
      - intros shape l Hthin d H. rewrite convert_const. cbn [eval_s eval_t shape_of supported_t] in *. pose proof H as H'. apply checked_some in H as [-> Hlen].
        eexists. split; [reflexivity|]. unfold converts. destruct (elements shape <=? max) eqn:Em; cbn [good].
        + split; auto. exists l. split; [|apply thin_column_major; auto]. apply all_some_intro; [apply map_length|]. intros i x Hx.
          rewrite nth_error_map in Hx. destruct (nth_error l i); [|discriminate Hx]. injection Hx as <-. reflexivity.
        + auto.
      - intros s t idx IHs IHt [Hs Ht] d H. rewrite convert_insert. cbn [eval_s eval_t shape_of] in *. destruct (eval_s e s) as [x|]; [|discriminate H].
        destruct (eval_t e t) as [l|] eqn:El; [|discriminate H]. destruct (position (shape_of t) idx) as [p|] eqn:Ep; [|discriminate H]. injection H as <-.
        destruct (IHs Hs _ eq_refl) as [s' [-> Es]]. destruct (IHt Ht _ eq_refl) as [c [-> G]]. pose proof (eval_t_length _ _ _ El) as Hl. destruct c as [ps|t']; cbn [good] in G.
        + destruct G as [Gs [d' [G1 [G2 G3]]]]. apply all_some_nth in G1 as [G4 G5]. rewrite offset_spec. pose proof (column_lt _ _ _ Ep) as Hlt.
          destruct (Nat.ltb_spec (column_position (shape_of t) idx) (length ps)) as [_|Hge]; [|lia]. eexists. split; [reflexivity|]. cbn [good]. split; auto.
          exists (replace (column_position (shape_of t) idx) x d'). split; [apply all_some_intro|split].
          * rewrite !replace_length. auto.
          * intros i y Hy. rewrite nth_replace in Hy. rewrite nth_replace. rewrite G4 in Hy. destruct ((column_position (shape_of t) idx =? i) && (i <? length d')); [injection Hy as <-; auto|].
            rewrite G5, Hy. reflexivity.
          * rewrite replace_length. auto.
          * intros jdx q Hq. rewrite !nth_replace. pose proof (column_lt _ _ _ Hq). pose proof (position_lt _ _ _ Hq).
            destruct (Nat.ltb_spec (column_position (shape_of t) jdx) (length d')); [|lia]. destruct (Nat.ltb_spec q (length l)); [|lia]. rewrite !andb_true_r.
            destruct (Nat.eqb_spec (column_position (shape_of t) idx) (column_position (shape_of t) jdx)) as [Ec|Ec]; destruct (Nat.eqb_spec p q) as [Eq|Eq]; auto.
            -- exfalso. pose proof (column_inj _ _ _ _ _ Ep Hq Ec) as E'. subst jdx. congruence.
            -- exfalso. subst q. pose proof (position_inj _ _ _ _ Ep Hq). congruence.
        + destruct G as [Gs [G1 G2]]. eexists. split; [reflexivity|]. cbn [good]. split; auto. cbn [shape_of eval_s eval_t]. split; auto. rewrite Es, G2, G1, Ep. reflexivity.
      - intros f shape t IH [Hin [Hout Ht]] d H. rewrite convert_other. cbn [eval_s eval_t shape_of] in *. destruct (eval_t e t) as [l|] eqn:El; [|discriminate H].
        destruct (IH Ht _ eq_refl) as [c [-> G]]. apply checked_some in H as [-> Hlen].
        destruct (as_tensor_eval _ _ _ (eval_t_length _ _ _ El) Hin G) as [A1 A2].
        assert (Ho : eval_t e (TOther f shape (as_tensor (shape_of t) c)) = Some (f l)) by (cbn [eval_s eval_t]; rewrite A1; apply checked_ok; auto).
        unfold converts. change (elements shape <=? max) with (small max shape). destruct (small max shape) eqn:Em.
        + destruct (Hout eq_refl) as [Hne Hpos]. pose proof (all_indices_spec _ Hne Hpos) as [I1 I2].
          set (o := TOther f shape (as_tensor (shape_of t) c)) in *.
          assert (Ex : extracts o = Some (map (SExtract o) (all_indices shape))).
          { unfold extracts. change (shape_of o) with shape. destruct shape as [|d0 shape']; [contradiction|]. rewrite map_length, I1, Nat.eqb_refl. reflexivity. }
          rewrite Ex. eexists. split; [reflexivity|]. cbn [good]. split; auto.
          pose (d' := map (fun idx => match position shape idx with Some p => nth p (f l) 0%Z | None => 0%Z end) (all_indices shape)). exists d'.
          assert (Hd' : length d' = elements shape) by (unfold d'; rewrite map_length; auto).
          split; [|split; auto].
          * apply all_some_intro; [unfold d'; rewrite !map_length; auto|]. intros i x Hx. rewrite nth_error_map in Hx.
            unfold d'. rewrite nth_error_map. destruct (nth_error (all_indices shape) i) as [idx|] eqn:Ei; [|discriminate Hx]. injection Hx as <-.
            destruct (I2 _ _ Ei) as [[p Hp] _]. cbn [eval_s eval_t option_map]. rewrite Ho. change (shape_of o) with shape. rewrite Hp.
            apply nth_error_nth'. rewrite Hlen. eapply position_lt; eauto.
          * intros idx p Hp. pose proof (column_lt _ _ _ Hp) as Hlt. unfold d'. rewrite nth_error_map.
            destruct (nth_error (all_indices shape) (column_position shape idx)) as [jdx|] eqn:Ej; [|apply nth_error_None in Ej; lia].
            destruct (I2 _ _ Ej) as [[q Hq] Hc]. pose proof (column_inj _ _ _ _ _ Hq Hp Hc). subst jdx. cbn [option_map]. rewrite Hp. cbn [option_map].
            symmetry. apply nth_error_nth'. rewrite Hlen. eapply position_lt; eauto.
        + eexists. split; [reflexivity|]. cbn [good]. auto. }
    split; intro x; apply H; intros; [apply (sexpr_rec' P Q); auto|apply (texpr_rec' P Q); auto].
  Qed.
End Main.
